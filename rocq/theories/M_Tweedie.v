(** Model of the Tweedie normalising series, src/glum/_functions.pyx: 421-471.
    C doubles that hold integers (j_lower, j_upper) are [Z]; the C loops [while] are recursions on a
    fuel argument ([None] = fuel exhausted); lgamma is a parameter and lgamma(0) = +oo is modelled by
    [None] for the log of the summand ( -oo ). *)
From Verif Require Import Base.
From Coq Require Import ZArith.
Local Open Scope R_scope.

Section Series.
Variable lgamma : R -> R.

(** _functions.pyx: 464-471 (_log_z) *)
Definition log_z (y power dispersion : R) : R :=
  let alpha := (2 - power) / (1 - power) in
  alpha * ln (power - 1) - alpha * ln y - (1 - alpha) * ln dispersion - ln (2 - power).
(** _functions.pyx: 460-462 (_log_w_j); None is -oo, the value at j = 0, where lgamma(-alpha * 0) = +oo *)
Definition log_w_j (y power dispersion j : R) : option R :=
  let alpha := (2 - power) / (1 - power) in
  if Reqb j 0 then None
  else Some (j * log_z y power dispersion - lgamma (1 + j) - lgamma (- alpha * j)).

(** comparisons of a C double that may be -oo with a finite one: w >= c, w <= c *)
Definition w_ge (w : option R) (c : R) : bool := match w with Some x => Rleb c x | None => false end.
Definition w_le (w : option R) (c : R) : bool := match w with Some x => Rleb x c | None => true end.

(** C floor and ceil *)
Definition zfloor (x : R) : Z := (up x - 1)%Z.
Definition zceil (x : R) : Z := (- zfloor (- x))%Z.

(** _functions.pyx: 450-452, 453-455: the two while loops of _sum_limits *)
Fixpoint lower_loop (fuel : nat) (y power dispersion w_crt : R) (j : Z) : option Z :=
  match fuel with
  | O => None
  | S k => if w_ge (log_w_j y power dispersion (IZR j)) w_crt
           then lower_loop k y power dispersion w_crt (j - 1) else Some j
  end.
Fixpoint upper_loop (fuel : nat) (y power dispersion w_crt : R) (j : Z) : option Z :=
  match fuel with
  | O => None
  | S k => if w_ge (log_w_j y power dispersion (IZR j)) w_crt
           then upper_loop k y power dispersion w_crt (j + 1) else Some j
  end.
(** _functions.pyx: 436-458 (_sum_limits) *)
Definition sum_limits (fuel : nat) (y power dispersion j_max : R) : option (Z * Z) :=
  match log_w_j y power dispersion j_max with
  | None => None
  | Some w =>
      let w_crt := w - 37 in
      let j_lower := if w_le (log_w_j y power dispersion 1) w_crt
                     then lower_loop fuel y power dispersion w_crt (zfloor j_max)
                     else Some 1%Z in
      let j_upper := upper_loop fuel y power dispersion w_crt (zceil j_max) in
      match j_lower, j_upper with Some l, Some u => Some (l, u) | _, _ => None end
  end.
(** Python's range(lo, hi + 1) *)
Definition zrange (lo hi : Z) : list Z := map (fun k => (lo + Z.of_nat k)%Z) (seq 0 (Z.to_nat (hi + 1 - lo))).
(** _functions.pyx: 421-434 (_tweedie_normalization) *)
Definition tweedie_normalization (fuel : nat) (y power dispersion : R) : option R :=
  let j_max := exp ((2 - power) * ln y - ln dispersion - ln (2 - power)) in
  match log_w_j y power dispersion j_max, sum_limits fuel y power dispersion j_max with
  | Some w_max, Some (j_lower, j_upper) =>
      let w_summand := lsumf (fun j => match log_w_j y power dispersion (IZR j) with
                                       | Some w => exp (w - w_max) | None => 0 end) (zrange j_lower j_upper) in
      Some (w_max + ln w_summand - ln y)
  | _, _ => None
  end.
(** the normalisation as the function of y, p, phi that tweedie_log_likelihood uses *)
Definition tw_series (fuel : nat) (y power dispersion : R) : R :=
  match tweedie_normalization fuel y power dispersion with Some v => v | None => 0 end.
End Series.
