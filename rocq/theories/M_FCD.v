(** Floating-point model of coordinate descent and of the coefficient updates around it: every arithmetic
    operation of the code is followed by the rounding [r] (rnd64 for double, rnd32 for float data).
    Comparisons, max, sign, negation and absolute values are exact.  No overflow. *)
From Coq Require Import Reals ZArith Lra Lia List. Import ListNotations.
From Verif Require Import Base M_CD M_Std M_Float.
Local Open Scope R_scope.

Section Rounded.
Variable r : R -> R.

(** _cd_fast.pyx 182-185 *)
Definition f_update_q (a : cd_args) (k : nat) (dw : R) (q : nat -> R) : nat -> R :=
  fold_left (fun q kj => let jj := nth kj (cd_act a) 0%nat in upd q jj (r (q jj + r (dw * cd_Q a k kj))))
            (seq 0 (length (cd_act a))) q.
(** _cd_fast.pyx 158-193 *)
Definition f_visit (a : cd_args) (k : nat) (s : cd_state) : cd_state :=
  let ii := nth k (cd_act a) 0%nat in
  let p := cd_pen (cd_P1 a) (cd_ic a) ii in
  let Qk := cd_Q a k k in
  if Rleb Qk (cd_eps a) then s
  else
    let w_ii := cs_w s ii in
    let qt := r (cs_q s ii - r (cs_w s ii * Qk)) in
    let w1 := r (r (fsign (- qt) * fmax (r (Rabs qt - p)) 0) / Qk) in
    let w2 := cd_clip a ii w1 in
    let q' := if negb (Reqb w2 0) || negb (Reqb w_ii 0) then f_update_q a k (r (w2 - w_ii)) (cs_q s) else cs_q s in
    let dw := Rabs (r (w2 - w_ii)) in
    mkCS (upd (cs_w s) ii w2) q'
         (if Rltb (cs_wmax s) (Rabs w2) then Rabs w2 else cs_wmax s)
         (if Rltb (cs_dwmax s) dw then dw else cs_dwmax s).
(** _cd_fast.pyx 153-193 *)
Fixpoint f_sweep (a : cd_args) (m f : nat) (seed : N) (s : cd_state) : N * cd_state :=
  match m with
  | O => (seed, s)
  | S m' =>
      let (k, seed') := if cd_random a then rand_int (length (cd_act a)) seed else (f, seed) in
      f_sweep a m' (S f) seed' (f_visit a k s)
  end.
(** _cd_fast.pyx 275-287 *)
Definition f_term (coef grad P1 : R) (l u : option R) : R :=
  let t0 := if Reqb coef 0 then r (fsign grad * fmax (r (Rabs grad - P1)) 0) else r (grad + r (fsign coef * P1)) in
  let t1 := if at_bound coef l && Rltb 0 t0 then 0 else t0 in
  if at_bound coef u && Rltb t1 0 then 0 else t1.
(** _cd_fast.pyx 264-290, the norm *)
Fixpoint f_norm (act : list nat) (coef grad P1 : nat -> R) (ic : bool) (lb ub : bounds) (norm : R) : R :=
  match act with
  | [] => norm
  | i :: act' =>
      if Nat.ltb i (ioff ic) then f_norm act' coef grad P1 ic lb ub (Rabs (grad 0%nat))
      else let j := (i - ioff ic)%nat in
           f_norm act' coef grad P1 ic lb ub (r (norm + Rabs (f_term (coef i) (grad i) (P1 j) (lb j) (ub j))))
  end.
(** _cd_fast.pyx 150-215; result: w *)
Fixpoint f_loop (a : cd_args) (m : nat) (seed : N) (w q : nat -> R) : nat -> R :=
  match m with
  | O => w
  | S m' =>
      let (seed', s) := f_sweep a (length (cd_act a)) 0 seed (mkCS w q 0 0) in
      if (Reqb (cs_wmax s) 0 || Rltb (r (cs_dwmax s / cs_wmax s)) (cd_tol a) || Nat.eqb m' 0)
         && Rleb (f_norm (cd_act a) (cs_w s) (cs_q s) (cd_P1 a) (cd_ic a) (cd_lb a) (cd_ub a) 0) (cd_tol a)
      then cs_w s else f_loop a m' seed' (cs_w s) (cs_q s)
  end.
(** _cd_fast.pyx 109-215 *)
Definition f_cd (a : cd_args) (seed : N) (w q : nat -> R) : nat -> R := f_loop a (cd_max_iter a) seed w q.

(** _solvers.py 59-77 (new_coef - state.coef), 798-801, 830, 847 (step, coef + step).  factor = 0.5 ** k is
    exact in binary. *)
Definition f_iter (a : cd_args) (seed : N) (k : nat) (w q : nat -> R) : nat -> R :=
  let new := f_cd a seed w q in
  fun i => let d := r (new i - w i) in r (w i + r (/ 2 ^ k * d)).

(** _utils.py 303-313: 1 / arr, 1 where arr is tiny ([tiny] is 10 * sqrt(eps) of the data type) *)
Definition f_one_over (tiny x : R) : R := if Rltb (Rabs x) tiny then 1 else r (1 / x).
(** _utils.py 252-258, [m]: inv_col_stds *)
Definition f_std_bounds (b : bounds) (m : nat -> R) : bounds :=
  fun j => match b j with Some x => Some (r (x / m j)) | None => None end.
(** _utils.py 299 *)
Definition f_unstd (m : nat -> R) (w : nat -> R) : nat -> R := fun j => r (w j * m j).
End Rounded.

(** The coefficients a run of irls-cd can reach: _solvers.py 289-340.  Scores, Hessians, active sets,
    tolerances, seeds and the step length 0.5 ** k, k < 20, of every iteration are arbitrary; bounds and
    intercept option are those of the fit. *)
Inductive f_reach (r : R -> R) (ic : bool) (lb ub : bounds) (start : nat -> R) : (nat -> R) -> Prop :=
| FR0 : f_reach r ic lb ub start start
| FRS w a seed k q : f_reach r ic lb ub start w ->
    cd_ic a = ic -> cd_lb a = lb -> cd_ub a = ub -> (k < 20)%nat ->
    f_reach r ic lb ub start (f_iter r a seed k w q).
