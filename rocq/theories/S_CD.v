(** Specification vocabulary for coordinate descent and optimality: plain mathematics. *)
From Verif Require Import Base.

(** A value respects an optional lower and an optional upper bound. *)
Definition within (l u : option R) (x : R) : Prop :=
  (forall b, l = Some b -> b <= x) /\ (forall b, u = Some b -> x <= b).

(** The elastic-net quadratic model around the point [w0] with gradient [g0] and curvature [H],
    over the coordinates in [S] (positions k <-> coordinates nth k S 0):
      g0.(w-w0) + 1/2 (w-w0)' H (w-w0) + sum p_i |w_i|                                  *)
Definition quad_model (S : list nat) (H : nat -> nat -> R) (g0 p w0 w : nat -> R) : R :=
  let n := length S in
  let at_ (v : nat -> R) k := v (nth k S 0%nat) in
  let d k := at_ w k - at_ w0 k in
  rsum n (fun k => at_ g0 k * d k)
  + / 2 * rsum n (fun k => rsum n (fun l => d k * H k l * d l))
  + rsum n (fun k => at_ p k * Rabs (at_ w k)).

(** gradient of the smooth part of the model at [w], at position [k] *)
Definition quad_grad (S : list nat) (H : nat -> nat -> R) (g0 w0 w : nat -> R) (k : nat) : R :=
  let at_ (v : nat -> R) k := v (nth k S 0%nat) in
  at_ g0 k + rsum (length S) (fun l => (at_ w l - at_ w0 l) * H l k).

Definition symmetric (n : nat) (H : nat -> nat -> R) : Prop :=
  forall i j, (i < n)%nat -> (j < n)%nat -> H i j = H j i.

(** replace one coordinate *)
Definition subst1 (w : nat -> R) (i : nat) (t : R) : nat -> R := fun j => if Nat.eqb j i then t else w j.

(** First-order optimality of one coordinate of  f(w) + p|w|  within optional bounds:
    no admissible move decreases the linearised objective. *)
Definition coord_stationary (g p : R) (l u : option R) (x : R) : Prop :=
  forall t, within l u t -> 0 <= g * (t - x) + p * (Rabs t - Rabs x).

(** Penalty weight and bounds of coordinate [i] of a coefficient vector whose first
    entry is an unpenalised, unbounded intercept when [ic]. *)
Definition pen_of (ic : bool) (P1 : nat -> R) (i : nat) : R :=
  match ic, i with true, O => 0 | true, S j => P1 j | false, j => P1 j end.
Definition bnd_of (ic : bool) (b : nat -> option R) (i : nat) : option R :=
  match ic, i with true, O => None | true, S j => b j | false, j => b j end.

(** [f] has gradient [g] at [w] as a supporting hyperplane over the first [n] coordinates
    (true for the gradient of a convex differentiable function). *)
Definition supports (n : nat) (f : (nat -> R) -> R) (w g : nat -> R) : Prop :=
  forall v, f v >= f w + rsum n (fun i => g i * (v i - w i)).
