(** Specification side of C117: how far and how often irls-cd can move. *)
From Verif Require Import Base S_Link S_Dist S_CD S_Pace S_Quad.
From Verif Require Import M_Solver S_Solver.
Local Open Scope R_scope.

(** the L2 penalty is at least lambda times the squared norm (no unpenalised intercept then) *)
Definition l2_above (pb : problem) (P2 : P2t) (lambda : R) : Prop := forall v : nat -> R, lambda * rsum (nc pb) (fun k => v k ^ 2) <= l2_form pb P2 v.
(** where the curvature comes from: from the L2 penalty (whatever hessian_approx is), or from the Hessian at c if every row is updated *)
Definition curved (pb : problem) (P2 : P2t) (lambda : R) (c : nat -> R) : Prop :=
  l2_above pb P2 lambda \/ (pb_approx pb = 0 /\ hessian_above pb P2 lambda c).
(** squared Euclidean distance of two coefficient vectors *)
Definition moved (pb : problem) (c c' : nat -> R) : R := rsum (nc pb) (fun k => (c' k - c k) ^ 2).
(** how many of the first n iterations move the coefficients by a distance of at least e *)
Fixpoint long_steps (pb : problem) (hist : nat -> state) (e : R) (n : nat) : nat :=
  match n with
  | O => O
  | S m => (long_steps pb hist e m + if Rle_dec (e ^ 2) (moved pb (st_coef (hist m)) (st_coef (hist (S m)))) then 1 else 0)%nat
  end.
