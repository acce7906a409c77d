(** Specification side of C115: quadratic convergence of the Newton iterations of irls-ls in logistic regression. *)
From Verif Require Import Base S_Link S_Dist S_CD S_Pace.
From Verif Require Import M_Solver S_Solver.
Local Open Scope R_scope.

(** The Hessian of the objective at c is at least lambda times the identity. *)
Definition hessian_above (pb : problem) (P2 : P2t) (lambda : R) (c : nat -> R) : Prop :=
  forall v : nat -> R, lambda * rsum (nc pb) (fun k => v k ^ 2)
    <= rsum (nc pb) (fun k => rsum (nc pb) (fun l => v k * exact_hessian pb (hrow_of pb c) P2 k l * v l)).
(** the gradient norm of the stopping test (no L1 penalty, no bounds): the sum of the absolute partial derivatives *)
Definition grad_norm (pb : problem) (P2 : P2t) (c : nat -> R) : R := rsum (nc pb) (fun k => Rabs (score_of pb P2 c k)).
(** weighted sum of the cubes of the rows' absolute sums (intercept column included) *)
Definition cubic_size (pb : problem) : R := rsum (pb_n pb) (fun i => pb_w pb i * rsum (nc pb) (fun k => Rabs (xt pb i k)) ^ 3).
(** consecutive states of the solver *)
Definition run_from (pb : problem) (inner : inner_solver) (s : state) (n : nat) (hist : nat -> state) : Prop :=
  hist 0%nat = s /\ forall k, (k < n)%nat -> irls_step pb inner (hist k) = Some (hist (S k)).
