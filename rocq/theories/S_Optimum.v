(** Specification side of C108: the optimum of the objective, and when there is exactly one. *)
From Coq Require Import List Arith.
From Verif Require Import Base M_Std S_Std S_Fit M_Valid M_Fit S_FitAll S_Separation.
From Verif Require Import M_Solver S_Solver.
Local Open Scope R_scope.

(** Intercept and coefficients the model allows. *)
Definition allowed (u : user) (b0 : R) (b : nat -> R) : Prop := (u_ic u = false -> b0 = 0) /\ user_feasible u b.
(** The best of them: the promise of the documentation of fit. *)
Definition optimum (u : user) (b0 : R) (b : nat -> R) : Prop :=
  allowed u b0 b /\ forall b0' b', allowed u b0' b' -> user_obj u (pen_scale u) b0 b <= user_obj u (pen_scale u) b0' b'.
(** Curvature that does not depend on the point: that of the L2 penalty and, for least squares, of the deviance. *)
Definition curvature (u : user) (d0 : R) (d : nat -> R) : R :=
  user_l2 u (pen_scale u) d
  + match u_fam u, u_link u with NormalF, IdentityL => rsum (u_n u) (fun i => u_w u i * tilt u d0 d i ^ 2) | _, _ => 0 end.
Definition curved (u : user) (m : R) : Prop :=
  0 < m /\ forall d0 d, (u_ic u = false -> d0 = 0) -> m * (d0 ^ 2 + rsum (u_p u) (fun j => d j ^ 2)) <= curvature u d0 d.
