(** Specification side of C116: quadratic convergence for every pair with an exact Hessian, from conditions at the start only. *)
From Verif Require Import Base S_Link S_Dist S_CD S_Pace S_Quad.
From Verif Require Import M_Solver S_Solver.
Local Open Scope R_scope.

(** every row of the design (intercept column included) has an absolute sum of at most X *)
Definition rows_within (pb : problem) (X : R) : Prop := forall i, (i < pb_n pb)%nat -> rsum (nc pb) (fun k => Rabs (xt pb i k)) <= X.
(** no linear predictor within distance r of that of c has a mean that reaches the overflow limit of the line search *)
Definition means_small (pb : problem) (c : nat -> R) (r : R) : Prop := forall i e, (i < pb_n pb)%nat -> Rabs (e - eta_of pb c i) <= r ->
  search_mean (pb_fam pb) (pb_link pb) e < pb_large pb.
