(** Specification for C79. *)
From Coq Require Import ZArith.
From Verif Require Import Base M_Std M_Fit M_Diag.
From Verif Require Import M_Solver.
Local Open Scope R_scope.

(** the documented stopping test, read off a row of the diagnostics *)
Definition row_passes (se : settings) (r : diag_row) : Prop :=
  dg_conv r < se_gtol se \/ exists t, se_stol se = Some t /\ dg_step r < t.

(** the number of iterations a solver may take: max_iter, but one for a Gaussian identity model *)
Definition iteration_limit (u : user) (se : settings) : Z :=
  match u_fam u, u_link u with NormalF, IdentityL => 1%Z | _, _ => Z.max 0 (se_max_iter se) end.

Definition no_row : diag_row := mkDiag 0 0 0 0 0 0 0 0 0 None.
