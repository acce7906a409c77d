(** Specification side of C89: the same model with its columns in another order. *)
From Verif Require Import Base M_Std M_Fit.
From Verif Require Import M_Solver.
Local Open Scope R_scope.

(** [from j]: the old position of the new column j, [to] the other way round. *)
Definition reordering (p : nat) (from to : nat -> nat) : Prop :=
  (forall j, (j < p)%nat -> (from j < p)%nat /\ to (from j) = j) /\
  (forall j, (j < p)%nat -> (to j < p)%nat /\ from (to j) = j).

(** Everything that belongs to a column moves with it: values, penalties, bounds. *)
Definition reordered (from : nat -> nat) (u : user) : user :=
  mkUser (u_n u) (u_p u) (fun i j => u_X u i (from j)) (u_y u) (u_w u) (u_off u) (u_ic u) (u_fam u) (u_link u)
         (fun j => u_P1 u (from j))
         (match u_P2 u with P2diag v => P2diag (fun j => v (from j)) | P2mat M => P2mat (fun i j => M (from i) (from j)) end)
         (fun j => u_lb u (from j)) (fun j => u_ub u (from j)) (u_scale u).
Definition reordered_ineq (from : nat -> nat) (q : ineq) : ineq :=
  mkIneq (iq_m q) (fun r j => iq_A q r (from j)) (iq_b q).
