(** Specification side of C96: one model contains another. *)
From Coq Require Import List Arith.
From Verif Require Import Base M_Std S_Std.
From Verif Require Import M_Solver S_Solver.
Local Open Scope R_scope.

(** u' has the columns of u and possibly more, the same rows, family, link and penalties on the common columns; its bounds
    on the common columns are not tighter and the additional coefficients may be zero. *)
Record contains (u u' : user) : Prop := {
  ct_n : u_n u' = u_n u;
  ct_p : (u_p u <= u_p u')%nat;
  ct_X : forall i j, (i < u_n u)%nat -> (j < u_p u)%nat -> u_X u' i j = u_X u i j;
  ct_rows : forall i, (i < u_n u)%nat -> u_y u' i = u_y u i /\ u_w u' i = u_w u i /\ u_off u' i = u_off u i;
  ct_model : u_ic u' = u_ic u /\ u_fam u' = u_fam u /\ u_link u' = u_link u /\ u_scale u' = u_scale u;
  ct_P1 : forall j, (j < u_p u)%nat -> u_P1 u' j = u_P1 u j;
  ct_P2 : forall j k, (j < u_p u)%nat -> (k < u_p u)%nat -> p2_entry (u_P2 u') j k = p2_entry (u_P2 u) j k;
  ct_bounds : forall j x, (j < u_p u)%nat -> within (u_lb u j) (u_ub u j) x -> within (u_lb u' j) (u_ub u' j) x;
  ct_zero : forall j, (u_p u <= j < u_p u')%nat -> within (u_lb u' j) (u_ub u' j) 0 }.
(** the coefficients of u as coefficients of u': zero for the additional columns *)
Definition padded (u : user) (b : nat -> R) : nat -> R := fun j => if Nat.ltb j (u_p u) then b j else 0.
Definition unpenalised (u : user) : Prop :=
  (forall j, (j < u_p u)%nat -> u_P1 u j = 0) /\ forall j k, (j < u_p u)%nat -> (k < u_p u)%nat -> p2_entry (u_P2 u) j k = 0.
