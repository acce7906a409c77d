(** Specification side of C93: two interchangeable columns. *)
From Coq Require Import List.
From Verif Require Import Base M_Std S_Std S_Fit.
From Verif Require Import M_Solver S_Solver.
Local Open Scope R_scope.

(** Columns j and k of the data are equal on every row, and the penalties and bounds treat them alike. *)
Definition twins (u : user) (j k : nat) : Prop :=
  (j < u_p u)%nat /\ (k < u_p u)%nat /\ j <> k /\
  (forall i, u_X u i j = u_X u i k) /\ u_P1 u j = u_P1 u k /\ u_lb u j = u_lb u k /\ u_ub u j = u_ub u k /\
  p2_entry (u_P2 u) j j = p2_entry (u_P2 u) k k /\ p2_entry (u_P2 u) j k = p2_entry (u_P2 u) k j /\
  forall a, (a < u_p u)%nat -> a <> j -> a <> k -> p2_entry (u_P2 u) a j = p2_entry (u_P2 u) a k.
(** the coefficients with the two entries replaced by their mean *)
Definition evened (j k : nat) (b : nat -> R) : nat -> R :=
  fun a => if (Nat.eqb a j || Nat.eqb a k)%bool then (b j + b k) / 2 else b a.
