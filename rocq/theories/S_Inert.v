(** Specification side of C97: a column that carries no information. *)
From Coq Require Import List Arith.
From Verif Require Import Base M_Std S_Std.
From Verif Require Import M_Solver S_Solver.
Local Open Scope R_scope.

(** Column j has the same value on every row (a model with an intercept), or is zero on every row (any model, e.g. a level
    that never occurs), its L2 penalty is not coupled to other columns, and its coefficient may be zero. *)
Definition uninformative (u : user) (j : nat) : Prop :=
  (j < u_p u)%nat /\
  ((u_ic u = true /\ rsum (u_n u) (u_w u) = 1 /\ exists c, forall i, (i < u_n u)%nat -> u_X u i j = c) \/
   (forall i, (i < u_n u)%nat -> u_X u i j = 0)) /\
  (forall k, (k < u_p u)%nat -> k <> j -> p2_entry (u_P2 u) j k = 0 /\ p2_entry (u_P2 u) k j = 0) /\
  within (u_lb u j) (u_ub u j) 0.
(** The fit does not start with a non-zero value for column j where one is used (with an intercept the code multiplies a
    starting coefficient by the column's standard deviation, here zero). *)
Definition starts_at_zero (u : user) (a : start_arg) (j : nat) : Prop :=
  u_ic u = true \/ match a with StartNone => True | StartWarm _ b => b j = 0 | StartParams v => v j = 0 end.
