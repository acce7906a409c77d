(** Specification side of C107: separated data. *)
From Coq Require Import List Arith.
From Verif Require Import Base M_Std S_Std S_Fit M_Valid M_Fit S_FitAll.
From Verif Require Import M_Solver S_Solver.
Local Open Scope R_scope.

(** No penalty at all. *)
Definition unpenalised (u : user) : Prop :=
  no_l1 u /\ forall i j, (i < u_p u)%nat -> (j < u_p u)%nat -> p2_entry (u_P2 u) i j = 0.
(** How the linear predictor of row i changes when (c0, c) is added to intercept and coefficients. *)
Definition tilt (u : user) (c0 : R) (c : nat -> R) (i : nat) : R := c0 + rsum (u_p u) (fun j => u_X u i j * c j).
(** A change d of the linear predictor that no observation y speaks against: downwards where y = 0, upwards where y = 1 and
    1 is the largest possible response. *)
Definition unopposed (f : family) (y d : R) : Prop := d = 0 \/ (y = 0 /\ d < 0) \/ (f = BinomialF /\ y = 1 /\ 0 < d).
(** A direction in the coefficients that no row speaks against; its size in standardised units is at most L. *)
Definition separating (u : user) (c0 : R) (c : nat -> R) (L : R) : Prop :=
  (u_ic u = false -> c0 = 0) /\ 0 <= L /\ std_close u L 0 (fun _ => 0) c0 c /\
  forall i, (i < u_n u)%nat -> unopposed (u_fam u) (u_y u i) (tilt u c0 c i).
