(** Specification side of C84. *)
From Coq Require Import Reals ZArith Lra Lia.
From Verif Require Import Base M_CD M_Std M_Float S_Float.
Local Open Scope R_scope.

Definition float_bounds (p e0 : Z) (b : bounds) : Prop := forall j x, b j = Some x -> is_float p e0 x.
Definition ordered_bounds (lb ub : bounds) : Prop := forall j x y, lb j = Some x -> ub j = Some y -> x <= y.
(** coefficient j (after the intercept, if there is one) of a solver vector *)
Definition coef_at (ic : bool) (w : nat -> R) (j : nat) : R := w (ioff ic + j)%nat.
(** j is restricted to be non-negative (non-positive) *)
Definition nonneg_at (lb : bounds) (j : nat) : Prop := lb j = Some 0.
Definition nonpos_at (ub : bounds) (j : nat) : Prop := ub j = Some 0.
(** half a unit in the last place, relative *)
Definition half_ulp (p : Z) : R := powerRZ 2 (- p).
