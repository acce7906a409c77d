(** Specification side of C83. *)
From Coq Require Import Reals ZArith List. Import ListNotations.
From Verif Require Import Base M_Float S_Float M_FSum.
Local Open Scope R_scope.

Fixpoint leaves (t : tree) : list R := match t with Leaf x => x :: nil | Node a b => (leaves a ++ leaves b)%list end.
Fixpoint depth (t : tree) : nat := match t with Leaf _ => 0%nat | Node a b => S (Nat.max (depth a) (depth b)) end.
(** accumulated relative error of k roundings *)
Definition growth (p : Z) (k : nat) : R := (1 + powerRZ 2 (- p)) ^ k - 1.
Definition longest (chunks : list (list nat)) : nat := fold_right (fun c k => Nat.max (length c) k) 0%nat chunks.
(** no underflow in forming the row terms of the normal deviance *)
Definition no_underflow (p e0 : Z) (x : R) : Prop := x = 0 \/ powerRZ 2 (e0 + p - 1) <= Rabs x.
