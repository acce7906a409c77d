(** Specification side of C103. *)
From Coq Require Import Reals ZArith List. Import ListNotations.
From Verif Require Import Base M_Float S_Float M_FSum S_FSum M_FPred.
Local Open Scope R_scope.

(** the columns an evaluation order uses, how many, and the largest number of roundings a product goes through *)
Fixpoint used (d : dot) : list nat :=
  match d with DZero => nil | DProd j => j :: nil | DAdd a b => (used a ++ used b)%list | DFma j a => j :: used a end.
Fixpoint rounds (d : dot) : nat :=
  match d with DZero => 0%nat | DProd _ => 1%nat | DAdd a b => S (Nat.max (rounds a) (rounds b)) | DFma _ a => S (rounds a) end.
(** every column is used once; columns whose product is zero may be left out (sparse matrices) *)
Definition evaluates (n : nat) (x b : nat -> R) (d : dot) : Prop :=
  NoDup (used d) /\ (forall j, In j (used d) -> (j < n)%nat) /\ (forall j, (j < n)%nat -> x j * b j <> 0 -> In j (used d)).
Definition off_val (off : option R) : R := match off with None => 0 | Some o => o end.
(** what the documentation says the linear predictor is, and the size of its terms *)
Definition exact_predictor (n : nat) (x b : nat -> R) (b0 : R) (off : option R) : R :=
  rsum n (fun j => x j * b j) + b0 + off_val off.
Definition term_size (n : nat) (x b : nat -> R) (b0 : R) (off : option R) : R :=
  rsum n (fun j => Rabs (x j * b j)) + Rabs b0 + Rabs (off_val off).
(** relative error of k roundings, plus half the smallest float for each product (underflow) *)
Definition pred_err (p e0 : Z) (n : nat) (x b : nat -> R) (b0 : R) (off : option R) (k : nat) : R :=
  growth p k * term_size n x b b0 off + (1 + growth p k) * INR n * powerRZ 2 (e0 - 1).
