(** Specification vocabulary for the test of P2: eigenvalues and quadratic forms. *)
From Verif Require Export M_Psd S_Std S_Solver.
Import ListNotations.
Local Open Scope R_scope.

(** squared length *)
Definition sq_norm (p : nat) (z : nat -> R) : R := rsum p (fun i => z i * z i).
(** A v = lambda v for some v <> 0 *)
Definition eigenvalue (p : nat) (A : nat -> nat -> R) (lambda : R) : Prop :=
  exists v, (exists i, (i < p)%nat /\ v i <> 0) /\
    forall i, (i < p)%nat -> rsum p (fun j => A i j * v j) = lambda * v i.
(** what LAPACK documents: all eigenvalues of a symmetric matrix, nothing else *)
Definition eigvalsh_ok (eigvalsh : nat -> (nat -> nat -> R) -> list R) : Prop :=
  forall p A, (forall i j, (i < p)%nat -> (j < p)%nat -> A i j = A j i) ->
    forall lambda, In lambda (eigvalsh p A) <-> eigenvalue p A lambda.

(** the matrix the user means, and its shape *)
Definition p2_meaning (a : p2_arg) : nat -> nat -> R :=
  match a with
  | P2Identity => fun i j => if Nat.eqb i j then 1 else 0
  | P2Array1 l => fun i j => if Nat.eqb i j then nth i l 0 else 0
  | P2Array2 _ _ M => M
  end.
Definition p2_shape (a : p2_arg) (p : nat) : Prop :=
  match a with P2Identity => True | P2Array1 l => length l = p | P2Array2 r c _ => r = p /\ c = p end.
(** "a tiny bit negative": how far below zero the quadratic form may go, relative to |z|^2 *)
Definition slack (a : p2_arg) (p : nat) : R :=
  match a with P2Array2 _ _ _ => if Nat.eqb p 1 then 0 else 10 / 2 ^ 53 | _ => 0 end.
