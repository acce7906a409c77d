(** Floating-point sums over rows: every addition is followed by the rounding [r]. *)
From Coq Require Import Reals ZArith List. Import ListNotations.
From Verif Require Import Base M_Float.
Local Open Scope R_scope.

Section Rounded.
Variable r : R -> R.
(** _functions.pyx, the reductions of the prange loops (D += term, 36, 94-95, 112, 157, 173 and so on): each
    thread adds the terms of its rows, in its order, to a private accumulator that starts at 0; OpenMP then adds
    the accumulators to the variable, which is 0, in any order. *)
Definition f_thread (t : nat -> R) (rows : list nat) : R := fold_left (fun acc i => r (acc + t i)) rows 0.
Definition f_reduce (t : nat -> R) (chunks : list (list nat)) : R := fold_left (fun acc c => r (acc + f_thread t c)) chunks 0.

(** any other way of adding up: a binary tree (numpy's pairwise summation, vector registers) *)
Inductive tree := Leaf (x : R) | Node (a b : tree).
Fixpoint f_tree (t : tree) : R := match t with Leaf x => x | Node a b => r (f_tree a + f_tree b) end.

(** _functions.pyx 94-95, [normal_deviance]: the term of a row *)
Definition f_normal_term (y w mu : nat -> R) (i : nat) : R :=
  let d := r (y i - mu i) in r (w i * r (d * d)).
Definition f_normal_deviance (y w mu : nat -> R) (chunks : list (list nat)) : R := f_reduce (f_normal_term y w mu) chunks.
End Rounded.
