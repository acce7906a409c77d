(** Specification side of C98: arguments given row by row. *)
From Coq Require Import List Arith. Import ListNotations.
From Verif Require Import Base M_Dist M_Shape.
Local Open Scope R_scope.

(** What a caller means: one number for all rows, or one number per row. *)
Inductive row_arg := Same (x : R) | PerRow (l : list R).
(** the value meant for row i; a list with one element counts for every row *)
Definition row_val (a : row_arg) (i : nat) : R :=
  match a with Same x => x | PerRow l => if Nat.eqb (length l) 1 then nth 0 l 0 else nth i l 0 end.
Definition weight_val (w : option row_arg) (i : nat) : R := match w with Some w => row_val w i | None => 1 end.
(** how it is passed: a Python number, or a one-dimensional array *)
Definition passed (a : row_arg) : num :=
  match a with Same x => Num x | PerRow l => Arr (mkArr (length l :: nil) (fun i => nth (hd 0%nat i) l 0)) end.
(** for n rows *)
Definition fits (n : nat) (a : row_arg) : Prop := match a with Same _ => True | PerRow l => length l = n \/ length l = 1%nat end.
Definition full (n : nat) (a : row_arg) : Prop := match a with Same _ => False | PerRow l => length l = n end.
(** the table of n rows *)
Definition table (n : nat) (y mu : row_arg) (w : option row_arg) : list obs :=
  map (fun i => mkobs (row_val y i) (weight_val w i) (row_val mu i)) (seq 0 n).
(** a target with one column and one row per observation, shape (n, 1) *)
Definition column (l : list R) : num := Arr (mkArr (1 :: length l :: nil)%nat (fun i => nth (nth 1 i 0%nat) l 0)).
(** a set of arguments for n rows, at least one of which has n entries *)
Definition some_full (n : nat) (l : list (option row_arg)) : Prop := exists a, In (Some a) l /\ full n a.
Definition all_fit (n : nat) (l : list (option row_arg)) : Prop := forall a, In (Some a) l -> fits n a.
(** two lists that cannot belong together *)
Definition clash (a b : row_arg) : Prop := match a, b with PerRow l, PerRow l' => length l <> length l' /\ length l <> 1%nat /\ length l' <> 1%nat | _, _ => False end.
(** all pairs of an element of ys and an element of mus (with its weight, 1 if there are none) *)
Definition pairs (ys mus ws : list R) : list obs :=
  flat_map (fun j => map (fun i => mkobs (nth j ys 0) (nth i ws 1) (nth i mus 0)) (seq 0 (length mus))) (seq 0 (length ys)).
