(** Specification side of C92: what a design matrix contains. *)
From Coq Require Import List String Bool PeanoNat. Import ListNotations.
From Coq Require Import Reals.
From Verif Require Import M_Float M_Matrix.

Fixpoint pos (j : nat) (l : list nat) : option nat :=
  match l with [] => None | x :: l => if Nat.eqb x j then Some 0%nat else option_map S (pos j l) end.
Definition fscale (x : fl) (a b : R) : fl :=
  match x with Fin x => Fin (x * a + b)%R | x => x end.
(** the entry in row i and column j *)
Fixpoint mentry (m : mat) (i j : nat) : option fl :=
  match m with
  | Raw a | Dense a _ _ | Sparse a _ _ => Some (a_val a i j)
  | Categ _ _ code _ _ => Some (Fin (match code i with Some c => if Nat.eqb c j then 1 else 0 | None => 0 end)%R)
  | Split bs idx =>
      (fix go (bs : list mat) (idx : list (list nat)) :=
         match bs, idx with
         | b :: bs, ix :: idx => match pos j ix with Some k => mentry b i k | None => go bs idx end
         | _, _ => None
         end) bs idx
  | Stdz m sh mult => option_map (fun x => fscale x (match mult with Some f => f j | None => 1%R end) (sh j)) (mentry m i j)
  end.
(** the name and the term of column j *)
Fixpoint mname (m : mat) (j : nat) : option string * option string :=
  match m with
  | Raw a => (None, None)
  | Dense _ nm tm | Sparse _ nm tm | Categ _ _ _ nm tm => (nm j, tm j)
  | Split bs idx =>
      (fix go (bs : list mat) (idx : list (list nat)) :=
         match bs, idx with
         | b :: bs, ix :: idx => match pos j ix with Some k => mname b k | None => go bs idx end
         | _, _ => (None, None)
         end) bs idx
  | Stdz m _ _ => mname m j
  end.
(** the same shape, entries and names *)
Definition same_content (m m' : mat) : Prop :=
  nrows m = nrows m' /\ ncols m = ncols m' /\ (forall i j, mentry m i j = mentry m' i j) /\ (forall j, mname m j = mname m' j).

(** the blocks of a matrix, with whether they are inside a split matrix *)
Fixpoint leaves (inside : bool) (m : mat) : list (bool * mat) :=
  match m with
  | Split bs _ => flat_map (leaves true) bs
  | m => [(inside, m)]
  end.
Definition block_arr (m : mat) : option arr :=
  match m with Raw a | Dense a _ _ | Sparse a _ _ => Some a | _ => None end.
Definition finite_arr (a : arr) : Prop := forall i j, (i < a_n a)%nat -> (j < a_p a)%nat -> exists x, a_val a i j = Fin x.
(** A block is acceptable: not standardized; dense and sparse blocks have a row, at least minf columns unless they are
    inside a split matrix, and finite entries if asked for.  Categorical blocks are not looked at. *)
Definition block_ok (finite : bool) (minf : nat) (ib : bool * mat) : Prop :=
  (forall m sh mult, snd ib <> Stdz m sh mult) /\
  forall a, block_arr (snd ib) = Some a ->
    (1 <= a_n a)%nat /\ (fst ib = false -> (minf <= a_p a)%nat) /\ (finite = true -> finite_arr a).
Definition acceptable (finite : bool) (m : mat) : Prop := forall ib, In ib (leaves false m) -> block_ok finite 1 ib.

(** a single dense or sparse block of integers *)
Definition integer_matrix (m : mat) : Prop :=
  match m with Raw a => a_dt a = I64 | Dense a _ _ => a_dt a = I64 | Sparse a _ _ => a_dt a = I64 | _ => False end.
(** y as the user may give it: a vector or a single column, with n finite values v *)
Definition y_values (y : target) (n : nat) (v : list fl) : Prop :=
  (y = Y1 v \/ y = Y2 1 v) /\ List.length v = n /\ forall t, In t v -> exists x, t = Fin x.
(** a dense or sparse block with a NaN or an infinity *)
Definition has_nonfinite (m : mat) : Prop := exists ins b a i j,
  In (ins, b) (leaves false m) /\ block_arr b = Some a /\ (i < a_n a)%nat /\ (j < a_p a)%nat /\ forall x, a_val a i j <> Fin x.
