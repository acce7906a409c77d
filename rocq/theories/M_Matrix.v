(** Validation of the design matrix: the recursive check of a matrix built from dense, sparse, categorical, split and
    standardized blocks.  src/glum/_validation.py 20-91, src/glum/_glm.py 894-908, 1999-2001, 2087-2132.
    Entries are extended reals ([fl] of M_Float without rounding: converting an integer or float32 block to float64 keeps
    its values).  The block containers are tabmat's; what is used of them is: a matrix has rows, columns, entries and names,
    [SplitMatrix(blocks, indices)] places column k of block b at position indices[b][k], the shift of a
    StandardizedMatrix is one-dimensional. *)
From Coq Require Import List String Bool PeanoNat. Import ListNotations.
From Coq Require Import Reals.
From Verif Require Import M_Float.

Inductive dtype := F64 | F32 | I64.
(** a two-dimensional array *)
Record arr := mkArr { a_n : nat; a_p : nat; a_val : nat -> nat -> fl; a_dt : dtype }.
Inductive mat :=
| Raw (a : arr)                                       (* ndarray or scipy.sparse *)
| Dense (a : arr) (nm tm : nat -> option string)      (* tm.DenseMatrix: column and term names *)
| Sparse (a : arr) (nm tm : nat -> option string)     (* tm.SparseMatrix *)
| Categ (n p : nat) (code : nat -> option nat) (nm tm : nat -> option string)  (* tm.CategoricalMatrix; no code: a row of zeros *)
| Split (blocks : list mat) (idx : list (list nat))   (* tm.SplitMatrix *)
| Stdz (m : mat) (sh : nat -> R) (mult : option (nat -> R)). (* tm.StandardizedMatrix *)

Definition is_fin (x : fl) : bool := match x with Fin _ => true | _ => false end.
Definition all_fin (a : arr) : bool :=
  forallb (fun i => forallb (fun j => is_fin (a_val a i j)) (seq 0 (a_p a))) (seq 0 (a_n a)).

(** Keyword arguments that matter: dtype=[float64, float32] (fit) or "numeric" (predict); force_all_finite;
    ensure_min_features (default 1).  accept_sparse and copy change the storage, not the entries. *)
Record kwargs := mkKw { kw_float : bool; kw_finite : bool; kw_minf : nat }.

(** sklearn.utils.check_array on a two-dimensional array: ensure_min_samples=1, ensure_min_features, the finiteness
    check and the conversion of the dtype ([None] = ValueError) *)
Definition check_array (k : kwargs) (a : arr) : option arr :=
  if (Nat.leb 1 (a_n a) && Nat.leb (kw_minf k) (a_p a) && (negb (kw_finite k) || all_fin a))%bool
  then Some (mkArr (a_n a) (a_p a) (a_val a) (if kw_float k then match a_dt a with I64 => F64 | d => d end else a_dt a))
  else None.
(** sklearn.utils.check_array on a one-dimensional array with the default ensure_2d=True: always a ValueError *)
Definition check_array_1d (k : kwargs) (v : nat -> R) : option (nat -> R) := None.

(** _validation.py 20-59, [check_array_tabmat_compliant] (data frames raise before this point) *)
Fixpoint check_mat (k : kwargs) (m : mat) : option mat :=
  match m with
  | Split bs idx =>                                   (* 26-33 *)
      let k' := mkKw (kw_float k) (kw_finite k) 0 in
      (fix go (bs : list mat) (acc : list mat) : option mat :=
         match bs with
         | [] => Some (Split (rev acc) idx)
         | b :: bs => match check_mat k' b with Some b' => go bs (b' :: acc) | None => None end
         end) bs []
  | Categ _ _ _ _ _ => Some m                         (* 35-38 *)
  | Stdz m sh _ =>                                    (* 40-44: mult is not passed on *)
      match check_mat k m with
      | Some m' => match check_array_1d k sh with Some sh' => Some (Stdz m' sh' None) | None => None end
      | None => None
      end
  | Dense a nm tm => option_map (fun a => Dense a nm tm) (check_array k a)    (* 46-57 *)
  | Sparse a nm tm => option_map (fun a => Sparse a nm tm) (check_array k a)
  | Raw a => option_map Raw (check_array k a)
  end.

(** what a matrix says about itself *)
Fixpoint nrows (m : mat) : nat :=
  match m with
  | Raw a | Dense a _ _ | Sparse a _ _ => a_n a
  | Categ n _ _ _ _ => n
  | Split bs _ => match bs with [] => 0 | b :: _ => nrows b end
  | Stdz m _ _ => nrows m
  end.
Fixpoint ncols (m : mat) : nat :=
  match m with
  | Raw a | Dense a _ _ | Sparse a _ _ => a_p a
  | Categ _ p _ _ _ => p
  | Split _ idx => List.length (List.concat idx)
  | Stdz m _ _ => ncols m
  end.

(** y: [None], a vector, or a two-dimensional array *)
Inductive target := YNone | Y1 (v : list fl) | Y2 (cols : nat) (v : list fl).
(** _validation.py 80-88: y must be given, one-dimensional or a single column (column_or_1d), and finite, whatever
    force_all_finite is *)
Definition check_y (y : target) : option (list fl) :=
  match y with
  | YNone => None
  | Y1 v => if forallb is_fin v then Some v else None
  | Y2 c v => if (Nat.eqb c 1 && forallb is_fin v)%bool then Some v else None
  end.
(** _validation.py 62-91, [check_X_y_tabmat_compliant] *)
Definition check_X_y (k : kwargs) (X : mat) (y : target) : option (mat * list fl) :=
  match check_y y with
  | None => None
  | Some v => if Nat.eqb (nrows X) (List.length v)
              then match check_mat k X with Some X' => Some (X', v) | None => None end
              else None
  end.

(** _glm.py 2093-2106: a single block of integers is converted first, unless copy_X=False was asked for (ValueError).
    [copy_X] is the constructor argument.  Simplified: a split or standardized matrix is taken to have a float dtype. *)
Definition int_block (m : mat) : bool :=
  match m with Raw a | Dense a _ _ | Sparse a _ _ => match a_dt a with I64 => true | _ => false end | _ => false end.
Definition to_f64 (m : mat) : mat :=
  match m with
  | Raw a => Raw (mkArr (a_n a) (a_p a) (a_val a) F64)
  | Dense a nm tm => Dense (mkArr (a_n a) (a_p a) (a_val a) F64) nm tm
  | Sparse a nm tm => Sparse (mkArr (a_n a) (a_p a) (a_val a) F64) nm tm
  | m => m
  end.
Definition convert_int (copy_X : option bool) (m : mat) : option mat :=
  if int_block m then match copy_X with Some false => None | _ => Some (to_f64 m) end else Some m.

(** _glm.py 2087-2120 for X a tabmat matrix: validated X and y and n_features_in_ *)
Definition fit_validate (copy_X : option bool) (force_all_finite : bool) (X : mat) (y : target) : option (mat * list fl * nat) :=
  match y with
  | YNone => None                                     (* 2087-2091 *)
  | _ =>
    match convert_int copy_X X with
    | None => None
    | Some X => match check_X_y (mkKw true force_all_finite 1) X y with
                | Some (X', v) => Some (X', v, ncols X')
                | None => None
                end
    end
  end.
(** _glm.py 894-908: predict, linear_predictor (no force_all_finite argument: the default True) *)
Definition predict_validate (n_features_in : nat) (X : mat) : option mat :=
  match check_mat (mkKw false true 1) X with
  | Some X' => if Nat.eqb (ncols X') n_features_in then Some X' else None
  | None => None
  end.
