(** Model of the handling of categorical columns outside formulas: expansion of per-column
    penalties, alignment of the categories of a new frame, conversion to codes.
    src/glum/_utils.py 14-174, _glm.py 319-362, 2047-2083.
    narwhals, pandas and polars are modelled by the values of a column and its dtype; tabmat's
    from_df (an external library) by the codes it derives from the categories. *)
From Coq Require Import String.
From Verif Require Import M_Solver M_Std M_Formula.
Local Open Scope R_scope.

(** dtype of a column: nw.Enum with its categories, nw.Categorical with its categories
    (unordered pandas categoricals), or anything else holding strings *)
Inductive dtype := DEnum (cats : list string) | DCategorical (cats : list string) | DString | DNumber.
Record column := mkCol { c_dtype : dtype; c_vals : list (option string) }.

Definition is_cat (d : dtype) : bool := match d with DEnum _ | DCategorical _ => true | _ => false end.
Definition categories (d : dtype) : list string := match d with DEnum c | DCategorical c => c | _ => [] end.
Fixpoint slist_eqb (a b : list string) : bool :=
  match a, b with
  | [], [] => true
  | x :: r, y :: s => String.eqb x y && slist_eqb r s
  | _, _ => false
  end.
Definition str_in (s : string) (l : list string) : bool := existsb (String.eqb s) l.
Definition has_null (l : list (option string)) : bool := existsb (fun v => match v with None => true | _ => false end) l.

(** cat_missing_method *)
Inductive missing_method := MFail | MZero | MConvert.
Definition is_convert (m : missing_method) : bool := match m with MConvert => true | _ => false end.

(** _glm.py 2065-2069: has_missing_category_ *)
Definition has_missing_category (m : missing_method) (c : column) : bool := is_convert m && has_null (c_vals c).

(** _utils.py 132-174, expand_categorical_penalties for 1-d arrays, with the test of the caller
    (_glm.py 2071-2074: only if some column is categorical).  A 2-d array of the frame's width is
    rejected, see [expand_2d].  int - bool + bool and range() of a negative number: truncated
    subtraction on nat *)
Definition schema : Type := list dtype.
Fixpoint expand_entries (pen : list R) (sc : schema) (drop_first : bool) (hm : list bool) : list R :=
  match pen, sc, hm with
  | e :: pen', d :: sc', m :: hm' =>
      (if is_cat d then repeat e (List.length (categories d) + Nat.b2n m - Nat.b2n drop_first) else [e])
      ++ expand_entries pen' sc' drop_first hm'
  | _, _, _ => []
  end.
Definition expand_1d (pen : list R) (sc : schema) (drop_first : bool) (hm : list bool) : list R :=
  if existsb is_cat sc then
    if Nat.eqb (List.length pen) (List.length sc) then expand_entries pen sc drop_first hm else pen
  else pen.
Definition expand_2d (rows cols : nat) (M : nat -> nat -> R) (sc : schema) : option (nat * nat * (nat -> nat -> R)) :=
  if existsb is_cat sc && Nat.eqb rows (List.length sc) then None else Some (rows, cols, M).

(** The penalty arguments of setup_p1/setup_p2 after the expansion (_glm.py 2069-2076, 3227-3332) *)
Definition expand_p1 (a : p1_arg) (sc : schema) (drop_first : bool) (hm : list bool) : p1_arg :=
  match a with P1Identity => P1Identity | P1Array l => P1Array (expand_1d l sc drop_first hm) end.
Definition expand_p2 (a : p2_arg) (sc : schema) (drop_first : bool) (hm : list bool) : option p2_arg :=
  match a with
  | P2Identity => Some P2Identity
  | P2Array1 l => Some (P2Array1 (expand_1d l sc drop_first hm))
  | P2Array2 r c M => match expand_2d r c M sc with Some (r', c', M') => Some (P2Array2 r' c' M') | None => None end
  end.

(** Series.cast(Enum(levels)): a value outside the levels becomes null (pandas; polars raises).
    Either way the check that follows raises. *)
Definition cast (levels : list string) (v : option string) : option string :=
  match v with Some s => if str_in s levels then Some s else None | None => None end.

(** _utils.py 14-69, align_df_categories, for one column present in the frame; None: ValueError *)
Definition unseen (levels : list string) (hm : bool) (m : missing_method) (vals : list (option string)) : bool :=
  if is_convert m && negb hm
  then existsb (fun v => match v with Some s => negb (str_in s levels) | None => true end) vals
  else existsb (fun v => match v with Some s => negb (str_in s levels) | None => false end) vals.
Definition align_column (levels : list string) (hm : bool) (m : missing_method) (c : column) : option column :=
  let changed :=
    if unseen levels hm m (c_vals c) then None
    else Some (mkCol (DEnum levels) (map (cast levels) (c_vals c))) in
  match c_dtype c with
  | DEnum cats => if slist_eqb cats levels then Some c else changed
  | _ => changed
  end.

(** _utils.py 72-129, add_missing_categories, for one column; [feature] says whether the formatted
    name of the missing category is one of the model's feature names.  Polars' refusal of
    Categorical is not modelled: after alignment the column is an Enum. *)
Definition add_missing_column (name : string) (feature : bool) (c : column) : option column :=
  if feature then
    if is_cat (c_dtype c) then
      if str_in name (categories (c_dtype c)) then None
      else Some (mkCol (DEnum (categories (c_dtype c) ++ [name]))
                       (map (fun v => match v with None => Some name | _ => v end) (c_vals c)))
    else None
  else Some c.

(** tabmat.from_df on an Enum column: the position of each value among the categories; a null is
    an error ('fail') or a row of zeros ('zero') or gets the extra last category ('convert') *)
Fixpoint index_of (s : string) (l : list string) : option nat :=
  match l with
  | [] => None
  | x :: r => if String.eqb s x then Some O else match index_of s r with Some k => Some (S k) | None => None end
  end.
Definition code_cell (m : missing_method) (cats : list string) (v : option string) : option (option nat) :=
  match v with
  | Some s => match index_of s cats with Some k => Some (Some k) | None => None end
  | None => match m with MFail => None | MZero => Some None | MConvert => Some (Some (List.length cats)) end
  end.
Definition from_df_column (m : missing_method) (c : column) : option (list (option nat)) :=
  all_some (code_cell m (categories (c_dtype c))) (c_vals c).

(** _glm.py 319-362, _convert_from_df, for one categorical column of a new frame *)
Definition convert_column (levels : list string) (hm : bool) (m : missing_method) (name : string)
    (feature : bool) (c : column) : option (list (option nat)) :=
  match align_column levels hm m c with
  | None => None
  | Some c1 =>
      match m with
      | MConvert => match add_missing_column name feature c1 with
                    | Some c2 => from_df_column MFail c2
                    | None => None
                    end
      | _ => from_df_column m c1
      end
  end.

(** The contribution of a coded categorical column to the linear predictor (tabmat's
    CategoricalMatrix.matvec): one coefficient per category, none for the first with drop_first *)
Definition code_contrib (drop_first : bool) (coef : nat -> R) (k : option nat) : R :=
  match k with
  | None => 0
  | Some k => if drop_first then match k with O => 0 | S k' => coef k' end else coef k
  end.
