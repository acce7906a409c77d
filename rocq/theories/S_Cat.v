(** Specification side of C38 and C45. *)
From Coq Require Import String.
From Verif Require Import M_Solver M_Std M_Formula M_Cat.
Local Open Scope R_scope.

(** The coefficients a frame generates: for each, the input column it belongs to.  A categorical
    column generates one per level, one more for a missing category, one less with drop_first. *)
Definition n_generated (drop_first : bool) (d : dtype) (m : bool) : nat :=
  match d with
  | DEnum cats | DCategorical cats =>
      let k := (List.length cats + if m then 1 else 0)%nat in if drop_first then (k - 1)%nat else k
  | _ => 1%nat
  end.
Fixpoint owners_from (i : nat) (drop_first : bool) (sc : schema) (hm : list bool) : list nat :=
  match sc, hm with
  | d :: sc', m :: hm' => repeat i (n_generated drop_first d m) ++ owners_from (S i) drop_first sc' hm'
  | _, _ => []
  end.
Definition owners := owners_from 0.

(** The code a cell value has under the training levels: its position among them; a missing value
    has the position after the last level if the model has a missing category, no code with
    method 'zero', and is refused otherwise; an unknown value is refused. *)
Definition first_position (s : string) (l : list string) (k : nat) : Prop :=
  nth_error l k = Some s /\ forall k', (k' < k)%nat -> nth_error l k' <> Some s.
Definition training_code (levels : list string) (m : missing_method) (feature : bool) (v : option string) (code : option nat) : Prop :=
  match v with
  | Some s => exists k, code = Some k /\ first_position s levels k
  | None => (m = MZero /\ code = None) \/ (m = MConvert /\ feature = true /\ code = Some (List.length levels))
  end.
(** A column whose dtype lists categories only holds values among them. *)
Definition col_wf (c : column) : Prop :=
  match c_dtype c with
  | DEnum cats | DCategorical cats => forall s, In (Some s) (c_vals c) -> In s cats
  | _ => True
  end.

(** The columns a categorical input column generates: one for each training level and one for the
    missing category if there is one (None), without the first of them with drop_first. *)
Definition generated_levels (drop_first : bool) (levels : list string) (missing : bool) : list (option string) :=
  let all := map Some levels ++ (if missing then [None] else []) in
  if drop_first then match all with [] => [] | _ :: rest => rest end else all.
(** The indicator of one of them for a cell. *)
Definition indicator (v w : option string) : R :=
  match v, w with
  | Some a, Some b => if string_dec a b then 1 else 0
  | None, None => 1
  | _, _ => 0
  end.
