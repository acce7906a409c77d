(** Specification side of C32: what a column name says, and what it means for coefficients to be
    monotone in a factor. *)
From Coq Require Import String Ascii.
From Verif Require Import M_Solver M_Formula.
Local Open Scope R_scope.

Definition all_chars (p : ascii -> Prop) (s : string) : Prop := forall c, In c (list_ascii_of_string s) -> p c.
(** How a factor is written: name or name[index]. *)
Definition factor_text (f : factor) : string :=
  match snd f with
  | None => fst f
  | Some i => (fst f ++ "[" ++ i ++ "]")%string
  end.
Definition factor_wf (f : factor) : Prop :=
  fst f <> EmptyString /\
  all_chars (fun c => c <> ":"%char /\ c <> "["%char /\ c <> "]"%char) (fst f) /\
  forall i, snd f = Some i -> all_chars (fun c => c <> "]"%char) i.

(** Column c contains factor f exactly once, with index idx; the other factors, in order. *)
Definition has_factor (f : string) (c : list factor) (others : list factor) (idx : option string) : Prop :=
  exists l r, c = l ++ (f, idx) :: r /\ others = l ++ r /\ forall x, In x (l ++ r) -> fst x <> f.

(** Order of the levels of a factor: labels that are numbers by value; labels that are not
    numbers count as +infinity and are compared as strings among themselves. *)
Definition lvl_value (pf : string -> option fl) (x : option string) : fl :=
  match x with None => Fin 0 | Some s => match pf s with Some v => v | None => PInf end end.
Definition lvl_text (pf : string -> option fl) (x : option string) : string :=
  match x with None => EmptyString | Some s => match pf s with Some _ => EmptyString | None => s end end.
Definition fl_lt (a b : fl) : Prop :=
  match a, b with
  | NInf, NInf => False | NInf, _ => True | Fin x, Fin y => x < y | Fin _, PInf => True | _, _ => False
  end.
Definition lvl_lt (pf : string -> option fl) (x y : option string) : Prop :=
  fl_lt (lvl_value pf x) (lvl_value pf y) \/
  (lvl_value pf x = lvl_value pf y /\ String.compare (lvl_text pf x) (lvl_text pf y) = Lt).
Definition lvl_eq (pf : string -> option fl) (x y : option string) : Prop :=
  lvl_value pf x = lvl_value pf y /\ lvl_text pf x = lvl_text pf y.

(** Column i comes before column j among the columns of a group: by level, ties by position. *)
Definition before (pf : string -> option fl) (i : nat) (x : option string) (j : nat) (y : option string) : Prop :=
  lvl_lt pf x y \/ (lvl_eq pf x y /\ (i < j)%nat).

Definition dir_le (d : direction) (a b : R) : Prop :=
  match d with Increasing => a <= b | Decreasing => b <= a end.

(** The parsed columns. *)
Definition parsed (sep : string) (names : list string) (cols : list (list factor)) : Prop :=
  List.map (parse_column_name sep) names = List.map Some cols.
(** Column i belongs to factor f within the group "others", at level x. *)
Definition in_group (cols : list (list factor)) (f : string) (o : list factor) (i : nat) (x : option string) : Prop :=
  exists c, nth_error cols i = Some c /\ has_factor f c o x.

(** Monotone coefficients: within every group the coefficients follow the level order; a column
    that is alone in its group has the sign of the direction. *)
Definition monotone_coefs (pf : string -> option fl) (cols : list (list factor)) (f : string) (d : direction)
    (w : nat -> R) : Prop :=
  (forall o i x j y, in_group cols f o i x -> in_group cols f o j y -> before pf i x j y -> dir_le d (w i) (w j)) /\
  (forall o i x, in_group cols f o i x -> (forall j y, in_group cols f o j y -> j = i) -> dir_le d 0 (w i)).

(** The same with slack t between neighbouring levels. *)
Definition dir_le_slack (t : R) (d : direction) (a b : R) : Prop :=
  match d with Increasing => a <= b + t | Decreasing => b <= a + t end.
Definition neighbours (pf : string -> option fl) (cols : list (list factor)) (f : string) (o : list factor)
    (i j : nat) : Prop :=
  exists x y, in_group cols f o i x /\ in_group cols f o j y /\ before pf i x j y /\
    forall k z, in_group cols f o k z -> ~ (before pf i x k z /\ before pf k z j y).
Definition nearly_monotone (t : R) (pf : string -> option fl) (cols : list (list factor)) (f : string)
    (d : direction) (w : nat -> R) : Prop :=
  (forall o i j, neighbours pf cols f o i j -> dir_le_slack t d (w i) (w j)) /\
  (forall o i x, in_group cols f o i x -> (forall j y, in_group cols f o j y -> j = i) -> dir_le_slack t d 0 (w i)).

(** How a column is written: its factors joined by the separator. *)
Fixpoint column_text (sep : string) (c : list factor) : string :=
  match c with
  | [] => EmptyString
  | [f] => factor_text f
  | f :: r => (factor_text f ++ sep ++ column_text sep r)%string
  end.
(** [f] is [s] without its trailing characters satisfying [p] *)
Definition without_trailing (p : ascii -> Prop) (s f : string) : Prop :=
  exists t, s = (f ++ t)%string /\ all_chars p t /\ forall g c, f = (g ++ String c EmptyString)%string -> ~ p c.
(** ASCII white space: tab, newline, vertical tab, form feed, carriage return, the four separators, space *)
Definition white (c : ascii) : Prop := (9 <= nat_of_ascii c <= 13)%nat \/ (28 <= nat_of_ascii c <= 32)%nat.
(** No white space at either end. *)
Definition trimmed (s : string) : Prop :=
  (forall c r, s = String c r -> ~ white c) /\ (forall g c, s = (g ++ String c EmptyString)%string -> ~ white c).
Definition no_char (c : ascii) (s : string) : Prop := ~ In c (list_ascii_of_string s).

(** Variable v of the formula occurs in the factor called f. *)
Definition var_in_factor (spec : list spec_factor) (v f : string) : Prop :=
  exists e, In e spec /\ In v (snd e) /\ without_trailing (fun c => c = "-"%char \/ c = "+"%char) (fst e) f.
