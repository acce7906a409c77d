(** Model of the monotonic-constraint part of _formula.py: column-name parsing, grouping of the
    columns of a factor, ordering of its levels, and the inequality matrix handed to the solver.
    Strings are lists of 8-bit characters (Coq's [string]); a raised exception is [None]. *)
From Coq Require Import String Ascii.
From Verif Require Import M_Solver.
Local Open Scope R_scope.

(** str.strip() (used in _formula.py 76): ASCII white space only; Python also strips some
    non-ASCII characters. *)
Definition is_space (c : ascii) : bool :=
  let n := nat_of_ascii c in
  (Nat.leb 9 n && Nat.leb n 13) || (Nat.leb 28 n && Nat.leb n 32).
Fixpoint lstrip (s : string) : string :=
  match s with
  | String c r => if is_space c then lstrip r else s
  | EmptyString => EmptyString
  end.
Fixpoint rstrip_of (p : ascii -> bool) (s : string) : string :=
  match s with
  | String c r => match rstrip_of p r with
                  | EmptyString => if p c then EmptyString else String c EmptyString
                  | r' => String c r'
                  end
  | EmptyString => EmptyString
  end.
Definition strip (s : string) : string := rstrip_of is_space (lstrip s).

(** str.split(separator) (used in _formula.py 75): leftmost, non-overlapping; [skip] counts the
    separator's characters still to be consumed.  An empty separator raises ValueError. *)
Definition cons_first (c : ascii) (l : list string) : list string :=
  match l with h :: t => String c h :: t | [] => [String c EmptyString] end.
Fixpoint str_split_from (sep s : string) (skip : nat) : list string :=
  match s with
  | EmptyString => [EmptyString]
  | String c r =>
      match skip with
      | S k => str_split_from sep r k
      | O => if String.prefix sep s then EmptyString :: str_split_from sep r (String.length sep - 1)
             else cons_first c (str_split_from sep r 0)
      end
  end.
Definition str_split (sep s : string) : option (list string) :=
  match sep with EmptyString => None | _ => Some (str_split_from sep s 0) end.

(** _formula.py 63-69, _FACTOR_RE.fullmatch: a non-empty run of characters other than ':', '[', ']'
    followed by nothing or by '[' idx ']' where idx has no ']'.  The run is maximal because the
    next character must be '[' or the end. *)
Definition name_char (c : ascii) : bool :=
  negb (Ascii.eqb c ":" || Ascii.eqb c "[" || Ascii.eqb c "]").
Definition idx_char (c : ascii) : bool := negb (Ascii.eqb c "]").
Fixpoint span (p : ascii -> bool) (s : string) : string * string :=
  match s with
  | String c r => if p c then let '(a, b) := span p r in (String c a, b) else (EmptyString, s)
  | EmptyString => (EmptyString, EmptyString)
  end.
Definition factor : Type := string * option string.
Definition parse_factor (part : string) : option factor :=
  match span name_char part with
  | (EmptyString, _) => None
  | (name, EmptyString) => Some (name, None)
  | (name, String c r) =>
      if Ascii.eqb c "[" then
        match span idx_char r with
        | (idx, String d EmptyString) => if Ascii.eqb d "]" then Some (name, Some idx) else None
        | _ => None
        end
      else None
  end.

Fixpoint all_some {A B} (f : A -> option B) (l : list A) : option (list B) :=
  match l with
  | [] => Some []
  | x :: r => match f x with
              | Some y => match all_some f r with Some ys => Some (y :: ys) | None => None end
              | None => None
              end
  end.

(** _formula.py 72-80, _parse_column_name *)
Definition parse_column_name (sep col : string) : option (list factor) :=
  match str_split sep col with
  | Some parts => all_some (fun part => parse_factor (strip part)) parts
  | None => None
  end.

(** Python equality of (name, idx) tuples and of tuples of them *)
Definition ostr_eqb (a b : option string) : bool :=
  match a, b with Some x, Some y => String.eqb x y | None, None => true | _, _ => false end.
Definition factor_eqb (a b : factor) : bool := String.eqb (fst a) (fst b) && ostr_eqb (snd a) (snd b).
Fixpoint key_eqb (a b : list factor) : bool :=
  match a, b with
  | [], [] => true
  | x :: r, y :: s => factor_eqb x y && key_eqb r s
  | _, _ => false
  end.

(** A member of a group: column index and the factor's bracketed index *)
Definition member : Type := nat * option string.
Definition groups : Type := list (list factor * list member).

(** groups[others].append(...) on a defaultdict: insertion order of first occurrence *)
Fixpoint add_member (key : list factor) (m : member) (g : groups) : groups :=
  match g with
  | [] => [(key, [m])]
  | (k, ms) :: r => if key_eqb k key then (k, ms ++ [m]) :: r else (k, ms) :: add_member key m r
  end.

(** _formula.py 95-99: the indices of the factors called [f] *)
Definition matches (f : string) (c : list factor) : list factor :=
  filter (fun x => String.eqb (fst x) f) c.
(** _formula.py 107-108: the factors at the other positions; with exactly one match these are the
    factors not called [f] *)
Definition others_of (f : string) (c : list factor) : list factor :=
  filter (fun x => negb (String.eqb (fst x) f)) c.

(** _formula.py 83-111, _group_columns_by_factor: the loop over enumerate(feature_names) *)
Fixpoint group_loop (sep f : string) (names : list string) (i : nat) (g : groups) : option groups :=
  match names with
  | [] => Some g
  | col :: r =>
      match parse_column_name sep col with
      | None => None
      | Some c =>
          match matches f c with
          | [] => group_loop sep f r (S i) g
          | [(_, idx)] => group_loop sep f r (S i) (add_member (others_of f c) (i, idx) g)
          | _ => None
          end
      end
  end.
Definition group_columns_by_factor (sep f : string) (names : list string) : option groups :=
  group_loop sep f names 0 [].

(** The floats used as sort keys; a label that parses to nan (which makes Python's order
    inconsistent) is not modelled. *)
Inductive fl := NInf | Fin (r : R) | PInf.
Definition fl_ltb (a b : fl) : bool :=
  match a, b with
  | NInf, NInf => false | NInf, _ => true
  | Fin x, Fin y => Rltb x y | Fin _, PInf => true
  | _, _ => false
  end.
Definition fl_eqb (a b : fl) : bool :=
  match a, b with
  | NInf, NInf => true | PInf, PInf => true | Fin x, Fin y => Reqb x y | _, _ => false
  end.

(** _formula.py 114-122, _sort_key; [pf] is Python's float() on strings (None: ValueError) *)
Definition sort_key (pf : string -> option fl) (m : member) : fl * string :=
  match snd m with
  | None => (Fin 0, EmptyString)
  | Some s => match pf s with Some x => (x, EmptyString) | None => (PInf, s) end
  end.
(** Python's tuple comparison *)
Definition key_ltb (a b : fl * string) : bool :=
  if fl_eqb (fst a) (fst b) then String.ltb (snd a) (snd b) else fl_ltb (fst a) (fst b).

(** list.sort(key=...): stable *)
Fixpoint insert_member (pf : string -> option fl) (m : member) (l : list member) : list member :=
  match l with
  | [] => [m]
  | x :: r => if key_ltb (sort_key pf x) (sort_key pf m) then x :: insert_member pf m r else m :: l
  end.
Fixpoint sort_members (pf : string -> option fl) (l : list member) : list member :=
  match l with [] => [] | m :: r => insert_member pf m (sort_members pf r) end.

Inductive direction := Increasing | Decreasing.
(** _formula.py 147-151 *)
Definition parse_direction (s : string) : option direction :=
  if String.eqb s "increasing" then Some Increasing
  else if String.eqb s "decreasing" then Some Decreasing else None.
(** _formula.py 159 *)
Definition dir_sign (d : direction) : R := match d with Increasing => 1 | Decreasing => -1 end.

(** A row of the matrix as a function of the column; np.zeros then item assignment *)
Definition zero_row : nat -> R := fun _ => 0.
Definition set_at (r : nat -> R) (i : nat) (v : R) : nat -> R := fun j => if Nat.eqb j i then v else r j.

(** _formula.py 162-173: the rows of one group *)
Fixpoint pair_rows (s : R) (l : list member) : list (nat -> R) :=
  match l with
  | (i, _) :: ((j, _) :: _) as r => set_at (set_at zero_row i s) j (- s) :: pair_rows s r
  | _ => []
  end.
Definition group_rows (pf : string -> option fl) (s : R) (ms : list member) : list (nat -> R) :=
  let ms := if Nat.ltb 1 (List.length ms) then sort_members pf ms else ms in
  match ms with
  | [(i, _)] => [set_at zero_row i (- s)]
  | _ => pair_rows s ms
  end.

(** _formula.py 146-173: the rows of one constrained factor *)
Definition factor_rows (pf : string -> option fl) (sep : string) (names : list string)
    (fd : string * string) : option (list (nat -> R)) :=
  match parse_direction (snd fd) with
  | None => None
  | Some d =>
      match group_columns_by_factor sep (fst fd) names with
      | None => None
      | Some [] => None
      | Some g => Some (flat_map (fun kg => group_rows pf (dir_sign d) (snd kg)) g)
      end
  end.

(** _formula.py 125-177, _build_monotonic_constraints; n_features is len(feature_names) as in the
    only caller (_glm.py 1953-1957).  np.vstack of an empty list raises. *)
Definition build_monotonic_constraints (pf : string -> option fl) (sep : string)
    (names : list string) (mono : list (string * string)) : option ineq :=
  match all_some (factor_rows pf sep names) mono with
  | None => None
  | Some rss =>
      match List.concat rss with
      | [] => None
      | rows => Some (mkIneq (List.length rows) (fun r j => nth r rows zero_row j) (fun _ => 0))
      end
  end.

(** _formula.py 180-218, _resolve_monotonic_constraints_from_model_spec.  A formulaic model
    specification enters as the list, in order, of the factor strings (str(f).rstrip("-+")) with
    their data variables; the column counts are only carried along by the code and never used. *)
Definition str_rstrip_sign (s : string) : string :=
  rstrip_of (fun c => Ascii.eqb c "-" || Ascii.eqb c "+") s.
Definition spec_factor : Type := string * list string.
Definition factors_of_var (spec : list spec_factor) (v : string) : list string :=
  map (fun f => str_rstrip_sign (fst f)) (filter (fun f => existsb (String.eqb v) (snd f)) spec).
Definition incompatible (f : string) : bool := String.prefix "poly(" f || String.prefix "cc(" f.
(** result[factor_name] = direction on an insertion-ordered dict *)
Fixpoint dict_set (k v : string) (d : list (string * string)) : list (string * string) :=
  match d with
  | [] => [(k, v)]
  | (k', v') :: r => if String.eqb k' k then (k', v) :: r else (k', v') :: dict_set k v r
  end.
Fixpoint set_factors (fs : list string) (dir : string) (d : list (string * string))
    : option (list (string * string)) :=
  match fs with
  | [] => Some d
  | f :: r => if incompatible f then None else set_factors r dir (dict_set f dir d)
  end.
Fixpoint resolve_loop (spec : list spec_factor) (mc : list (string * string)) (d : list (string * string))
    : option (list (string * string)) :=
  match mc with
  | [] => Some d
  | (v, dir) :: r =>
      match factors_of_var spec v with
      | [] => None
      | fs => match set_factors fs dir d with Some d' => resolve_loop spec r d' | None => None end
      end
  end.
Definition resolve_monotonic (spec : list spec_factor) (mc : list (string * string)) :=
  resolve_loop spec mc [].

(** _glm.py 1943-1957, _resolve_monotonic_constraints *)
Definition monotonic_ineq (pf : string -> option fl) (sep : string) (names : list string)
    (spec : list spec_factor) (mc : list (string * string)) : option ineq :=
  match resolve_monotonic spec mc with
  | Some fc => build_monotonic_constraints pf sep names fc
  | None => None
  end.
