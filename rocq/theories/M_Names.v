(** Model of the resolution of family and link arguments, src/glum/_glm.py 3143-3224.  Characters are
    ASCII.  [parse_float] is Python's float() on strings (external; [None] = ValueError). *)
From Verif Require Export Base M_Link M_Dist.
From Coq Require Import String Ascii List.
Import ListNotations.
Local Open Scope R_scope.

(** \s for ASCII characters: \t \n \v \f \r, \x1c-\x1f, space *)
Definition is_space (c : ascii) : bool :=
  let n := nat_of_ascii c in ((Nat.leb 9 n && Nat.leb n 13) || (Nat.leb 28 n && Nat.leb n 32))%bool.
Definition newline : ascii := ascii_of_nat 10.
Definition lpar : ascii := "("%char.
Definition rpar : ascii := ")"%char.
(** a pattern character: a literal, or . (anything but a newline) *)
Inductive pchar := Lit (c : ascii) | AnyChar.
Definition pmatch (p : pchar) (c : ascii) : bool := match p with Lit d => Ascii.eqb d c | AnyChar => negb (Ascii.eqb c newline) end.
Fixpoint lits (s : string) : list pchar := match s with EmptyString => [] | String c r => Lit c :: lits r end.
(** the part of the pattern before \s? *)
Fixpoint match_prefix (pat : list pchar) (s : string) : option string :=
  match pat, s with
  | [], _ => Some s
  | p :: pat', String c s' => if pmatch p c then match_prefix pat' s' else None
  | _ :: _, EmptyString => None
  end.
(** \s? (greedy; a space is no parenthesis, so there is nothing to backtrack to) followed by an opening parenthesis *)
Definition match_open (s : string) : option string :=
  let s1 := match s with String c s' => if is_space c then s' else s | EmptyString => s end in
  match s1 with String c s' => if Ascii.eqb c lpar then Some s' else None | EmptyString => None end.
(** .* followed by a closing parenthesis, greedy: the longest prefix without newline that is followed by one *)
Fixpoint match_body (s : string) : option string :=
  match s with
  | EmptyString => None
  | String c s' =>
      match (if Ascii.eqb c newline then None else option_map (String c) (match_body s')) with
      | Some g => Some g
      | None => if Ascii.eqb c rpar then Some EmptyString else None
      end
  end.
(** .+ *)
Definition match_group (s : string) : option string :=
  match s with
  | EmptyString => None
  | String c s' => if Ascii.eqb c newline then None else option_map (String c) (match_body s')
  end.
Definition match_at (pat : list pchar) (s : string) : option string :=
  match match_prefix pat s with
  | None => None
  | Some s1 => match match_open s1 with None => None | Some s2 => match_group s2 end
  end.
(** re.search: the leftmost match; group 1 *)
Fixpoint re_search (pat : list pchar) (s : string) : option string :=
  match match_at pat s with
  | Some g => Some g
  | None => match s with EmptyString => None | String _ s' => re_search pat s' end
  end.
Definition tweedie_pat : list pchar := lits "tweedie".
Definition negbin_pat : list pchar := (lits "negative" ++ [AnyChar] ++ lits "binomial")%list.

Section Parse.
Variable parse_float : string -> option R.
(** the argument: an instance or a string *)
Inductive family_arg := FInst (f : family) | FName (s : string).
Inductive link_arg := LInst (l : link) | LNone | LName (s : string).

(** get_family, 3143-3175; [None] = raises *)
Definition get_family (a : family_arg) : option family :=
  match a with
  | FInst f => Some f
  | FName s =>
    if String.eqb s "binomial" then Some BinomialF
    else if String.eqb s "gamma" then Some GammaF
    else if String.eqb s "gaussian" then Some NormalF
    else if String.eqb s "inverse.gaussian" then Some InvGaussF
    else if String.eqb s "normal" then Some NormalF
    else if String.eqb s "poisson" then Some PoissonF
    else if String.eqb s "tweedie" then Some (TweedieF (3 / 2))
    else if String.eqb s "negative.binomial" then Some (NegBinF 1)
    else match re_search tweedie_pat s with
    | Some g => match parse_float g with Some p => mk_tweedie p | None => None end
    | None => match re_search negbin_pat s with
              | Some g => match parse_float g with Some t => mk_negbin t | None => None end
              | None => None
              end
    end
  end.
(** to_tweedie(safe=False), _distribution.py 102-108, 581-582, 795-796, 908-909, 1022-1023, 1135-1136: the power *)
Definition tweedie_repr (f : family) : option R :=
  match f with
  | TweedieF p => Some p | NormalF => Some 0 | PoissonF => Some 1 | GammaF => Some 2 | InvGaussF => Some 3
  | _ => None
  end.
(** get_link, 3178-3224 *)
Definition auto_link (f : family) : option link :=
  match tweedie_repr f with
  | Some p => if Rle_dec p 0 then Some IdentityL else Some LogL
  | None => match f with
            | GHSF => Some IdentityL
            | BinomialF => Some LogitL
            | NegBinF _ => Some LogL
            | _ => None
            end
  end.
Definition get_link (a : link_arg) (f : family) : option link :=
  match a with
  | LInst l => Some l
  | LNone => auto_link f
  | LName s =>
    if String.eqb s "auto" then auto_link f
    else if String.eqb s "cloglog" then Some CloglogL
    else if String.eqb s "identity" then Some IdentityL
    else if String.eqb s "log" then Some LogL
    else if String.eqb s "logit" then Some LogitL
    else if String.eqb s "tweedie" then Some (TweedieL (3 / 2))
    else match re_search tweedie_pat s with
    | Some g => match parse_float g with Some p => mk_tweedie_link p | None => None end
    | None => None
    end
  end.
End Parse.
