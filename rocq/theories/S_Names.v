(** Specification vocabulary for names of families and links. *)
From Verif Require Export M_Names S_Dist.
From Coq Require Import String Ascii List.
Import ListNotations.
Local Open Scope R_scope.

Fixpoint has_char (c : ascii) (s : string) : Prop := match s with EmptyString => False | String d r => c = d \/ has_char c r end.
(** a parameter text: not empty, on one line *)
Definition param_text (g : string) : Prop := g <> EmptyString /\ ~ has_char newline g.
(** an optional single white space *)
Definition opt_space (s : string) : Prop := s = EmptyString \/ exists c, is_space c = true /\ s = String c EmptyString.
(** the names with a parameter: "tweedie" and "negative?binomial" (any character for the ?) *)
Definition tweedie_word (w : string) : Prop := w = "tweedie"%string.
Definition negbin_word (w : string) : Prop := exists c, c <> newline /\ w = ("negative" ++ String c "binomial")%string.
(** s contains  word [space] ( g ) *)
Definition contains_call (word : string -> Prop) (s g : string) : Prop :=
  exists pre w sp post, word w /\ opt_space sp /\ param_text g /\
    s = (pre ++ w ++ sp ++ String lpar (g ++ String rpar post))%string.

(** the documented default links *)
Definition default_link (f : family) : link :=
  match f with
  | NormalF | GHSF => IdentityL
  | PoissonF | GammaF | InvGaussF | NegBinF _ => LogL
  | BinomialF => LogitL
  | TweedieF p => if Rle_dec p 0 then IdentityL else LogL
  end.
Definition family_table : list (string * family) :=
  [("binomial", BinomialF); ("gamma", GammaF); ("gaussian", NormalF); ("inverse.gaussian", InvGaussF); ("normal", NormalF);
   ("poisson", PoissonF); ("tweedie", TweedieF (3 / 2)); ("negative.binomial", NegBinF 1)]%string.
Definition link_table : list (string * link) :=
  [("cloglog", CloglogL); ("identity", IdentityL); ("log", LogL); ("logit", LogitL); ("tweedie", TweedieL (3 / 2))]%string.
