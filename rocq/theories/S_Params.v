(** Specification side of C95: the scikit-learn contract for hyperparameters. *)
From Coq Require Import List String.
From Verif Require Import M_Params.

Definition param (c : cls) (p : string) : Prop := In p (map fst (sig_of c)).
Definition known {V} (c : cls) (kw : list (string * V)) : Prop := forall n v, In (n, v) kw -> param c n.
(** the value the caller gave, or the default of the signature *)
Definition wanted {V} (lit : string -> V) (c : cls) (kw : list (string * V)) (p : string) (v : V) : Prop :=
  In (p, v) kw \/ (~ In p (map fst kw) /\ exists t, In (p, t) (sig_of c) /\ v = lit t).
