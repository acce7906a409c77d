(** Specification side of C102. *)
From Coq Require Import List.
From Verif Require Import Base M_Link M_Dist M_Float M_Eq.
Import ListNotations.
Local Open Scope R_scope.

(** two numbers with the same value; NaN has none *)
Definition same_number (v w : pyval) : Prop :=
  (exists x, num_value v = Some x /\ num_value w = Some x) \/ (v = PyNum PInf /\ w = PyNum PInf) \/ (v = PyNum NInf /\ w = PyNum NInf).
(** when two instances should be equal *)
Definition should_equal (v w : inst) : Prop :=
  match c_kind (i_cls v) with
  | KTweedie | KNegBin => c_kind (i_cls w) = c_kind (i_cls v) /\ same_number (i_par v) (i_par w)
  | KTweedieLink => i_cls w = i_cls v /\ same_number (i_par v) (i_par w)
  | _ => i_cls w = i_cls v
  end.
Definition constructed (x : inst) : Prop := exists v, construct (i_cls x) v = Some x.
Definition is_nan (x : inst) : Prop := i_par x = PyNum NaN.
Definition is_tweedie (x : inst) : Prop := c_kind (i_cls x) = KTweedie \/ c_kind (i_cls x) = KTweedieLink.
Definition has_tweedie (x : inst) : Prop :=
  match c_kind (i_cls x) with KGHS | KBinomial | KNegBin | KLogit | KCloglog => False | _ => True end.
