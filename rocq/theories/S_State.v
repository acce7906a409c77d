(** Specification for C78: which dictionaries an estimator of the current version can have, and what the pickle of an
    older version looks like. *)
From Coq Require Import String List ZArith.
From Verif Require Import M_Cat M_State.
Import List.ListNotations.
Local Open Scope string_scope.

(** The attribute dictionaries of estimators under the current version.  The constructor sets all hyper-parameters
    (max_inner_iter and monotonic_constraints among them) and not the property name feature_dtypes_; afterwards fit,
    set_params and queries set attributes (an assignment to feature_dtypes_ goes to the property's setter, which
    writes _feature_dtypes_); loading a pickle, of this or an older version, also gives an estimator. *)
Inductive current : dict -> Prop :=
| cur_new : forall d, d "max_inner_iter" <> None -> d "monotonic_constraints" <> None -> d "feature_dtypes_" = None -> current d
| cur_set : forall d k v, current d -> k <> "feature_dtypes_" -> current (put k v d)
| cur_load : forall st d, load st = Some d -> current d.

(** The state pickled by an older version after a fit on the frame [f]: it stored the dtypes of the columns under
    feature_dtypes_ *)
Definition old_state (f : dataframe) (st : dict) : Prop :=
  st "feature_dtypes_" = Some (VDtypes (map (fun nc => (fst nc, c_dtype (snd nc))) f)) /\ st "_categorical_levels_" = None.

(** [L] lists the categorical columns of [f], in the order of [f], each with its categories *)
Inductive lists_levels : dataframe -> list (string * list string) -> Prop :=
| ll_nil : lists_levels [] []
| ll_cat : forall n c cats f L, (c_dtype c = DEnum cats \/ c_dtype c = DCategorical cats) -> lists_levels f L ->
    lists_levels ((n, c) :: f) ((n, cats) :: L)
| ll_other : forall n c f L, (c_dtype c = DString \/ c_dtype c = DNumber) -> lists_levels f L -> lists_levels ((n, c) :: f) L.

Definition default_of (k : string) : option value :=
  if String.eqb k "max_inner_iter" then Some (VInt 100000%Z)
  else if String.eqb k "monotonic_constraints" then Some VNone else None.
