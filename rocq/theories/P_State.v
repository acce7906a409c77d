(** Theorems C78: pickles of the current and of older versions. *)
From Coq Require Import String List ZArith.
From Verif Require Import M_Cat M_State S_State.
Import List.ListNotations.
Local Open Scope string_scope.

Lemma lists_levels_of : forall f, lists_levels f (levels_of (dtypes_of f)).
Proof.
  induction f as [|[n c] f IH]; [constructor|].
  unfold levels_of, dtypes_of in *. cbn [map filter fst snd]. destruct (c_dtype c) eqn:E; cbn [is_cat].
  1,2: cbn [map fst snd categories]; apply ll_cat; [rewrite E; tauto|exact IH].
  all: apply ll_other; [rewrite E; tauto|exact IH].
Qed.

Lemma lists_levels_fun : forall f L L', lists_levels f L -> lists_levels f L' -> L = L'.
Proof.
  intros f L L' H. revert L'. induction H as [|n c cats f L E H IH|n c f L E H IH]; intros L' H'; inversion H'; subst.
  - reflexivity.
  - f_equal; [f_equal|auto].
    repeat match goal with H : _ \/ _ |- _ => destruct H end; congruence.
  - exfalso. repeat match goal with H : _ \/ _ |- _ => destruct H end; congruence.
  - exfalso. repeat match goal with H : _ \/ _ |- _ => destruct H end; congruence.
  - auto.
Qed.

Lemma set_default_at : forall k v d k', set_default k v d k' = match d k' with Some w => Some w | None => if String.eqb k' k then Some v else None end.
Proof.
  intros k v d k'. unfold set_default, has, put. destruct (d k) eqn:E.
  - destruct (d k') eqn:E'; [reflexivity|]. destruct (String.eqb_spec k' k); [subst; congruence|reflexivity].
  - destruct (String.eqb_spec k' k); [subst; rewrite E; reflexivity|]. destruct (d k'); reflexivity.
Qed.

Lemma defaults_at : forall d k, set_default "monotonic_constraints" VNone (set_default "max_inner_iter" (VInt 100000%Z) d) k
  = match d k with Some w => Some w | None => default_of k end.
Proof.
  intros d k. rewrite !set_default_at. unfold default_of. destruct (d k); [reflexivity|].
  destruct (String.eqb_spec k "max_inner_iter"); [reflexivity|reflexivity].
Qed.

Lemma load_at : forall st, (st "feature_dtypes_" = None \/ st "_categorical_levels_" <> None) ->
  exists d, load st = Some d /\ forall k, d k = match st k with Some w => Some w | None => default_of k end.
Proof.
  intros st H. unfold load, setstate.
  assert (E : (has st "feature_dtypes_" && negb (has st "_categorical_levels_"))%bool = false).
  { unfold has. destruct H as [-> | H]; [reflexivity|]. destruct (st "_categorical_levels_"); [|congruence].
    destruct (st "feature_dtypes_"); reflexivity. }
  rewrite E. eexists. split; [reflexivity|]. intros k. rewrite defaults_at. unfold update, empty_dict.
  destruct (st k); reflexivity.
Qed.

Lemma load_old : forall l st, st "feature_dtypes_" = Some (VDtypes l) -> st "_categorical_levels_" = None ->
  exists d, load st = Some d /\ forall k, d k =
    if String.eqb k "_feature_dtypes_" then Some (VDtypes l)
    else if String.eqb k "_categorical_levels_" then Some (VLevels (levels_of l))
    else match st k with Some w => Some w | None => default_of k end.
Proof.
  intros l st H1 H2. unfold load, setstate, has. rewrite H1, H2. cbn [negb andb].
  eexists. split; [reflexivity|]. intros k. rewrite defaults_at. unfold put, update, empty_dict.
  destruct (String.eqb k "_feature_dtypes_"); [reflexivity|].
  destruct (String.eqb k "_categorical_levels_"); [reflexivity|]. destruct (st k); reflexivity.
Qed.

(** C78: pickling and loading an estimator of the current version, whatever its history (also if it was itself
    loaded from an old pickle and used further), gives back exactly its attributes. *)
Theorem C78_round_trip : forall d, current d -> exists d', load d = Some d' /\ forall k, d' k = d k.
Proof.
  intros d H.
  assert (I : d "max_inner_iter" <> None /\ d "monotonic_constraints" <> None /\
              (d "feature_dtypes_" = None \/ d "_categorical_levels_" <> None)).
  { induction H as [d H1 H2 H3|d k v H IH Hk|st d H].
    - auto.
    - unfold put. destruct IH as [I1 [I2 I3]].
      assert (P : forall k', d k' <> None -> (if String.eqb k' k then Some v else d k') <> None)
        by (intros k' Q; destruct (String.eqb k' k); [discriminate|exact Q]).
      split; [apply P; exact I1|]. split; [apply P; exact I2|].
      destruct (String.eqb_spec "feature_dtypes_" k) as [E|E]; [congruence|].
      destruct I3 as [I3|I3]; [left; exact I3|right; apply P; exact I3].
    - destruct (st "_categorical_levels_") as [lv|] eqn:EL.
      + destruct (load_at st) as [d0 [E0 A]]; [right; congruence|]. rewrite E0 in H. injection H as <-.
        rewrite !A, EL. split; [destruct (st "max_inner_iter"); discriminate|].
        split; [destruct (st "monotonic_constraints"); discriminate|]. right. discriminate.
      + destruct (st "feature_dtypes_") as [v|] eqn:EF.
        * destruct v; try (unfold load, setstate, has in H; rewrite EF, EL in H; discriminate).
          destruct (load_old l st EF EL) as [d0 [E0 A]]. rewrite E0 in H. injection H as <-.
          rewrite !A. cbn [String.eqb Ascii.eqb Bool.eqb].
          split; [destruct (st "max_inner_iter"); discriminate|].
          split; [destruct (st "monotonic_constraints"); discriminate|]. right. discriminate.
        * destruct (load_at st) as [d0 [E0 A]]; [left; exact EF|]. rewrite E0 in H. injection H as <-.
          rewrite !A, EF. split; [destruct (st "max_inner_iter"); discriminate|].
          split; [destruct (st "monotonic_constraints"); discriminate|]. left. reflexivity. }
  destruct I as [I1 [I2 I3]]. destruct (load_at d I3) as [d' [E A]]. exists d'. split; [exact E|].
  intros k. rewrite A. destruct (d k) eqn:Ek; [reflexivity|]. unfold default_of.
  destruct (String.eqb_spec k "max_inner_iter"); [subst; congruence|].
  destruct (String.eqb_spec k "monotonic_constraints"); [subst; congruence|reflexivity].
Qed.
Print Assumptions C78_round_trip.

(** C78: the pickle of an older version loads; categorical_levels_ lists exactly the categorical columns of the
    training frame in their order with their categories, as a fit of the current version on that frame stores them;
    feature_dtypes_ is still readable; every other attribute is the pickled one, and only max_inner_iter and
    monotonic_constraints get a default, only if they are missing. *)
Theorem C78_old_pickle : forall f st, old_state f st ->
  exists d L, load st = Some d /\ lists_levels f L /\
    categorical_levels d = Some (VLevels L) /\ (forall d1, categorical_levels (fit_frame f d1) = Some (VLevels L)) /\
    feature_dtypes d = st "feature_dtypes_" /\ (forall d1, feature_dtypes (fit_frame f d1) = feature_dtypes d) /\
    (forall k v, k <> "_feature_dtypes_" -> st k = Some v -> d k = Some v) /\
    (st "max_inner_iter" = None -> d "max_inner_iter" = Some (VInt 100000%Z)) /\
    (st "monotonic_constraints" = None -> d "monotonic_constraints" = Some VNone) /\
    (forall k, st k = None -> k <> "max_inner_iter" -> k <> "monotonic_constraints" -> k <> "_feature_dtypes_" ->
       k <> "_categorical_levels_" -> d k = None).
Proof.
  intros f st [H1 H2]. destruct (load_old _ st H1 H2) as [d [E A]].
  exists d, (levels_of (dtypes_of f)). split; [exact E|]. split; [apply lists_levels_of|].
  split; [unfold categorical_levels; rewrite A; reflexivity|]. split; [reflexivity|].
  split; [unfold feature_dtypes; rewrite A, H1; reflexivity|].
  split; [intros d1; unfold feature_dtypes; rewrite A; reflexivity|].
  split. { intros k v Hk Ev. rewrite A. destruct (String.eqb_spec k "_feature_dtypes_"); [congruence|].
    destruct (String.eqb_spec k "_categorical_levels_"); [subst; congruence|]. rewrite Ev. reflexivity. }
  split; [intros Q; rewrite A, Q; reflexivity|]. split; [intros Q; rewrite A, Q; reflexivity|].
  intros k Q N1 N2 N3 N4. rewrite A, Q. unfold default_of.
  destruct (String.eqb_spec k "_feature_dtypes_"); [congruence|]. destruct (String.eqb_spec k "_categorical_levels_"); [congruence|].
  destruct (String.eqb_spec k "max_inner_iter"); [congruence|]. destruct (String.eqb_spec k "monotonic_constraints"); [congruence|reflexivity].
Qed.
Print Assumptions C78_old_pickle.

(** Loading fails only for a pickle with a feature_dtypes_ that is not a mapping (and no categorical levels). *)
Theorem C78_load_fails_iff : forall st, load st = None <->
  (st "_categorical_levels_" = None /\ exists v, st "feature_dtypes_" = Some v /\ forall l, v <> VDtypes l).
Proof.
  intros st. split.
  - intros H. destruct (st "_categorical_levels_") eqn:EL.
    { destruct (load_at st) as [d [E _]]; [right; congruence|congruence]. }
    split; [reflexivity|]. destruct (st "feature_dtypes_") as [v|] eqn:EF.
    + exists v. split; [reflexivity|]. intros l ->. destruct (load_old l st EF EL) as [d [E _]]. congruence.
    + destruct (load_at st) as [d [E _]]; [left; exact EF|congruence].
  - intros [EL [v [EF N]]]. unfold load, setstate, has. rewrite EF, EL. cbn [negb andb].
    destruct v; try reflexivity. exfalso. eapply N. reflexivity.
Qed.
Print Assumptions C78_load_fails_iff.

Lemma encode_frame_ext : forall A from_df coded fmt d d' (g : dataframe),
  (forall nc, encode_column A from_df coded fmt d nc = encode_column A from_df coded fmt d' nc) ->
  encode_frame A from_df coded fmt d g = encode_frame A from_df coded fmt d' g.
Proof.
  intros A from_df coded fmt d d' g H. induction g as [|nc g IH]; [reflexivity|].
  cbn [encode_frame]. rewrite H, IH. reflexivity.
Qed.

Lemma convert_column_plain : forall levels hm hm' m name name' ft ft' c, m <> MConvert ->
  convert_column levels hm m name ft c = convert_column levels hm' m name' ft' c.
Proof.
  intros levels hm hm' m name name' ft ft' c H. unfold convert_column, align_column, unseen.
  destruct m; [| |congruence]; reflexivity.
Qed.

(** C78: an estimator loaded from an older pickle encodes every frame to predict on exactly as the current version
    fitted on the same frame would: also pickles from before cat_missing_method existed ('fail' then). *)
Theorem C78_old_pickle_encodes : forall A from_df coded fmt f st d d1 g, old_state f st -> load st = Some d ->
  method_of st = method_of d1 ->
  (method_of st = MConvert -> forall k, In k ["has_missing_category_"; "cat_missing_name"; "feature_names_"; "categorical_format"] ->
     st k = fit_frame f d1 k) ->
  encode_frame A from_df coded fmt d g = encode_frame A from_df coded fmt (fit_frame f d1) g.
Proof.
  intros A from_df coded fmt f st d d1 g [H1 H2] HL HM HC.
  destruct (load_old _ st H1 H2) as [d0 [E AT]]. rewrite E in HL. injection HL as <-.
  apply encode_frame_ext. intros nc. unfold encode_column.
  assert (EM : method_of d0 = method_of st).
  { unfold method_of. rewrite AT. cbn [String.eqb Ascii.eqb Bool.eqb]. destruct (st "cat_missing_method"); reflexivity. }
  assert (EM1 : method_of (fit_frame f d1) = method_of st) by (rewrite HM; reflexivity).
  assert (EL : categorical_levels d0 = Some (VLevels (levels_of (dtypes_of f)))).
  { unfold categorical_levels. rewrite AT. reflexivity. }
  assert (EL1 : categorical_levels (fit_frame f d1) = Some (VLevels (levels_of (dtypes_of f)))) by reflexivity.
  rewrite EM, EM1, EL, EL1. destruct (dget (fst nc) (levels_of (dtypes_of f))) as [lv|]; [|reflexivity].
  assert (K : forall k, In k ["has_missing_category_"; "cat_missing_name"; "feature_names_"; "categorical_format"] ->
     d0 k = st k).
  { intros k Hk. rewrite AT. cbn [In] in Hk. destruct Hk as [<-|[<-|[<-|[<-|[]]]]]; cbn [String.eqb Ascii.eqb Bool.eqb];
      match goal with |- context [match st ?k with _ => _ end] => destruct (st k); reflexivity end. }
  destruct (method_of st) eqn:EMS.
  1,2: cbn [is_convert andb]; f_equal; apply convert_column_plain; congruence.
  assert (K' : forall k, In k ["has_missing_category_"; "cat_missing_name"; "feature_names_"; "categorical_format"] ->
     d0 k = fit_frame f d1 k) by (intros k Hk; rewrite K by exact Hk; apply HC; [reflexivity|exact Hk]).
  rewrite (K' "has_missing_category_") by (cbn; tauto).
  unfold miss_name, feature_in. rewrite (K' "cat_missing_name") by (cbn; tauto).
  rewrite (K' "categorical_format") by (cbn; tauto). rewrite (K' "feature_names_") by (cbn; tauto). reflexivity.
Qed.
Print Assumptions C78_old_pickle_encodes.

(** an old pickle with a categorical column, without max_inner_iter *)
Definition ex78_frame : dataframe :=
  [("num", mkCol DNumber []); ("cat", mkCol (DCategorical ["b"; "a"]) [Some "a"; Some "b"; Some "a"])].
Definition ex78_state : dict := fun k =>
  if String.eqb k "feature_dtypes_" then Some (VDtypes [("num", DNumber); ("cat", DCategorical ["b"; "a"])])
  else if String.eqb k "coef_" then Some (VOther 7) else None.
Example C78_nonvacuous : old_state ex78_frame ex78_state /\
  exists d, load ex78_state = Some d /\ categorical_levels d = Some (VLevels [("cat", ["b"; "a"])]) /\
    d "coef_" = Some (VOther 7) /\ d "max_inner_iter" = Some (VInt 100000%Z) /\
    encode_frame (list (option nat)) (fun _ _ => Some []) (fun l => l) (fun _ a b => a ++ b) d
      [("cat", mkCol DString [Some "b"; Some "a"])] = Some [[Some 0; Some 1]] /\ current d.
Proof.
  split; [split; reflexivity|]. eexists. split; [reflexivity|]. repeat (split; [reflexivity|]).
  apply (cur_load ex78_state). reflexivity.
Qed.
