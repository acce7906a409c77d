(** C94: what the [context] argument of fit, predict, ... refers to. *)
From Coq Require Import List ZArith Bool Lia. Import ListNotations.
From Verif Require Import M_Context S_Context.
Local Open Scope Z_scope.

Lemma capture_int {name val} g (fr : frame name val) st k : 0 <= k ->
  capture_context g (fr :: st) (CInt k) = match nth_error st (Z.to_nat k) with Some f => Some (Some (frame_scope f)) | None => None end.
Proof.
  intros Hk. unfold capture_context, formulaic_capture, getframe. replace (Z.to_nat (k + 2 + 1)) with (S (S (S (Z.to_nat k)))) by lia. reflexivity.
Qed.
Lemma capture_map {name val} g (st : list (frame name val)) m : capture_context g st (CMap m) = Some (Some m).
Proof. reflexivity. Qed.
Lemma capture_none {name val} g (st : list (frame name val)) : capture_context g st CNone = Some None.
Proof. reflexivity. Qed.
Lemma capture_as {name val} g (st : list (frame name val)) s : capture_context g st (as_ctx s) = Some s.
Proof. destruct s; reflexivity. Qed.
Lemma lin_matrix {name val} g e (st : list (frame name val)) c : linear_predictor g e st XMatrix c = Some [].
Proof. unfold linear_predictor, cv_linear_predictor. destruct (e_cv e), (e_path e); reflexivity. Qed.

(** None and a mapping mean the same thing in every method: the right-hand side is evaluated with exactly that. *)
Theorem C94_mapping : forall name val (g : gframe -> frame name val) m e user c, e_cached e = false -> (forall k, c <> CInt k) ->
  exists t s, call g m e user XFrame c = Some t /\ documented user c = Some s /\ evaluated_in RHS t s.
Proof.
  intros name val g m e user c HC Hc.
  assert (HD : exists s, documented user c = Some s /\ forall st, capture_context g st c = Some s).
  { destruct c as [|k|mm]; [exists None; split; reflexivity|exfalso; apply (Hc k); reflexivity|exists (Some mm); split; reflexivity]. }
  destruct HD as [s [D K]].
  assert (Q : exists t, call g m e user XFrame c = Some t /\ evaluated_in RHS t s).
  { destruct m; cbn [call]; unfold fit_method, predict, score_method, coef_table, wald_test, std_errors, info_criterion, get_info_criteria, covariance_matrix, predict, linear_predictor, cv_linear_predictor, base_linear_predictor, compute_linear_predictor;
      cbv zeta; rewrite ?K, ?HC; cbn [bind]; rewrite ?capture_as; cbn [bind]; destruct (e_lhs e), (e_cv e), (e_path e); cbn; rewrite ?K, ?capture_as; cbn;
      (eexists; split; [reflexivity|]); (split; [eexists; cbn; eauto|]); intros c' Hin; cbn in Hin;
      repeat match goal with H : _ \/ _ |- _ => destruct H | H : False |- _ => destruct H | H : (_, _) = (_, _) |- _ => inversion H; subst; clear H end; try reflexivity; congruence. }
  destruct Q as [t [Q1 Q2]]. exists t, s. auto.
Qed.
Print Assumptions C94_mapping.

(** An integer: in the methods that resolve it themselves it is exactly the caller's frame at that depth - the call does
    the same as the call with that frame's mapping - and the call raises when there is no such frame. *)
Theorem C94_calling_scope : forall name val (g : gframe -> frame name val) m e user k, direct m -> 0 <= k ->
  call g m e user XFrame (CInt k) =
  match nth_error user (Z.to_nat k) with Some f => call g m e user XFrame (CMap (frame_scope f)) | None => None end.
Proof.
  intros name val g m e user k Hm Hk.
  destruct m; try (exfalso; exact Hm); cbn [call];
  unfold fit_method, predict, score_method, coef_table, wald_test, std_errors, covariance_matrix; cbv zeta; rewrite (capture_int g _ _ k Hk);
    destruct (nth_error user (Z.to_nat k)); cbn [bind]; rewrite ?lin_matrix; cbn [bind]; reflexivity.
Qed.
Print Assumptions C94_calling_scope.

(** The full meaning for these methods, in terms of the documentation. *)
Theorem C94_documented : forall name val (g : gframe -> frame name val) m e user c, direct m -> (forall k, c = CInt k -> 0 <= k) ->
  match documented user c with
  | None => call g m e user XFrame c = None
  | Some s => exists t, call g m e user XFrame c = Some t /\ evaluated_in RHS t s
  end.
Proof.
  intros name val g m e user c Hm Hc.
  assert (HI : forall c', (forall k, c' <> CInt k) -> exists s t, documented user c' = Some s /\ call g m e user XFrame c' = Some t /\ evaluated_in RHS t s).
  { intros c' Hc'. destruct (e_cached e) eqn:HC.
    - destruct (C94_mapping name val g m (mkEst (e_lhs e) (e_cv e) (e_path e) false) user c' eq_refl Hc') as (t & s & A & B & C).
      exists s, t. split; [exact B|]. split; [|exact C]. rewrite <- A. destruct m; try (exfalso; exact Hm); reflexivity.
    - destruct (C94_mapping name val g m e user c' HC Hc') as (t & s & A & B & C). exists s, t. auto. }
  destruct c as [|k|mm].
  - destruct (HI CNone) as (s & t & A & B & C); [discriminate|]. rewrite A. exists t. auto.
  - cbn [documented]. rewrite (C94_calling_scope name val g m e user k Hm (Hc k eq_refl)).
    destruct (nth_error user (Z.to_nat k)) as [f|]; [|reflexivity].
    destruct (HI (CMap (frame_scope f))) as (s & t & A & B & C); [discriminate|]. inversion A; subst. exists t. auto.
  - destruct (HI (CMap mm)) as (s & t & A & B & C); [discriminate|]. rewrite A. exists t. auto.
Qed.
Print Assumptions C94_documented.

(** linear_predictor, score, aic, aicc and bic resolve it one call too deep (linear_predictor of the CV estimator two):
    depth [slip + k] is the caller's frame k ... *)
Theorem C94_slip : forall name val (g : gframe -> frame name val) m e user k, 0 <= k ->
  call g m e user XFrame (CInt (Z.of_nat (slip m e) + k)) =
  match nth_error user (Z.to_nat k) with Some f => call g m e user XFrame (CMap (frame_scope f)) | None => None end.
Proof.
  intros name val g m e user k Hk.
  assert (S1 : Z.to_nat (1 + k) = S (Z.to_nat k)) by lia. assert (S2 : Z.to_nat (2 + k) = S (S (Z.to_nat k))) by lia.
  destruct m; cbn [slip].
  all: try (rewrite Z.add_0_l; apply C94_calling_scope; [exact I|exact Hk]).
  - cbn [call]. unfold linear_predictor, cv_linear_predictor, base_linear_predictor, compute_linear_predictor.
    destruct (e_cv e); [destruct (e_path e)|]; cbn [Z.of_nat Pos.of_succ_nat Pos.succ]; rewrite capture_int by lia; rewrite ?S1, ?S2; cbn [nth_error];
      destruct (nth_error user (Z.to_nat k)); cbn [bind]; reflexivity.
  - cbn [call]. unfold score_method, predict. cbn [Z.of_nat Pos.of_succ_nat]. rewrite capture_int by lia. rewrite S1. cbn [nth_error].
    destruct (nth_error user (Z.to_nat k)); cbn [bind]; rewrite ?lin_matrix; reflexivity.
  - cbn [call]. unfold info_criterion, get_info_criteria. cbn [Z.of_nat Pos.of_succ_nat]. rewrite capture_int by lia. rewrite S1. cbn [nth_error].
    destruct (nth_error user (Z.to_nat k)); cbn [bind as_ctx]; reflexivity.
Qed.
Print Assumptions C94_slip.

(** ... so the documented [context=0] gives them a frame of glum itself: a name of the calling scope that glum's frame
    does not know is found while fitting and not found while scoring. *)
Theorem C94_calling_scope_refuted : forall name val (g : gframe -> frame name val) m e f user (n : name) v data tr,
  e_cached e = false -> ~ direct m ->
  frame_scope f n = Some v -> data n = None -> tr n = None ->
  (forall fr, frame_scope (g fr) n = None) ->
  (exists t s, call g MFit e (f :: user) XFrame (CInt 0) = Some t /\ evaluated_in RHS t s /\ resolve data s tr n = Some v) /\
  (exists t s, call g m e (f :: user) XFrame (CInt 0) = Some t /\ evaluated_in RHS t s /\ resolve data s tr n = None).
Proof.
  intros name val g m e f user n v data tr HC Hm Hv Hd Ht Hg. split.
  - pose proof (C94_documented name val g MFit e (f :: user) (CInt 0) I) as D. cbn [documented Z.to_nat nth_error] in D.
    destruct D as (t & A & B); [intros k Hk; inversion Hk; lia|]. exists t, (Some (frame_scope f)). split; [exact A|]. split; [exact B|].
    unfold resolve. rewrite Hd, Hv. reflexivity.
  - assert (R : forall fr, resolve data (Some (frame_scope (g fr))) tr n = None) by (intros fr; unfold resolve; rewrite Hd, Hg, Ht; reflexivity).
    assert (EV : forall s, evaluated_in RHS (@convert_from_df name val s) s /\ evaluated_in RHS (@convert_from_df name val s ++ []) s).
    { intros s. split; (split; [exists s; left; reflexivity|intros c' [H|[]]; inversion H; reflexivity]). }
    destruct m; try (exfalso; apply Hm; exact I); cbn [call].
    + unfold linear_predictor, cv_linear_predictor, base_linear_predictor, compute_linear_predictor.
      destruct (e_cv e); [destruct (e_path e)|]; rewrite capture_int by lia; cbn [Z.to_nat nth_error bind];
        (eexists; eexists; split; [reflexivity|]; split; [apply EV|apply R]).
    + unfold score_method, predict. rewrite capture_int by lia. cbn [Z.to_nat nth_error bind]. rewrite lin_matrix. cbn [bind].
      eexists; eexists; split; [reflexivity|]; split; [apply EV|apply R].
    + unfold info_criterion, get_info_criteria. rewrite capture_int by lia. cbn [Z.to_nat nth_error bind]. rewrite HC. unfold predict.
      rewrite capture_as. cbn [bind]. rewrite lin_matrix. cbn [bind]. eexists; eexists; split; [reflexivity|]; split; [apply EV|apply R].
Qed.
Print Assumptions C94_calling_scope_refuted.

(** The response of a two-sided formula: fit evaluates it in the given context, covariance_matrix (and std_errors,
    coef_table, wald_test) re-evaluate it without any. *)
Theorem C94_response : forall name val (g : gframe -> frame name val) m e user c s t, e_lhs e = true ->
  documented user c = Some s -> (forall k, c = CInt k -> 0 <= k) -> call g m e user XFrame c = Some t ->
  match m with
  | MFit => evaluated_in LHS t s
  | MCoefTable | MWald _ | MStdErrors | MCov => evaluated_in LHS t None
  | _ => forall s', ~ In (LHS, s') t
  end.
Proof.
  intros name val g m e user c s t HL HD Hc HT.
  assert (HE : exists c', (forall k, c' <> CInt k) /\ (direct m -> call g m e user XFrame c' = Some t /\ documented user c' = Some s)).
  { destruct c as [|k|mm]; [exists CNone; split; [discriminate|auto]| |exists (CMap mm); split; [discriminate|auto]].
    cbn [documented] in HD. destruct (nth_error user (Z.to_nat k)) as [f|] eqn:EN; [|discriminate]. inversion HD; subst. exists (CMap (frame_scope f)).
    split; [discriminate|]. intros Hm. split; [|reflexivity]. rewrite <- HT. rewrite (C94_calling_scope name val g m e user k Hm (Hc k eq_refl)), EN. reflexivity. }
  destruct HE as (c' & HN & HE).
  assert (K : forall st, direct m -> capture_context g st c' = Some s).
  { intros st Hm. destruct (HE Hm) as [_ D]. destruct c' as [|k|mm]; cbn in D |- *; [exact D|exfalso; apply (HN k); reflexivity|exact D]. }
  assert (NL : forall e0 st x c0 t0 s', predict g e0 st x c0 = Some t0 -> ~ In (LHS, s') t0).
  { intros e0 st x c0 t0 s' H Hin. unfold predict in H. destruct x.
    - destruct (capture_context g _ c0); cbn [bind] in H; [|discriminate]. rewrite lin_matrix in H. cbn in H. inversion H; subst. destruct Hin as [Hin|[]]. discriminate.
    - rewrite lin_matrix in H. inversion H; subst. destruct Hin. }
  destruct m; try (destruct (HE I) as [HT' _]; clear HT).
  - cbn [call] in HT'. unfold fit_method in HT'. cbv zeta in HT'. rewrite K in HT' by exact I. cbn [bind] in HT'. rewrite HL in HT'. inversion HT'; subst.
    split; [exists s; left; reflexivity|]. intros c0 [H|[H|[]]]; inversion H; reflexivity.
  - intros s'. exact (NL _ _ _ _ _ s' HT').
  - intros s' Hin. cbn [call] in HT. unfold linear_predictor, cv_linear_predictor, base_linear_predictor, compute_linear_predictor in HT.
    destruct (e_cv e); [destruct (e_path e)|]; (destruct (capture_context g _ c); cbn [bind] in HT; [|discriminate]; inversion HT; subst; destruct Hin as [Hin|[]]; discriminate).
  - intros s'. exact (NL _ _ _ _ _ s' HT).
  - cbn [call] in HT'. unfold coef_table, covariance_matrix, predict in HT'. cbv zeta in HT'. rewrite K in HT' by exact I. cbn [bind] in HT'.
    rewrite capture_as in HT'. cbn [bind] in HT'. rewrite lin_matrix, HL in HT'. inversion HT'; subst.
    split; [exists None; left; reflexivity|]. intros c0 [H|[H|[]]]; inversion H; reflexivity.
  - cbn [call] in HT'. unfold wald_test, covariance_matrix, predict in HT'. cbv zeta in HT'. rewrite K in HT' by exact I. cbn [bind] in HT'.
    rewrite capture_as in HT'. cbn [bind] in HT'. rewrite lin_matrix, HL in HT'. inversion HT'; subst.
    split; [exists None; left; reflexivity|]. intros c0 [H|[H|[]]]; inversion H; reflexivity.
  - cbn [call] in HT'. unfold std_errors, covariance_matrix, predict in HT'. cbv zeta in HT'. rewrite K in HT' by exact I. cbn [bind] in HT'.
    rewrite capture_as in HT'. cbn [bind] in HT'. rewrite lin_matrix, HL in HT'. inversion HT'; subst.
    split; [exists None; left; reflexivity|]. intros c0 [H|[H|[]]]; inversion H; reflexivity.
  - cbn [call] in HT'. unfold covariance_matrix, predict in HT'. cbv zeta in HT'. rewrite K in HT' by exact I. cbn [bind] in HT'.
    rewrite lin_matrix, HL in HT'. inversion HT'; subst.
    split; [exists None; left; reflexivity|]. intros c0 [H|[H|[]]]; inversion H; reflexivity.
  - cbn [call] in HT. unfold info_criterion, get_info_criteria in HT. cbv zeta in HT. destruct (capture_context g _ c); cbn [bind] in HT; [|discriminate].
    destruct (e_cached e); [inversion HT; subst; intros s' []|]. intros s'. exact (NL _ _ _ _ _ s' HT).
Qed.
Print Assumptions C94_response.

(** Nobody's data needs a frame: on converted matrices nothing is evaluated; the methods that capture eagerly still raise
    when the depth is beyond the stack, predict, linear_predictor, score and covariance_matrix do not look. *)
Theorem C94_matrix : forall name val (g : gframe -> frame name val) m e user c,
  match m with
  | MPredict | MLinPred | MScore | MCov => call g m e user XMatrix c = Some []
  | _ => call g m e user XMatrix c = Some [] \/ (call g m e user XMatrix c = None /\ exists k, c = CInt k)
  end.
Proof.
  intros name val g m e user c.
  assert (K : forall st, (exists s, capture_context g st c = Some s) \/ (capture_context g st c = None /\ exists k, c = CInt k)).
  { intros st. destruct c as [|k|mm]; [left; eexists; reflexivity| |left; eexists; reflexivity].
    destruct (capture_context g st (CInt k)) eqn:E; [left; eexists; reflexivity|right; split; [reflexivity|eexists; reflexivity]]. }
  destruct m; cbn [call]; unfold score_method, coef_table, wald_test, std_errors, fit_method, info_criterion, get_info_criteria, covariance_matrix, predict; cbv zeta; rewrite ?lin_matrix; try reflexivity;
  (match goal with |- context[capture_context g ?st _] => destruct (K st) as [[s E]|[E H]] end; rewrite E; cbn [bind]; rewrite ?lin_matrix; auto; destruct (e_cached e); auto).
Qed.
Print Assumptions C94_matrix.

(** A caller with a transform of its own, called from a module: depth 0 and 1 are different frames. *)
Definition ex94_g (fr : gframe) : frame nat nat := mkFrame (fun n => if Nat.eqb n 7 then Some 0%nat else None) (fun _ => None).
Definition ex94_user : list (frame nat nat) :=
  [mkFrame (fun n => if Nat.eqb n 1 then Some 10%nat else None) (fun n => if Nat.eqb n 2 then Some 20%nat else None);
   mkFrame (fun n => if Nat.eqb n 1 then Some 11%nat else None) (fun _ => None)].
Example ex94_nonvacuous :
  frame_scope (hd (ex94_g GFit) ex94_user) 1%nat = Some 10%nat /\ frame_scope (hd (ex94_g GFit) ex94_user) 2%nat = Some 20%nat /\
  (forall fr, frame_scope (ex94_g fr) 1%nat = None) /\
  (exists t, call ex94_g MFit (mkEst true false false false) ex94_user XFrame (CInt 1) = Some t /\ length t = 2%nat /\
     forall s c, In (s, c) t -> resolve (fun _ => None) c (fun _ => None) 1%nat = Some 11%nat) /\
  call ex94_g MFit (mkEst true false false false) ex94_user XFrame (CInt 2) = None /\
  (exists t, call ex94_g MScore (mkEst true false false false) ex94_user XFrame (CInt 1) = Some t /\
     forall s c, In (s, c) t -> resolve (fun _ => None) c (fun _ => None) 1%nat = Some 10%nat).
Proof.
  split; [reflexivity|]. split; [reflexivity|]. split; [reflexivity|]. split; [|split; [reflexivity|]].
  - eexists. split; [reflexivity|]. split; [reflexivity|]. intros s c [H|[H|[]]]; inversion H; reflexivity.
  - eexists. split; [reflexivity|]. intros s c [H|[]]; inversion H; reflexivity.
Qed.
