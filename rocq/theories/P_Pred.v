(** Theorems C44: predictions are row-local. *)
From Verif Require Import M_Path S_Path L_Path L_Pred P_Path.
From Coq Require Import Permutation.
From Verif Require Import M_Solver S_Solver.
Local Open Scope R_scope.

(** one alpha (or the final coefficients): entry i is inverse_link(x_i.coef + intercept + offset_i) * weight_i *)
Theorem C44_row_local : forall m X o s idx b, offset_fits o (length X) -> weights_valid s (length X) ->
  (idx = SelNone \/ m_search m = true \/ m_cv m = true) -> selected m idx b ->
  predict m (m_p m) X o s idx SelNone
  = Some (PVec (map (fun i => predicted m b (nth i X xrow0) (offset_at o i) (weight_at s i)) (seq 0 (length X)))).
Proof.
  intros m X o s idx b Ho Hs Hidx Hb.
  assert (EL : linear_predictor m (m_p m) X o idx SelNone
     = Some (PVec (map (fun i => eta_row (m_p m) (fst b) (snd b) (nth i X xrow0) (offset_at o i)) (seq 0 (length X))))).
  { unfold linear_predictor. destruct idx as [|z|zs]; cbn [selected] in Hb; [| |destruct Hb].
    - cbn [andb resolve_alpha_index]. unfold compute_linear_predictor. rewrite Nat.eqb_refl. cbn [negb]. subst b.
      rewrite compute_vec by exact Ho. reflexivity.
    - replace (true && negb (m_search m) && negb (m_cv m))%bool with false
        by (destruct Hidx as [H|[-> | ->]]; [discriminate| |]; destruct (m_search m); reflexivity).
      cbn [resolve_alpha_index]. unfold compute_linear_predictor. rewrite Nat.eqb_refl. cbn [negb]. rewrite (proj2 (py_nth_spec _ _ _ _) Hb).
      rewrite compute_vec by exact Ho. reflexivity. }
  unfold predict. rewrite EL. cbn [pred_map]. rewrite map_map.
  destruct (check_weights_spec s (length X) Hs) as [ws [Ew [Lw Nw]]].
  assert (G : times_weights (PVec (map (fun i => inverse1 (m_link m) (eta_row (m_p m) (fst b) (snd b) (nth i X xrow0) (offset_at o i))) (seq 0 (length X)))) ws
     = Some (PVec (map (fun i => predicted m b (nth i X xrow0) (offset_at o i) (weight_at s i)) (seq 0 (length X))))).
  { cbn [times_weights]. do 2 f_equal. rewrite map_combine_seq by (rewrite map_length, seq_length; exact Lw).
    rewrite map_length, seq_length. apply map_ext_in. intros i Hi. apply in_seq in Hi.
    rewrite nth_map_seq by lia. rewrite Nw by lia. reflexivity. }
  destruct s as [|c|l]; [|rewrite Ew; exact G|rewrite Ew; exact G].
  do 2 f_equal. apply map_ext. intros i. unfold predicted. cbn [weight_at]. ring.
Qed.
Print Assumptions C44_row_local.

(** C41: which coefficients a request by position or by alpha uses, and when it raises *)
Theorem C41_by_index : forall m X o z, offset_fits o (length X) -> m_search m = true \/ m_cv m = true ->
  (forall b, entry_at (m_path m) z b ->
     predict m (m_p m) X o WNone (SelOne z) SelNone
     = Some (PVec (map (fun i => predicted m b (nth i X xrow0) (offset_at o i) 1) (seq 0 (length X))))) /\
  (predict m (m_p m) X o WNone (SelOne z) SelNone = None <->
     (z < - Z.of_nat (length (m_path m)) \/ Z.of_nat (length (m_path m)) <= z)%Z).
Proof.
  intros m X o z Ho Hm.
  assert (A : forall b, entry_at (m_path m) z b ->
     predict m (m_p m) X o WNone (SelOne z) SelNone
     = Some (PVec (map (fun i => predicted m b (nth i X xrow0) (offset_at o i) 1) (seq 0 (length X))))).
  { intros b Hb. apply (C44_row_local m X o WNone (SelOne z) b); [exact Ho|exact I|right; exact Hm|exact Hb]. }
  split; [exact A|]. rewrite <- (py_nth_none (m_path m) (0, fun _ => 0)). split.
  - intros H. destruct (py_nth _ _ z) as [b|] eqn:E; [|reflexivity]. apply py_nth_spec in E. rewrite (A b E) in H. discriminate.
  - intros H. unfold predict, linear_predictor.
    replace (true && negb (m_search m) && negb (m_cv m))%bool with false by (destruct Hm as [-> | ->]; destruct (m_search m); reflexivity).
    cbn [resolve_alpha_index]. unfold compute_linear_predictor. rewrite Nat.eqb_refl. cbn [negb]. rewrite H. reflexivity.
Qed.
Print Assumptions C41_by_index.

Theorem C41_by_alpha : forall m X o a, offset_fits o (length X) -> m_search m = true \/ m_cv m = true ->
  length (m_path m) = length (m_alphas m) ->
  (forall i b, first_nearest (m_alphas m) a i -> Rabs (nth i (m_alphas m) 0 - a) <= 1 / 100000 * Rabs a ->
     nth_error (m_path m) i = Some b ->
     predict m (m_p m) X o WNone SelNone (SelOne a)
     = Some (PVec (map (fun r => predicted m b (nth r X xrow0) (offset_at o r) 1) (seq 0 (length X))))) /\
  (predict m (m_p m) X o WNone SelNone (SelOne a) = None <->
     forall k, (k < length (m_alphas m))%nat -> 1 / 100000 * Rabs a < Rabs (nth k (m_alphas m) 0 - a)).
Proof.
  intros m X o a Ho Hm HL.
  assert (EQ : predict m (m_p m) X o WNone SelNone (SelOne a) =
     match find_alpha_index (m_alphas m) a with
     | Some i => predict m (m_p m) X o WNone (SelOne (Z.of_nat i)) SelNone | None => None end).
  { unfold predict. destruct (C41_requests m (m_p m) X o) as [_ [_ [_ Q]]]. rewrite (Q Hm a).
    destruct (find_alpha_index (m_alphas m) a); reflexivity. }
  split.
  - intros i b HF HC Hb. rewrite EQ. rewrite (proj2 (C41_find _ _ _) (conj HF HC)).
    apply C41_by_index; [exact Ho|exact Hm|]. exists i. split; [exact Hb|left; reflexivity].
  - rewrite <- C41_raises, EQ. destruct (find_alpha_index (m_alphas m) a) as [i|] eqn:E; [|tauto].
    apply C41_find in E as [[Hi _] _].
    rewrite (proj2 (C41_by_index m X o (Z.of_nat i) Ho Hm)). split; [lia|discriminate].
Qed.
Print Assumptions C41_by_alpha.

(** a list of alphas (no weights): entry (i,k) is the prediction of row i with the k-th coefficients *)
Theorem C44_several_alphas : forall m X o zs bs, match o with OScalar _ => False | _ => offset_fits o (length X) end ->
  (m_search m = true \/ m_cv m = true) ->
  Forall2 (entry_at (m_path m)) zs bs -> bs <> [] ->
  predict m (m_p m) X o WNone (SelMany zs) SelNone
  = Some (PMat (map (fun i => map (fun b => predicted m b (nth i X xrow0) (offset_at o i) 1) bs) (seq 0 (length X)))).
Proof.
  intros m X o zs bs Ho Hm HF Hne.
  assert (EA : all_opt (map (py_nth (m_path m) (0, fun _ => 0)) zs) = Some bs).
  { clear Hne. induction HF as [|z b zs bs E _ IH]; [reflexivity|]. simpl. rewrite (proj2 (py_nth_spec _ _ _ _) E), IH. reflexivity. }
  unfold predict, linear_predictor.
  replace (true && negb (m_search m) && negb (m_cv m))%bool with false by (destruct Hm as [-> | ->]; destruct (m_search m); reflexivity).
  cbn [resolve_alpha_index]. unfold compute_linear_predictor. rewrite Nat.eqb_refl. cbn [negb]. rewrite EA.
  destruct bs as [|b0 bs]; [congruence|]. set (B := b0 :: bs) in *.
  assert (EM : add_offset_mat (map (fun x => map (fun b => row_eta (m_p m) b x) B) X) o
    = Some (map (fun i => map (fun b => eta_row (m_p m) (fst b) (snd b) (nth i X xrow0) (offset_at o i)) B) (seq 0 (length X)))).
  { destruct o as [|c|l]; [|destruct Ho|]; cbn [add_offset_mat offset_at].
    - f_equal. rewrite (map_seq_nth (fun x => map (fun b => row_eta (m_p m) b x) B) X xrow0). apply map_ext. intros i. apply map_ext. intros b.
      unfold row_eta, eta_row. ring.
    - rewrite map_length. cbn [offset_fits] in Ho. rewrite Ho, Nat.eqb_refl. f_equal. clear -Ho. revert l Ho.
      induction X as [|x X IH]; intros l H; [reflexivity|]. destruct l as [|y l]; [discriminate|].
      cbn [map combine length seq nth fst snd]. f_equal.
      + rewrite map_map. apply map_ext. intros b. unfold row_eta, eta_row. ring.
      + rewrite <- seq_shift, map_map. apply (IH l). simpl in H. lia. }
  rewrite EM. cbn [option_map pred_map]. rewrite map_map. do 2 f_equal. apply map_ext. intros i. rewrite map_map. apply map_ext. intros b.
  unfold predicted. ring.
Qed.
Print Assumptions C44_several_alphas.

(** several alphas: one column per requested alpha, in the order of the request; each uses the nearest stored
    alpha; one alpha without a stored neighbour makes the whole request fail. *)
Theorem C41_by_alphas : forall m X o l, match o with OScalar _ => False | _ => offset_fits o (length X) end ->
  (m_search m = true \/ m_cv m = true) -> length (m_path m) = length (m_alphas m) -> l <> [] ->
  (forall bs, Forall2 (fun a b => exists i, first_nearest (m_alphas m) a i /\
        Rabs (nth i (m_alphas m) 0 - a) <= 1 / 100000 * Rabs a /\ nth_error (m_path m) i = Some b) l bs ->
     predict m (m_p m) X o WNone SelNone (SelMany l)
     = Some (PMat (map (fun i => map (fun b => predicted m b (nth i X xrow0) (offset_at o i) 1) bs) (seq 0 (length X))))) /\
  (predict m (m_p m) X o WNone SelNone (SelMany l) = None <->
     exists a, In a l /\ forall k, (k < length (m_alphas m))%nat -> 1 / 100000 * Rabs a < Rabs (nth k (m_alphas m) 0 - a)).
Proof.
  intros m X o l Ho Hm HL Hne.
  assert (EQ : predict m (m_p m) X o WNone SelNone (SelMany l) =
     match find_all (m_alphas m) l with
     | Some is => predict m (m_p m) X o WNone (SelMany (map Z.of_nat is)) SelNone | None => None end).
  { unfold predict, linear_predictor.
    replace (true && negb (m_search m) && negb (m_cv m))%bool with false by (destruct Hm as [-> | ->]; destruct (m_search m); reflexivity).
    cbn [resolve_alpha_index]. destruct (find_all (m_alphas m) l); reflexivity. }
  assert (A : forall bs, Forall2 (fun a b => exists i, first_nearest (m_alphas m) a i /\
        Rabs (nth i (m_alphas m) 0 - a) <= 1 / 100000 * Rabs a /\ nth_error (m_path m) i = Some b) l bs ->
     predict m (m_p m) X o WNone SelNone (SelMany l)
     = Some (PMat (map (fun i => map (fun b => predicted m b (nth i X xrow0) (offset_at o i) 1) bs) (seq 0 (length X))))).
  { intros bs HF.
    assert (G : exists is, find_all (m_alphas m) l = Some is /\ Forall2 (entry_at (m_path m)) (map Z.of_nat is) bs).
    { clear EQ Hne. induction HF as [|a b l bs [i [H1 [H2 H3]]] _ [is [IH1 IH2]]]; [exists []; split; [reflexivity|constructor]|].
      exists (i :: is). cbn [find_all map]. rewrite (proj2 (C41_find _ _ _) (conj H1 H2)), IH1. split; [reflexivity|].
      constructor; [exists i; split; [exact H3|left; reflexivity]|exact IH2]. }
    destruct G as [is [G1 G2]]. rewrite EQ, G1. apply C44_several_alphas; [exact Ho|exact Hm|exact G2|].
    intros ->. inversion HF. congruence. }
  split; [exact A|]. split.
  - intros H. rewrite EQ in H. destruct (find_all (m_alphas m) l) as [is|] eqn:E.
    + exfalso.
      assert (G : exists bs, Forall2 (fun a b => exists i, first_nearest (m_alphas m) a i /\
        Rabs (nth i (m_alphas m) 0 - a) <= 1 / 100000 * Rabs a /\ nth_error (m_path m) i = Some b) l bs).
      { clear -E HL. revert is E. induction l as [|a l IH]; intros is E; [exists []; constructor|]. cbn [find_all] in E.
        destruct (find_alpha_index (m_alphas m) a) as [i|] eqn:Ei; [|discriminate]. destruct (find_all (m_alphas m) l) as [js|]; [|discriminate].
        destruct (IH js eq_refl) as [bs IHb]. apply C41_find in Ei as [F1 F2]. pose proof F1 as [Fi _]. rewrite <- HL in Fi.
        apply nth_error_Some in Fi. destruct (nth_error (m_path m) i) as [b|] eqn:En; [|congruence].
        exists (b :: bs). constructor; [exists i; auto|exact IHb]. }
      destruct G as [bs G]. rewrite <- EQ in H. rewrite (A bs G) in H. discriminate.
    + clear H A EQ Hne. induction l as [|a l IH]; [discriminate|]. cbn [find_all] in E.
      destruct (find_alpha_index (m_alphas m) a) as [i|] eqn:Ei.
      * destruct (find_all (m_alphas m) l); [discriminate|]. destruct (IH eq_refl) as [a' [H1 H2]]. exists a'. split; [right; exact H1|exact H2].
      * exists a. split; [left; reflexivity|]. apply C41_raises, Ei.
  - intros [a [Hin Ha]]. apply C41_raises in Ha. rewrite EQ.
    assert (E : find_all (m_alphas m) l = None).
    { clear -Hin Ha. induction l as [|x l IH]; [destruct Hin|]. cbn [find_all]. destruct Hin as [-> |Hin]; [rewrite Ha; reflexivity|].
      rewrite (IH Hin). destruct (find_alpha_index _ x); reflexivity. }
    rewrite E. reflexivity.
Qed.
Print Assumptions C41_by_alphas.

(** batching: predictions of concatenated data are the concatenated predictions *)
Definition cat_offset (o1 o2 : offset_arg) (o : offset_arg) (n1 n2 : nat) : Prop :=
  offset_fits o1 n1 /\ offset_fits o2 n2 /\ offset_fits o (n1 + n2) /\
  (forall i, (i < n1)%nat -> offset_at o i = offset_at o1 i) /\ (forall i, (i < n2)%nat -> offset_at o (n1 + i) = offset_at o2 i).
Theorem C44_batches : forall m X1 X2 o1 o2 o l1 l2, cat_offset o1 o2 o (length X1) (length X2) ->
  predict m (m_p m) X1 o1 WNone SelNone SelNone = Some (PVec l1) ->
  predict m (m_p m) X2 o2 WNone SelNone SelNone = Some (PVec l2) ->
  predict m (m_p m) (X1 ++ X2) o WNone SelNone SelNone = Some (PVec (l1 ++ l2)).
Proof.
  intros m X1 X2 o1 o2 o l1 l2 [H1 [H2 [H [E1 E2]]]].
  rewrite (C44_row_local m X1 o1 WNone SelNone (m_cur m) H1 I (or_introl eq_refl) eq_refl).
  rewrite (C44_row_local m X2 o2 WNone SelNone (m_cur m) H2 I (or_introl eq_refl) eq_refl).
  intros A B. injection A as <-. injection B as <-.
  rewrite (C44_row_local m (X1 ++ X2) o WNone SelNone (m_cur m)); [|rewrite app_length; exact H|exact I|left; reflexivity|reflexivity].
  do 2 f_equal. rewrite app_length, seq_app, map_app. f_equal.
  - apply map_ext_in. intros i Hi. apply in_seq in Hi. rewrite E1 by lia. rewrite app_nth1 by lia. reflexivity.
  - rewrite <- (Nat.add_0_r (0 + length X1)). cbn [Nat.add].
    replace (seq (length X1 + 0) (length X2)) with (map (fun i => (length X1 + i)%nat) (seq 0 (length X2))).
    + rewrite map_map. apply map_ext_in. intros i Hi. apply in_seq in Hi. rewrite E2 by lia. rewrite app_nth2 by lia.
      replace (length X1 + i - length X1)%nat with i by lia. reflexivity.
    + rewrite Nat.add_0_r. clear. generalize (length X2) as n, (length X1) as a. intros n. induction n as [|n IH]; intros a; [reflexivity|].
      simpl. rewrite Nat.add_0_r. f_equal. rewrite <- (IH (S a)). rewrite <- seq_shift, map_map. apply map_ext. intros; lia.
Qed.
Print Assumptions C44_batches.

(** reordering rows (with their offsets and weights) reorders the predictions *)
Theorem C44_reorder : forall m X o s X' o' s' (sigma : nat -> nat) l, length X' = length X ->
  (forall i, (i < length X)%nat -> (sigma i < length X)%nat) ->
  offset_fits o (length X) -> offset_fits o' (length X) -> weights_valid s (length X) -> weights_valid s' (length X) ->
  (forall i, (i < length X)%nat -> nth i X' xrow0 = nth (sigma i) X xrow0 /\ offset_at o' i = offset_at o (sigma i) /\ weight_at s' i = weight_at s (sigma i)) ->
  predict m (m_p m) X o s SelNone SelNone = Some (PVec l) ->
  predict m (m_p m) X' o' s' SelNone SelNone = Some (PVec (map (fun i => nth (sigma i) l 0) (seq 0 (length X)))).
Proof.
  intros m X o s X' o' s' sg l HL Hsg Ho Ho' Hs Hs' HE.
  rewrite (C44_row_local m X o s SelNone (m_cur m) Ho Hs (or_introl eq_refl) eq_refl).
  intros A. injection A as <-.
  rewrite (C44_row_local m X' o' s' SelNone (m_cur m)); [|rewrite HL; exact Ho'|rewrite HL; exact Hs'|left; reflexivity|reflexivity].
  do 2 f_equal. rewrite HL. apply map_ext_in. intros i Hi. apply in_seq in Hi.
  rewrite nth_map_seq by (apply Hsg; lia). destruct (HE i ltac:(lia)) as [-> [-> ->]]. reflexivity.
Qed.
Print Assumptions C44_reorder.

(** finding F22: sample_weight together with a list of alphas.  The weights are broadcast along the
    alphas, not the rows: with as many alphas as rows the result is silently wrong, with one alpha
    it has the wrong shape. *)
Definition ex44 : fitted_model := mkFM 1 IdentityL false true [2; 1] [(1, fun _ => 0); (3, fun _ => 0)] (3, fun _ => 0).
Theorem C44_weights_with_alphas_refuted :
  predict ex44 1 [xrow0; xrow0] ONone (WVector [5; 7]) (SelMany [0%Z; 1%Z]) SelNone = Some (PMat [[5; 21]; [5; 21]]) /\
  (forall b, entry_at (m_path ex44) 0%Z b -> predicted ex44 b xrow0 0 7 = 7) /\
  (exists rows, predict ex44 1 [xrow0; xrow0] ONone (WVector [5; 7]) (SelMany [0%Z]) SelNone = Some (PMat rows) /\ map (@length R) rows = [2; 2]%nat).
Proof.
  assert (EW : check_weights (WVector [5; 7]) 2 = Some [5; 7]).
  { cbn. rewrite !(proj2 (Rltb_false _ 0)) by lra. rewrite (proj2 (Reqb_false _ 0)) by lra. reflexivity. }
  split; [|split].
  - unfold predict. cbn [linear_predictor length ex44 m_search m_cv m_alphas m_path m_cur m_p resolve_alpha_index andb negb compute_linear_predictor Nat.eqb map all_opt py_nth py_index option_map add_offset_mat].
    rewrite EW. cbn. do 3 f_equal; [f_equal; [|f_equal]|f_equal; f_equal; [|f_equal]]; unfold row_eta; simpl; try ring.
  - intros b H. apply (py_nth_spec _ (0, fun _ => 0)) in H. cbn in H. injection H as <-. unfold predicted, eta_row. cbn. ring.
  - unfold predict. cbn [linear_predictor length ex44 m_search m_cv m_alphas m_path m_cur m_p resolve_alpha_index andb negb compute_linear_predictor Nat.eqb map all_opt py_nth py_index option_map add_offset_mat].
    rewrite EW. eexists. split; [reflexivity|]. reflexivity.
Qed.
Print Assumptions C44_weights_with_alphas_refuted.

(** finding F23: a batch whose weights are all zero cannot be predicted, though the whole can *)
Theorem C44_zero_weight_batch_refuted : exists m X1 X2 w1 w2 l,
  predict m (m_p m) (X1 ++ X2) ONone (WVector (w1 ++ w2)) SelNone SelNone = Some (PVec l) /\
  predict m (m_p m) X1 ONone (WVector w1) SelNone SelNone = None.
Proof.
  exists ex44, [xrow0], [xrow0], [0], [1]. eexists. split.
  - apply C44_row_local; [exact I| |left; reflexivity|reflexivity]. split; [reflexivity|]. split.
    + intros x [<-|[<-|[]]]; lra.
    + exists 1. split; [right; left; reflexivity|lra].
  - unfold predict. cbn [linear_predictor length ex44 m_search m_cv m_alphas m_path m_cur m_p resolve_alpha_index andb negb compute_linear_predictor Nat.eqb map option_map add_offset].
    cbn. rewrite (proj2 (Rltb_false 0 0)) by lra. cbn. rewrite (proj2 (Reqb_true _ 0)) by ring. reflexivity.
Qed.
Print Assumptions C44_zero_weight_batch_refuted.

Example C44_nonvacuous : offset_fits (OVector [1; 2]) 2 /\ weights_valid (WVector [0; 3]) 2 /\
  selected ex44 (SelOne (-1)%Z) (3, fun _ => 0).
Proof.
  split; [reflexivity|]. split; [|exists 1%nat; split; [reflexivity|right; reflexivity]]. split; [reflexivity|]. split.
  - intros x [<-|[<-|[]]]; lra.
  - exists 3. split; [right; left; reflexivity|lra].
Qed.
