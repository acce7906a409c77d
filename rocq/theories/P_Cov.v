(** Theorems C47: covariance matrices. *)
From Verif Require Import M_Cov S_Cov L_Link L_Dist L_Dist2 L_Dist3 L_Lin L_CV L_Cov.
From Coq Require Import FunctionalExtensionality.
From Verif Require Import M_Solver S_Solver.
Local Open Scope R_scope.

(** Robust: H V H = N/(N-k) * sum of the outer products of the rows' scores, symmetric, positive
    semi-definite. *)
Theorem C47_robust : forall c expected V, covariance_matrix c true expected None = Some V ->
  let k := ci_k c in let H := information c expected in
  invertible k H /\
  prod3_is k H V H (fun a b => total_weight c / dof c * rsum (ci_n c) (fun i => row_score c i a * row_score c i b)) /\
  sym k V /\ (0 <= total_weight c -> 0 < dof c -> psd k V).
Proof.
  intros c e V E. cbn zeta. unfold covariance_matrix in E. destruct (ci_ill c); [discriminate|]. destruct (Reqb _ 0) eqn:ED; [discriminate|].
  fold (total_weight c) in E. fold (dof c) in E. fold (row_score c) in E.
  change (if e then fisher_information c (ci_dispersion c) else observed_information c (ci_dispersion c)) with (information c e) in E.
  destruct (gsolve_mat (ci_k c) (information c e) (gram (ci_n c) (row_score c))) as [Y|] eqn:EY; [|discriminate].
  destruct (gsolve_mat _ _ (transpose Y)) as [W|] eqn:EW; [|discriminate]. injection E as <-.
  destruct (sandwich_full _ _ _ _ _ (total_weight c / dof c) (information_sym c e _) (gram_sym _ _ _) EY EW) as [A [B [S1 PS]]].
  split; [exact A|]. split; [exact B|]. split; [exact S1|]. intros Ht Hd. apply PS; [|apply gram_psd].
  apply Rmult_le_pos; [exact Ht|left; apply Rinv_0_lt_compat; exact Hd].
Qed.
Print Assumptions C47_robust.

(** Clustered (labels 0..G-1): the scores are summed within clusters before the outer products. *)
Theorem C47_clustered : forall c robust expected groups V, codes groups (ci_n c) ->
  covariance_matrix c robust expected (Some groups) = Some V ->
  let k := ci_k c in let H := information c expected in let g := INR (n_groups groups) in
  invertible k H /\
  prod3_is k H V H (fun a b => g / (g - 1) * ((total_weight c - 1) / dof c) *
     rsum (ci_n c) (fun i => rsum (ci_n c) (fun i' => together groups i i' * row_score c i a * row_score c i' b))) /\
  sym k V /\ (1 <= total_weight c -> 0 < dof c -> psd k V).
Proof.
  intros c rb e groups V HC E. cbn zeta. unfold covariance_matrix in E. destruct (ci_ill c); [discriminate|]. destruct (Reqb _ 0) eqn:ED; [discriminate|].
  fold (total_weight c) in E. fold (dof c) in E. fold (row_score c) in E.
  change (if e then fisher_information c (ci_dispersion c) else observed_information c (ci_dispersion c)) with (information c e) in E.
  destruct (codes_group_sum groups (ci_n c) (row_score c) HC) as [gg [EG GG]]. rewrite EG in E.
  destruct (Nat.eqb_spec (n_groups groups) 1) as [|Hg]; [discriminate|].
  destruct (gsolve_mat (ci_k c) (information c e) (gram _ gg)) as [Y|] eqn:EY; [|discriminate].
  destruct (gsolve_mat _ _ (transpose Y)) as [W|] eqn:EW; [|discriminate]. injection E as <-.
  destruct (sandwich_full _ _ _ _ _ (INR (n_groups groups) / (INR (n_groups groups) - 1) * ((total_weight c - 1) / dof c)) (information_sym c e _) (gram_sym _ _ _) EY EW) as [A [B [S1 PS]]].
  split; [exact A|]. split.
  { intros i j Hi Hj. rewrite (B i j Hi Hj), GG. reflexivity. }
  split; [exact S1|]. intros Ht Hd. apply PS; [|apply gram_psd].
  assert (Hg2 : n_groups groups = 0%nat \/ (2 <= n_groups groups)%nat) by lia.
  assert (0 <= (total_weight c - 1) / dof c) by (apply Rmult_le_pos; [lra|left; apply Rinv_0_lt_compat; exact Hd]).
  destruct Hg2 as [->|Hg2]; [simpl; unfold Rdiv; rewrite !Rmult_0_l; lra|].
  apply Rmult_le_pos; [|assumption]. apply le_INR in Hg2. simpl in Hg2. apply Rmult_le_pos; [lra|]. left. apply Rinv_0_lt_compat. lra.
Qed.
Print Assumptions C47_clustered.

(** Non-robust: N/(N-k) times the inverse of the expected information; symmetric, positive
    semi-definite for admissible rows. *)
Theorem C47_nonrobust : forall c expected V, covariance_matrix c false expected None = Some V ->
  let k := ci_k c in let F := fisher_information c (ci_dispersion c) in
  prod_is k F V (fun i j => total_weight c / dof c * identity i j) /\
  prod_is k V F (fun i j => total_weight c / dof c * identity i j) /\
  sym k V /\ (cov_ok c -> 0 <= total_weight c -> 0 < dof c -> psd k V).
Proof.
  intros c e V E. cbn zeta. unfold covariance_matrix in E. destruct (ci_ill c); [discriminate|]. destruct (Reqb _ 0) eqn:ED; [discriminate|].
  fold (total_weight c) in E. fold (dof c) in E. set (F := fisher_information c (ci_dispersion c)) in *. set (k := ci_k c) in *.
  unfold ginv in E. destruct (gsolve_mat k F _) as [W|] eqn:EW; [|discriminate]. injection E as <-.
  apply gsolve_mat_sound in EW as [NS EW].
  assert (SF : sym k F) by apply sandwich_is_sym.
  assert (L : forall i j, (i < k)%nat -> (j < k)%nat -> mulm k W F i j = unit_vec j i) by (apply right_left_inverse; [intros; apply EW; assumption|exact NS]).
  assert (SW : sym k W).
  { intros i j Hi Hj. change (W j i) with (transpose W i j). revert i j Hi Hj. apply (cancel_left k F); [exact NS|]. intros i j Hi Hj.
    rewrite EW by exact Hi. transitivity (transpose (mulm k W F) i j).
    - unfold transpose. rewrite L by assumption. unfold unit_vec. rewrite Nat.eqb_sym. reflexivity.
    - rewrite transpose_mulm. apply mulm_ext; intros l Hl; [unfold transpose; apply SF; assumption|reflexivity]. }
  split; [|split; [|split]].
  - intros i j Hi Hj. rewrite (rsum_ext k _ (fun l => total_weight c / dof c * (F i l * W l j))) by (intros; ring). rewrite rsum_scal. f_equal. exact (EW i j Hi).
  - intros i j Hi Hj. rewrite (rsum_ext k _ (fun l => total_weight c / dof c * (W i l * F l j))) by (intros; ring). rewrite rsum_scal. f_equal. exact (L i j Hi Hj).
  - intros i j Hi Hj. f_equal. apply SW; assumption.
  - intros [Hf [Hp Hr]] Ht Hd. apply psd_scale; [apply Rmult_le_pos; [exact Ht|left; apply Rinv_0_lt_compat; exact Hd]|].
    apply (sandwich_psd k F F W SF NS); [|apply info_sandwich_psd; intros i Hi; destruct (Hr i Hi); apply fisher_W_nonneg; assumption].
    intros i j Hi Hj. unfold mulm at 1. rewrite (rsum_ext k _ (fun l => F i l * unit_vec j l)) by (intros l Hl; rewrite L by assumption; reflexivity).
    rewrite (rsum_single k j) by first [assumption | intros m Hm Hne; unfold unit_vec; destruct (Nat.eqb_spec m j); first [congruence | ring]].
    unfold unit_vec. rewrite Nat.eqb_refl. ring.
Qed.
Print Assumptions C47_nonrobust.

(** When a matrix is returned. *)
Theorem C47_defined : forall c robust expected,
  (exists V, covariance_matrix c robust expected None = Some V) <->
  ci_ill c = false /\ dof c <> 0 /\
  invertible (ci_k c) (if robust then information c expected else fisher_information c (ci_dispersion c)).
Proof.
  intros c rb e. unfold covariance_matrix. destruct (ci_ill c); [split; [intros [V H]; discriminate|intros [H _]; discriminate]|].
  fold (total_weight c). fold (dof c). destruct (Reqb (dof c) 0) eqn:ED.
  { apply Reqb_true in ED. split; [intros [V H]; discriminate|intros [_ [H _]]; congruence]. }
  apply Reqb_false in ED.
  change (if e then fisher_information c (ci_dispersion c) else observed_information c (ci_dispersion c)) with (information c e).
  destruct rb.
  - split.
    + intros [V H]. split; [reflexivity|]. split; [exact ED|]. destruct (gsolve_mat _ _ (gram _ _)) as [Y|] eqn:EY; [|discriminate].
      apply gsolve_mat_sound in EY as [NS _]. apply nonsingular_invertible, NS.
    + intros [_ [_ H]]. destruct (sandwich_defined _ _ (gram (ci_n c) (score_matrix c (ci_dispersion c))) H) as [Y [V [EY EV]]]. rewrite EY, EV. eauto.
  - unfold ginv. split.
    + intros [V H]. split; [reflexivity|]. split; [exact ED|]. destruct (gsolve_mat _ _ _) as [Y|] eqn:EY; [|discriminate].
      apply gsolve_mat_sound in EY as [NS _]. apply nonsingular_invertible, NS.
    + intros [_ [_ H]]. apply invertible_nonsingular in H. destruct (gsolve_mat_complete _ _ (fun i k => unit_vec k i) H) as [Y ->]. eauto.
Qed.
Print Assumptions C47_defined.

(** The dispersion multiplies the non-robust matrix and cancels from the robust and clustered ones. *)
Theorem C47_dispersion : forall c expected phi V1, 0 < phi ->
  (covariance_matrix (with_phi c 1) false expected None = Some V1 ->
   exists V, covariance_matrix (with_phi c phi) false expected None = Some V /\
     forall i j, (i < ci_k c)%nat -> (j < ci_k c)%nat -> V i j = phi * V1 i j) /\
  (covariance_matrix (with_phi c 1) true expected None = Some V1 ->
   exists V, covariance_matrix (with_phi c phi) true expected None = Some V /\
     forall i j, (i < ci_k c)%nat -> (j < ci_k c)%nat -> V i j = V1 i j).
Proof.
  intros c e phi V1 Hphi. assert (H0 : phi <> 0) by lra.
  assert (FI : forall i j, fisher_information (with_phi c phi) phi i j = / phi * fisher_information (with_phi c 1) 1 i j).
  { intros. change (fisher_information (with_phi c phi) phi i j) with (fisher_information (with_phi c 1) phi i j). apply fisher_phi; exact H0. }
  assert (IN : forall i j, information (with_phi c phi) e i j = / phi * information (with_phi c 1) e i j).
  { intros. unfold information. cbn [ci_dispersion with_phi ci_phi]. destruct e; [apply FI|].
    change (observed_information (with_phi c phi) phi i j) with (observed_information (with_phi c 1) phi i j). apply observed_phi; exact H0. }
  assert (INV : forall A B, (forall i j, A i j = / phi * B i j) -> invertible (ci_k c) B -> invertible (ci_k c) A).
  { intros A B E [C HC]. exists (fun i j => phi * C i j). intros i j Hi Hj. rewrite <- (HC i j Hi Hj). apply rsum_ext. intros l _. rewrite E. field. exact H0. }
  split; intros E1.
  - pose proof (proj1 (C47_defined (with_phi c 1) false e) (ex_intro _ _ E1)) as [D1 [D2 D3]].
    destruct (proj2 (C47_defined (with_phi c phi) false e)) as [V EV].
    { split; [exact D1|]. split; [exact D2|]. apply (INV _ _ FI D3). }
    exists V. split; [exact EV|].
    destruct (C47_nonrobust _ _ _ E1) as [P1 _]. destruct (C47_nonrobust _ _ _ EV) as [P2 _].
    apply invertible_nonsingular in D3. cbn [ci_dispersion with_phi ci_phi] in *.
    apply (cancel_left (ci_k c) (fisher_information (with_phi c 1) 1) V (fun i j => phi * V1 i j) D3).
    intros i j Hi Hj. pose proof (P1 i j Hi Hj) as Q1. pose proof (P2 i j Hi Hj) as Q2. unfold mulm.
    rewrite (rsum_ext _ _ (fun l => phi * (fisher_information (with_phi c phi) phi i l * V l j))).
    2:{ intros l _. rewrite FI. field. exact H0. }
    rewrite rsum_scal. change (ci_k (with_phi c phi)) with (ci_k c) in Q2. rewrite Q2.
    rewrite (rsum_ext _ (fun l => fisher_information (with_phi c 1) 1 i l * (phi * V1 l j)) (fun l => phi * (fisher_information (with_phi c 1) 1 i l * V1 l j))) by (intros; ring).
    rewrite rsum_scal. change (ci_k (with_phi c 1)) with (ci_k c) in Q1. rewrite Q1. reflexivity.
  - pose proof (proj1 (C47_defined (with_phi c 1) true e) (ex_intro _ _ E1)) as [D1 [D2 D3]].
    destruct (proj2 (C47_defined (with_phi c phi) true e)) as [V EV].
    { split; [exact D1|]. split; [exact D2|]. apply (INV _ _ IN D3). }
    exists V. split; [exact EV|].
    destruct (C47_robust _ _ _ E1) as [_ [P1 _]]. destruct (C47_robust _ _ _ EV) as [_ [P2 _]].
    apply invertible_nonsingular in D3. change (ci_k (with_phi c 1)) with (ci_k c) in *. change (ci_k (with_phi c phi)) with (ci_k c) in *.
    set (H := information (with_phi c 1) e) in *. rewrite prod3_is_mulm in P1, P2.
    apply (cancel_right (ci_k c) H V V1 D3). apply (cancel_left (ci_k c) H _ _ D3). intros i j Hi Hj. rewrite P1 by assumption.
    transitivity (phi ^ 2 * mulm (ci_k c) (information (with_phi c phi) e) (mulm (ci_k c) V (information (with_phi c phi) e)) i j).
    + unfold mulm. rewrite <- rsum_scal. apply rsum_ext. intros l _. rewrite IN. fold H.
      rewrite (rsum_ext _ (fun j0 => V l j0 * information (with_phi c phi) e j0 j) (fun j0 => / phi * (V l j0 * H j0 j))) by (intros m _; rewrite IN; fold H; ring).
      rewrite rsum_scal. field. exact H0.
    + rewrite P2 by assumption. change (total_weight (with_phi c phi)) with (total_weight (with_phi c 1)). change (dof (with_phi c phi)) with (dof (with_phi c 1)).
      change (ci_n (with_phi c phi)) with (ci_n (with_phi c 1)).
      rewrite (rsum_ext _ (fun i0 => row_score (with_phi c phi) i0 i * row_score (with_phi c phi) i0 j) (fun i0 => / phi ^ 2 * (row_score (with_phi c 1) i0 i * row_score (with_phi c 1) i0 j))).
      * rewrite rsum_scal. field. split; [exact D2|exact H0].
      * intros r _. unfold row_score. cbn [ci_dispersion with_phi ci_phi].
        change (score_matrix (with_phi c phi) phi r i) with (score_matrix (with_phi c 1) phi r i). change (score_matrix (with_phi c phi) phi r j) with (score_matrix (with_phi c 1) phi r j).
        rewrite !(score_phi (with_phi c 1) phi) by exact H0. field. exact H0.
Qed.
Print Assumptions C47_dispersion.

(** Singleton clusters give the robust matrix up to the factor n/(n-1) * (N-1)/N. *)
Theorem C47_singletons : forall c robust expected groups V Vr, codes groups (ci_n c) -> NoDup groups -> total_weight c <> 0 ->
  covariance_matrix c robust expected (Some groups) = Some V ->
  covariance_matrix c true expected None = Some Vr ->
  forall i j, V i j = INR (ci_n c) / (INR (ci_n c) - 1) * ((total_weight c - 1) / total_weight c) * Vr i j.
Proof.
  intros c rb e groups V Vr HC ND HT E Er i j. unfold covariance_matrix in E, Er. destruct (ci_ill c); [discriminate|]. destruct (Reqb _ 0) eqn:ED; [discriminate|].
  fold (total_weight c) in E, Er. fold (dof c) in E, Er, ED. fold (row_score c) in E, Er. apply Reqb_false in ED.
  change (if e then fisher_information c (ci_dispersion c) else observed_information c (ci_dispersion c)) with (information c e) in E, Er.
  destruct (codes_group_sum groups (ci_n c) (row_score c) HC) as [gg [EG GG]]. rewrite EG in E.
  destruct (Nat.eqb_spec (n_groups groups) 1) as [|Hg]; [discriminate|].
  assert (NG : n_groups groups = ci_n c) by (unfold n_groups; rewrite nodup_fixed_point by exact ND; apply HC).
  replace (gram (n_groups groups) gg) with (gram (ci_n c) (row_score c)) in E.
  - destruct (gsolve_mat (ci_k c) (information c e) (gram _ _)) as [Y|] eqn:EY; [|discriminate].
    destruct (gsolve_mat _ _ (transpose Y)) as [W|] eqn:EW; [|discriminate]. injection E as <-. injection Er as <-. rewrite NG in *.
    set (t := INR (ci_n c) / (INR (ci_n c) - 1)). field. auto.
  - apply functional_extensionality. intros a. apply functional_extensionality. intros b. rewrite GG. unfold gram. apply rsum_ext. intros r Hr.
    rewrite (rsum_single (ci_n c) r); [unfold together; rewrite Z.eqb_refl; ring|exact Hr|]. intros s Hs Hne.
    unfold together. destruct (Z.eqb_spec (nth r groups 0%Z) (nth s groups 0%Z)) as [Q|]; [|ring].
    exfalso. apply Hne. symmetry. apply (proj1 (NoDup_nth groups 0%Z) ND); rewrite ?(proj1 HC); assumption.
Qed.
Print Assumptions C47_singletons.

(** Only the partition matters: renaming the codes injectively (into codes) changes nothing. *)
Theorem C47_relabel : forall c robust expected groups (tau : Z -> Z),
  codes groups (ci_n c) -> codes (map tau groups) (ci_n c) ->
  (forall x y, In x groups -> In y groups -> tau x = tau y -> x = y) ->
  covariance_matrix c robust expected (Some (map tau groups)) = covariance_matrix c robust expected (Some groups).
Proof.
  intros c rb e groups tau HC HC' INJ.
  assert (NG : n_groups (map tau groups) = n_groups groups).
  { unfold n_groups. replace (nodup Z.eq_dec (map tau groups)) with (map tau (nodup Z.eq_dec groups)); [apply map_length|].
    clear -INJ. induction groups as [|x l IH]; [reflexivity|]. simpl.
    assert (IH' : map tau (nodup Z.eq_dec l) = nodup Z.eq_dec (map tau l)) by (apply IH; intros; apply INJ; simpl; auto).
    destruct (in_dec Z.eq_dec x l) as [I|I]; destruct (in_dec Z.eq_dec (tau x) (map tau l)) as [J|J].
    - exact IH'.
    - exfalso. apply J, in_map, I.
    - exfalso. apply in_map_iff in J as [y [Ey Hy]]. apply I. rewrite <- (INJ y x); simpl; auto.
    - simpl. rewrite IH'. reflexivity. }
  unfold covariance_matrix. destruct (ci_ill c); [reflexivity|]. destruct (Reqb _ 0); [reflexivity|].
  destruct (codes_group_sum groups (ci_n c) (score_matrix c (ci_dispersion c)) HC) as [gg [EG GG]]. rewrite EG.
  destruct (codes_group_sum (map tau groups) (ci_n c) (score_matrix c (ci_dispersion c)) HC') as [gg' [EG' GG']]. rewrite EG'.
  rewrite NG in *. destruct (Nat.eqb (n_groups groups) 1); [reflexivity|].
  replace (gram (n_groups groups) gg') with (gram (n_groups groups) gg); [reflexivity|].
  apply functional_extensionality. intros a. apply functional_extensionality. intros b. rewrite GG, GG'.
  apply rsum_ext. intros i Hi. apply rsum_ext. intros i' Hi'. f_equal. f_equal. unfold together.
  pose proof (proj1 HC) as HL.
  assert (N : forall r, (r < ci_n c)%nat -> nth r (map tau groups) 0%Z = tau (nth r groups 0%Z)).
  { intros r Hr. rewrite (nth_indep _ 0%Z (tau 0%Z)) by (rewrite map_length; lia). apply map_nth. }
  rewrite !N by assumption.
  destruct (Z.eqb_spec (nth i groups 0%Z) (nth i' groups 0%Z)) as [->|Q]; [rewrite Z.eqb_refl; reflexivity|].
  destruct (Z.eqb_spec (tau (nth i groups 0%Z)) (tau (nth i' groups 0%Z))) as [Q2|]; [|reflexivity].
  exfalso. apply Q, INJ; [apply nth_In; lia|apply nth_In; lia|exact Q2].
Qed.
Print Assumptions C47_relabel.

(** Change of basis of the design (e.g. rescaling a column): T V' T' = V. *)
Theorem C47_reparametrisation : forall T c c' expected V V', reparametrised T c c' -> invertible (ci_k c) T ->
  covariance_matrix c true expected None = Some V -> covariance_matrix c' true expected None = Some V' ->
  prod3_is (ci_k c) T V' (transpose T) V.
Proof.
  intros T c c' e V V' [En [Ek [Ef [El [Ep [Ei Ex]]]]]] HT E E'. set (k := ci_k c) in *.
  assert (ET : total_weight c' = total_weight c) by (unfold total_weight; rewrite En; apply rsum_ext; intros i _; apply Ei).
  assert (EO : ci_obs c' = ci_obs c).
  { unfold ci_obs. rewrite En. apply map_ext. intros i. destruct (Ei i) as [-> [-> ->]]. reflexivity. }
  assert (ED : dof c' = dof c) by (unfold dof; rewrite ET, Ek; reflexivity).
  assert (EP : ci_dispersion c' = ci_dispersion c) by (unfold ci_dispersion; rewrite Ep, Ef, EO, Ek; reflexivity).
  set (H := information c e) in *.
  assert (SC : forall i b, (b < k)%nat -> row_score c' i b = rsum k (fun l => row_score c i l * T l b)).
  { intros i b Hb. unfold row_score, score_matrix. rewrite EP, Ef, El. destruct (Ei i) as [-> [-> ->]]. rewrite Ex by exact Hb.
    rewrite <- rsum_scal. apply rsum_ext. intros; ring. }
  assert (GEN : forall d a b, (a < k)%nat -> (b < k)%nat -> rsum (ci_n c) (fun i => d i * ci_x c' i a * ci_x c' i b)
     = mulm k (transpose T) (mulm k (info_sandwich c d) T) a b).
  { intros d a b Ha Hb. unfold mulm, transpose, info_sandwich.
    rewrite (rsum_ext (ci_n c) _ (fun i => rsum k (fun l => rsum k (fun m => T l a * (d i * ci_x c i l * ci_x c i m) * T m b)))).
    2:{ intros i _. rewrite !Ex by assumption. rewrite Rmult_assoc, <- rsum_scal_r, <- rsum_scal. apply rsum_ext. intros l _. rewrite <- !rsum_scal. apply rsum_ext. intros; ring. }
    rewrite rsum_swap. apply rsum_ext. intros l _. rewrite rsum_swap. rewrite <- rsum_scal. apply rsum_ext. intros m _.
    rewrite <- rsum_scal_r, <- rsum_scal. apply rsum_ext. intros; ring. }
  assert (IN : forall a b, (a < k)%nat -> (b < k)%nat -> information c' e a b = mulm k (transpose T) (mulm k H T) a b).
  { intros a b Ha Hb. unfold H, information. rewrite EP. destruct e; unfold fisher_information, observed_information.
    - rewrite <- GEN by assumption. unfold info_sandwich. rewrite En, Ef, El. apply rsum_ext. intros i _. destruct (Ei i) as [-> [-> ->]]. reflexivity.
    - rewrite <- GEN by assumption. unfold info_sandwich. rewrite En, Ef, El. apply rsum_ext. intros i _. destruct (Ei i) as [-> [-> ->]]. reflexivity. }
  destruct (C47_robust _ _ _ E) as [HI [P _]]. destruct (C47_robust _ _ _ E') as [_ [P' _]]. rewrite Ek in P'. fold k H in P, HI. rewrite prod3_is_mulm in *.
  apply invertible_nonsingular in HI. apply invertible_nonsingular in HT. pose proof (nonsingular_transpose k T HT) as HTt.
  set (Z := mulm k T (mulm k V' (transpose T))). change (forall i j, (i < k)%nat -> (j < k)%nat -> Z i j = V i j).
  (* T' H Z H T = T' H V H T *)
  assert (Q : forall a b, (a < k)%nat -> (b < k)%nat ->
     mulm k (transpose T) (mulm k (mulm k H (mulm k Z H)) T) a b = mulm k (transpose T) (mulm k (mulm k H (mulm k V H)) T) a b).
  { intros a b Ha Hb. transitivity (mulm k (information c' e) (mulm k V' (information c' e)) a b).
    - transitivity (mulm k (mulm k (transpose T) (mulm k H T)) (mulm k V' (mulm k (transpose T) (mulm k H T))) a b).
      + assert (AS : forall A B C : mat, mulm k (mulm k A B) C = mulm k A (mulm k B C)) by
          (intros; apply functional_extensionality; intros p; apply functional_extensionality; intros q; symmetry; apply mulm_assoc).
        unfold Z. rewrite !AS. reflexivity.
      + apply mulm_ext; intros l Hl; [symmetry; apply IN; assumption|]. apply mulm_ext; intros m Hm; [reflexivity|]. symmetry. apply IN; assumption.
    - rewrite P' by assumption. rewrite ET, ED, En.
      rewrite (rsum_ext (ci_n c) _ (fun i => rsum k (fun l => rsum k (fun m => T l a * (row_score c i l * row_score c i m) * T m b)))).
      2:{ intros i _. rewrite !SC by assumption. rewrite <- rsum_scal_r. apply rsum_ext. intros l _. rewrite <- rsum_scal. apply rsum_ext. intros; ring. }
      unfold mulm at 1. unfold transpose. rewrite rsum_swap, <- rsum_scal. apply rsum_ext. intros l Hl. rewrite rsum_swap.
      unfold mulm at 1. rewrite <- !rsum_scal. apply rsum_ext. intros m Hm. rewrite P by assumption.
      rewrite rsum_scal_r, rsum_scal. ring. }
  apply (cancel_right k H Z V HI). apply (cancel_left k H _ _ HI). apply (cancel_right k T _ _ HT). apply (cancel_left k (transpose T) _ _ HTt). exact Q.
Qed.
Print Assumptions C47_reparametrisation.

(** finding F9: other labels.  Labels 1..G raise; with negative labels distinct clusters are merged
    silently: -1 and 1 address the same column when there are two clusters. *)
Definition ex47 : cov_in := mkCI 2 0 true NormalF IdentityL (fun _ _ => 0) (fun i => if Nat.eqb i 0 then 0 else 2) (fun _ => 1) (fun _ => 1) (Some 1) false.
Lemma ex47_info : information ex47 false = fun k l => 1 * (if Nat.eqb k 0 then 1 else 0) * (if Nat.eqb l 0 then 1 else 0) + 1 * (if Nat.eqb k 0 then 1 else 0) * (if Nat.eqb l 0 then 1 else 0).
Proof.
  apply functional_extensionality. intros k. apply functional_extensionality. intros l. unfold information, observed_information, info_sandwich. cbn [ci_n ex47 rsum].
  unfold observed_W, one_over_variance. cbn. destruct k, l; cbn; field.
Qed.
Theorem C47_labels_refuted :
  (forall c robust expected, ci_n c = 2%nat -> covariance_matrix c robust expected (Some [1; 2]%Z) = None) /\
  (exists V, covariance_matrix ex47 true false (Some [-1; 1]%Z) = Some V /\ V 0%nat 0%nat = 0) /\
  (exists V, covariance_matrix ex47 true false (Some [0; 1]%Z) = Some V /\ 0 < V 0%nat 0%nat).
Proof.
  split.
  - intros c rb e Hn. unfold covariance_matrix. destruct (ci_ill c); [reflexivity|]. destruct (Reqb _ 0); [reflexivity|]. unfold group_sum. rewrite Hn. reflexivity.
  - assert (HI : forall M, exists Y V, gsolve_mat 1 (information ex47 false) M = Some Y /\ gsolve_mat 1 (information ex47 false) (transpose Y) = Some V /\ V 0%nat 0%nat = M 0%nat 0%nat / 4).
    { intros M. assert (NS : nonsingular 1 (information ex47 false)).
      { intros x Hx j Hj. replace j with 0%nat by lia. specialize (Hx 0%nat ltac:(lia)). unfold mulv in Hx. rewrite ex47_info in Hx. cbn in Hx. lra. }
      destruct (gsolve_mat_complete 1 _ M NS) as [Y EY]. destruct (gsolve_mat_complete 1 _ (transpose Y) NS) as [V EV]. exists Y, V. split; [exact EY|]. split; [exact EV|].
      apply gsolve_mat_sound in EY as [_ EY]. apply gsolve_mat_sound in EV as [_ EV]. specialize (EY 0%nat 0%nat ltac:(lia)). specialize (EV 0%nat 0%nat ltac:(lia)).
      unfold mulm, transpose in EY, EV. rewrite ex47_info in EY, EV. cbn in EY, EV. lra. }
    assert (ED : Reqb (rsum (ci_n ex47) (ci_w ex47) - INR (ci_k ex47)) 0 = false) by (apply Reqb_false; cbn; lra).
    split; unfold covariance_matrix; cbv zeta; rewrite ED; change (ci_ill ex47) with false; cbv iota.
    + change (group_sum [-1; 1]%Z (ci_n ex47) (score_matrix ex47 (ci_dispersion ex47))) with
        (Some (fun g k : nat => rsum 2 (fun i => (if Nat.eqb (nth i [1%nat; 1%nat] 0%nat) g then 1 else 0) * score_matrix ex47 (ci_dispersion ex47) i k))).
      cbv iota beta. change (n_groups [-1; 1]%Z) with 2%nat. change (Nat.eqb 2 1) with false. cbv iota.
      change (ci_k ex47) with 1%nat. change (observed_information ex47 (ci_dispersion ex47)) with (information ex47 false).
      match goal with |- context[gsolve_mat _ _ ?M] => destruct (HI M) as [Y [V [EY [EV V00]]]] end. rewrite EY, EV. eexists. split; [reflexivity|]. cbn beta. rewrite V00.
      cbn. unfold score_matrix, score_W, one_over_variance. cbn. field.
    + change (group_sum [0; 1]%Z (ci_n ex47) (score_matrix ex47 (ci_dispersion ex47))) with
        (Some (fun g k : nat => rsum 2 (fun i => (if Nat.eqb (nth i [0%nat; 1%nat] 0%nat) g then 1 else 0) * score_matrix ex47 (ci_dispersion ex47) i k))).
      cbv iota beta. change (n_groups [0; 1]%Z) with 2%nat. change (Nat.eqb 2 1) with false. cbv iota.
      change (ci_k ex47) with 1%nat. change (observed_information ex47 (ci_dispersion ex47)) with (information ex47 false).
      match goal with |- context[gsolve_mat _ _ ?M] => destruct (HI M) as [Y [V [EY [EV V00]]]] end. rewrite EY, EV. eexists. split; [reflexivity|]. cbn beta. rewrite V00.
      cbn. unfold score_matrix, score_W, one_over_variance. cbn.
      match goal with |- 0 < ?x => replace x with 1 by field end. lra.
Qed.
Print Assumptions C47_labels_refuted.

(** The score of row i is the gradient in the coefficients of its log-likelihood term
    -(w_i / 2 phi) * d(y_i, mu_i). *)
Theorem C47_score_is_gradient : forall c off phi b i k, rows_regular c off b -> 0 < phi -> (i < ci_n c)%nat -> (k < ci_k c)%nat ->
  is_derive (fun t => - (ci_w c i / (2 * phi)) * unit_deviance (ci_fam c) (ci_y c i)
      (raw_inverse (ci_link c) (linpred (ci_ic c) (ci_p c) (ci_X c) off (moved b k t) i))) 0
    (row_score (at_coef c off phi b) i k).
Proof.
  intros c off phi b i k [Hf Hr] Hp Hi Hk. destruct (Hr i Hi) as [Hs [Hl Hm]]. set (eta := linpred _ _ _ off b i) in *.
  apply (dR_ext (fun t => / phi * (- (1 / 2) * (ci_w c i * unit_deviance (ci_fam c) (ci_y c i) (raw_inverse (ci_link c) (linpred (ci_ic c) (ci_p c) (ci_X c) off (moved b k t) i)))))).
  { intros t. field. lra. }
  eapply dR_eq.
  - apply dR_scal. apply (dR_comp (fun e => - (1 / 2) * (ci_w c i * unit_deviance (ci_fam c) (ci_y c i) (raw_inverse (ci_link c) e))) (fun t => linpred (ci_ic c) (ci_p c) (ci_X c) off (moved b k t) i)).
    + cbv beta. replace (linpred (ci_ic c) (ci_p c) (ci_X c) off (moved b k 0) i) with eta by (rewrite linpred_moved by exact Hk; unfold eta; ring).
      apply gradient_row_is_derive; assumption.
    + apply linpred_is_derive. exact Hk.
  - unfold row_score, score_matrix. cbn [ci_fam ci_link ci_y ci_mu ci_w at_coef]. fold eta. unfold score_W. rewrite link_raw_inverse by exact Hl.
    unfold ci_dispersion. cbn [ci_phi at_coef]. rewrite one_over_variance_eq by (try lra; assumption). rewrite gradient_row_eq by assumption.
    change (ci_x (at_coef c off phi b) i k) with (ci_x c i k).
    pose proof (unit_variance_pos _ _ Hf Hm). field. split; lra.
Qed.
Print Assumptions C47_score_is_gradient.

(** The observed information is minus the matrix of second derivatives, and the expected one is the
    observed one with every observation replaced by its mean. *)
Theorem C47_information_is_hessian : forall c off phi b k l, rows_regular c off b -> 0 < phi -> (k < ci_k c)%nat -> (l < ci_k c)%nat ->
  is_derive (fun t => rsum (ci_n c) (fun i => row_score (at_coef c off phi (moved b l t)) i k)) 0 (- information (at_coef c off phi b) false k l).
Proof.
  intros c off phi b k l [Hf Hr] Hp Hk Hl. unfold information, observed_information, info_sandwich. change (ci_n (at_coef c off phi b)) with (ci_n c).
  eapply dR_eq.
  - apply (dR_rsum (ci_n c) (fun i t => row_score (at_coef c off phi (moved b l t)) i k)
      (fun i => - observed_W (ci_fam c) (ci_link c) (ci_y c i) (raw_inverse (ci_link c) (linpred (ci_ic c) (ci_p c) (ci_X c) off b i)) (ci_w c i) phi * ci_x c i l * ci_x c i k)).
    intros i Hi. destruct (Hr i Hi) as [Hs [Hd Hm]]. set (eta := linpred _ _ _ off b i) in *.
    unfold row_score, score_matrix, ci_dispersion. cbn [ci_fam ci_link ci_y ci_mu ci_w at_coef ci_phi].
    apply (dR_ext (fun t => ci_x c i k * score_W (ci_fam c) (ci_link c) (ci_y c i) (raw_inverse (ci_link c) (linpred (ci_ic c) (ci_p c) (ci_X c) off (moved b l t) i)) (ci_w c i) phi)).
    { intros t. change (ci_x (at_coef c off phi (moved b l t)) i k) with (ci_x c i k). ring. }
    eapply dR_eq.
    + apply dR_scal. apply (dR_comp (fun e => score_W (ci_fam c) (ci_link c) (ci_y c i) (raw_inverse (ci_link c) e) (ci_w c i) phi) (fun t => linpred (ci_ic c) (ci_p c) (ci_X c) off (moved b l t) i)).
      * cbv beta. replace (linpred (ci_ic c) (ci_p c) (ci_X c) off (moved b l 0) i) with eta by (rewrite linpred_moved by exact Hl; unfold eta; ring).
        apply observed_information_is_derive; try assumption. lra.
      * apply linpred_is_derive. exact Hl.
    + ring.
  - rewrite <- rsum_opp. apply rsum_ext. intros i _. change (ci_dispersion (at_coef c off phi b)) with phi. cbn [ci_fam ci_link ci_y ci_mu ci_w at_coef].
    change (ci_x (at_coef c off phi b) i) with (ci_x c i). ring.
Qed.
Print Assumptions C47_information_is_hessian.

Theorem C47_expected_information : forall c, information c true = information (at_means c) false.
Proof.
  intros c. apply functional_extensionality. intros k. apply functional_extensionality. intros l.
  unfold information, fisher_information, observed_information, info_sandwich. change (ci_dispersion (at_means c)) with (ci_dispersion c).
  apply rsum_ext. intros i _. cbn [ci_fam ci_link ci_y ci_mu ci_w at_means ci_n]. rewrite <- fisher_is_observed_at_mean.
  change (ci_x (at_means c) i) with (ci_x c i). reflexivity.
Qed.
Print Assumptions C47_expected_information.

Example C47_nonvacuous : codes [0; 1]%Z (ci_n ex47) /\ cov_ok ex47 /\ 0 < dof ex47 /\ 1 <= total_weight ex47 /\
  (exists V, covariance_matrix ex47 true false None = Some V).
Proof.
  split; [split; [reflexivity|intros z [<-|[<-|[]]]; cbn; lia]|]. split; [split; [exact I|]; split; [cbn; lra|]; intros i _; cbn; split; [lra|exact I]|].
  split; [unfold dof; cbn; lra|]. split; [cbn; lra|]. apply C47_defined. split; [reflexivity|]. split; [unfold dof; cbn; lra|].
  apply nonsingular_invertible. intros x Hx j Hj. change (ci_k ex47) with 1%nat in *. replace j with 0%nat by lia. specialize (Hx 0%nat ltac:(lia)). unfold mulv in Hx. rewrite ex47_info in Hx. cbn in Hx. lra.
Qed.
