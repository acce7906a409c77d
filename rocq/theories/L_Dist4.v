From Verif Require Import Base M_Link S_Link L_Link M_Dist S_Dist L_Dist L_Dist2 L_Dist3.

(** ** Deviance is linear in the weights *)
Definition devrow (f : family) (y mu : R) : R := deviance f [mkobs y 1 mu].

Lemma deviance_single f y w mu : deviance f [mkobs y w mu] = w * devrow f y mu.
Proof.
  unfold devrow, deviance, normal_deviance, poisson_deviance, gamma_deviance, inv_gaussian_deviance,
    tweedie_deviance, negative_binomial_deviance.
  destruct f as [p| | | | | | |th]; rewrite ?lsumf_cons, ?lsumf_nil; cbn [oy ow omu]; cbv zeta;
  repeat match goal with
   | |- context [Req_EM_T p ?b] => destruct (Req_EM_T p b)
   end; rewrite ?lsumf_cons, ?lsumf_nil; cbn [oy ow omu]; cbv zeta;
  try match goal with |- context [Rlt_dec 0 y] => destruct (Rlt_dec 0 y) end;
  unfold Rdiv; ring.
Qed.

Lemma deviance_rows f l : deviance f l = lsumf (fun o => ow o * devrow f (oy o) (omu o)) l.
Proof.
  induction l as [|[y w mu] l IH].
  - rewrite deviance_nil. reflexivity.
  - rewrite deviance_cons, lsumf_cons, IH, deviance_single. reflexivity.
Qed.

(** ** C14 *)
Lemma pearson_residual_eq f o : pearson_residual f o = (oy o - omu o) ^ 2 / unit_variance f (omu o).
Proof. destruct f; reflexivity. Qed.

Lemma dispersion_pearson f ddof l :
  dispersion f Pearson true ddof l =
  lsumf (fun o => ow o * ((oy o - omu o) ^ 2 / unit_variance f (omu o))) l / (lsumf ow l - ddof).
Proof.
  reflexivity.
Qed.

Lemma dispersion_unweighted f m ddof l :
  dispersion f m false ddof l = dispersion f m true ddof (unit_weights l).
Proof.
  unfold dispersion, unit_weights. rewrite !lsumf_map. cbn [ow].
  assert (E : lsumf (fun _ : obs => 1) l = INR (length l)).
  { clear. induction l; [reflexivity|]. rewrite lsumf_cons, IHl. simpl length. rewrite S_INR. lra. }
  rewrite E. f_equal. destruct m; auto.
  apply lsumf_ext. intros o _. rewrite !pearson_residual_eq. cbn [oy omu]. ring.
Qed.

Lemma dispersion_nonneg f m ddof l : family_ok f ->
  (forall o, In o l -> obs_ok f o /\ 0 <= ow o) -> ddof < lsumf ow l ->
  0 <= dispersion f m true ddof l.
Proof.
  intros Hf Ho Hd. unfold dispersion. apply Rmult_le_pos; [|left; apply Rinv_0_lt_compat; lra].
  destruct m.
  - apply lsumf_nonneg. intros o Hi. destruct (Ho o Hi) as [[Hy Hm] Hw].
    rewrite pearson_residual_eq. apply Rmult_le_pos; auto.
    apply Rmult_le_pos; [apply pow2_ge_0|]. left. apply Rinv_0_lt_compat. apply unit_variance_pos; auto.
  - apply deviance_nonneg; auto.
Qed.


Lemma lsumf_repeat A (g : A -> R) a n : lsumf g (repeat a n) = INR n * g a.
Proof. induction n; [simpl; rewrite lsumf_nil; lra|].
  simpl repeat. rewrite lsumf_cons, IHn, S_INR. lra. Qed.

Lemma lsumf_expand (g : R -> R -> R) l :
  lsumf (fun o => ow o * g (oy o) (omu o)) (freq_obs l) =
  lsumf (fun o => ow o * g (oy o) (omu o)) (expand_obs l).
Proof.
  induction l as [|[n [y mu]] l IH]; [reflexivity|].
  unfold freq_obs, expand_obs in *. simpl map. simpl flat_map.
  rewrite lsumf_cons, lsumf_app, IH, lsumf_repeat. cbn. lra.
Qed.

Lemma deviance_expand f l : deviance f (freq_obs l) = deviance f (expand_obs l).
Proof. rewrite !deviance_rows. apply lsumf_expand. Qed.

Lemma expand_unit l : unit_weights (expand_obs l) = expand_obs l.
Proof.
  unfold unit_weights, expand_obs. induction l as [|[n [y mu]] l IH]; [reflexivity|].
  simpl. rewrite map_app, IH. f_equal. clear. induction n; simpl; congruence.
Qed.

Lemma ow_expand l : lsumf ow (freq_obs l) = lsumf ow (expand_obs l).
Proof.
  assert (H := lsumf_expand (fun _ _ => 1) l).
  rewrite (lsumf_ext _ ow (fun o => ow o * 1) (freq_obs l)) by (intros; ring).
  rewrite (lsumf_ext _ ow (fun o => ow o * 1) (expand_obs l)) by (intros; ring). exact H.
Qed.

Lemma dispersion_expand f m ddof l :
  dispersion f m true ddof (freq_obs l) = dispersion f m true ddof (expand_obs l).
Proof.
  unfold dispersion. rewrite ow_expand, deviance_expand. destruct m; auto. f_equal.
  rewrite (lsumf_ext _ _ (fun o => ow o * ((oy o - omu o) ^ 2 / unit_variance f (omu o))))
    by (intros; rewrite pearson_residual_eq; reflexivity).
  rewrite (lsumf_ext _ (fun o => ow o * pearson_residual f o)
             (fun o => ow o * ((oy o - omu o) ^ 2 / unit_variance f (omu o))) (expand_obs l))
    by (intros; rewrite pearson_residual_eq; reflexivity).
  exact (lsumf_expand (fun y mu => (y - mu) ^ 2 / unit_variance f mu) l).
Qed.

Lemma dispersion_expand_unweighted f m ddof l :
  dispersion f m true ddof (freq_obs l) = dispersion f m false ddof (expand_obs l).
Proof. rewrite dispersion_unweighted, expand_unit. apply dispersion_expand. Qed.

(** ** Weighted mean minimises the deviance over constants *)

Lemma weighted_mean_min f (l : list (R * R)) m :
  family_ok f -> (forall yw, In yw l -> support f (fst yw) /\ 0 <= snd yw) ->
  0 < lsumf snd l -> mean_range f (wavg l) -> mean_range f m ->
  udsum f l (wavg l) <= udsum f l m /\ (udsum f l m = udsum f l (wavg l) -> wavg l = m).
Proof.
  intros Hf Hy HW Ha Hm.
  apply (bregman_min (udsum f l) (fun t => lsumf (fun yw => snd yw * unit_deviance_derivative f (fst yw) t) l)
           (fun t => unit_variance f t / lsumf snd l)).
  - intros t Ht. unfold udsum. apply (dR_lsumf _ (fun yw t => snd yw * unit_deviance f (fst yw) t)).
    intros yw Hyw. apply dR_scal. apply unit_deviance_is_derive; auto; [apply Hy; auto|].
    apply (mean_range_interval f (wavg l) m); auto.
  - intros t Ht. assert (Hv : 0 < unit_variance f t).
    { apply unit_variance_pos; auto. apply (mean_range_interval f (wavg l) m); auto. }
    split; [apply Rdiv_lt_0_compat; auto|].
    unfold unit_deviance_derivative.
    rewrite (lsumf_ext _ _ (fun yw => (- 2 / unit_variance f t) * (fst yw * snd yw - t * snd yw)))
      by (intros; field; lra).
    rewrite lsumf_scal, lsumf_minus, lsumf_scal. unfold wavg. field. split; lra.
Qed.

(** ** C18 guess_intercept *)
Lemma unimodal_min (g g' : R -> R) b t :
  (forall x, is_derive g x (g' x)) -> (forall x, x <= b -> g' x <= 0) -> (forall x, b <= x -> 0 <= g' x) ->
  g b <= g t.
Proof.
  intros Hd Hl Hr. destruct (Rle_lt_dec b t) as [Hle|Hlt].
  - apply (derive_nonneg_mono g g'); auto. intros; apply Hr; lra.
  - assert (H : - g t <= - g b).
    { apply (derive_nonneg_mono (fun x => - g x) (fun x => - g' x)); try lra.
      - intros x _. apply dR_opp. auto.
      - intros x Hx. specialize (Hl x ltac:(lra)). lra. }
    lra.
Qed.



Lemma guess_power_variance f mu : tweedie_like f -> 0 < mu -> unit_variance f mu = Rpower mu (guess_power f).
Proof.
  intros Hf Hm. destruct f; simpl in Hf; try tauto; simpl.
  - rewrite Rpower_exp_0; auto.
  - rewrite Rpower_1; auto.
  - rewrite Rpower_2 by auto; ring.
  - rewrite Rpower_3 by auto; ring.
Qed.

Lemma pos_mean_range f mu : f <> BinomialF -> 0 < mu -> mean_range f mu.
Proof. intros Hb Hm. destruct f; simpl; auto. congruence. Qed.

Lemma guess_log_optimal f l b b' :
  family_ok f -> tweedie_like f ->
  (forall g, In g l -> support f (g_y g) /\ 0 <= g_w g) ->
  0 < lsumf g_w l ->
  0 < lsumf (fun g => g_y g * Rpower (exp (g_eta g)) (1 - guess_power f) * g_w g) l ->
  b = ln (lsumf (fun g => g_y g * Rpower (exp (g_eta g)) (1 - guess_power f) * g_w g) l)
       - ln (lsumf (fun g => Rpower (exp (g_eta g)) (2 - guess_power f) * g_w g) l) ->
  null_obj f LogL l b <= null_obj f LogL l b'.
Proof.
  intros Hf Ht Hy HW HA Hb.
  set (p := guess_power f) in *.
  set (A := lsumf (fun g => g_y g * Rpower (exp (g_eta g)) (1 - p) * g_w g) l) in *.
  set (B := lsumf (fun g => Rpower (exp (g_eta g)) (2 - p) * g_w g) l) in *.
  assert (HB : 0 < B).
  { apply lsumf_pos.
    - intros g Hg. apply Rmult_le_pos; [left; apply Rpower_pos|apply Hy; auto].
    - destruct (Classical_Prop.classic (exists a, In a l /\ 0 < g_w a)) as [[a [Ha Hp]]|Hn].
      + exists a. split; auto. apply Rmult_lt_0_compat; auto. apply Rpower_pos.
      + exfalso. assert (lsumf g_w l = 0); [|lra]. apply lsumf_zero. intros a Ha.
        destruct (Hy a Ha) as [_ Hw]. destruct (Req_dec (g_w a) 0); auto. exfalso. apply Hn.
        exists a. split; auto. lra. }
  assert (EA : A = exp b * B).
  { rewrite Hb. unfold Rminus. rewrite exp_plus, exp_Ropp, !exp_ln by auto. field. lra. }
  apply (unimodal_min (null_obj f LogL l) (fun t => 2 * exp ((1 - p) * t) * B * (exp t - exp b))).
  - intros t. unfold null_obj. eapply dR_eq.
    + apply (dR_lsumf _ (fun g t => g_w g * unit_deviance f (g_y g) (raw_inverse LogL (g_eta g + t)))
        (fun g => g_w g * (- 2 * (g_y g - exp (g_eta g + t)) / Rpower (exp (g_eta g + t)) p * exp (g_eta g + t)))).
      intros g Hg. apply dR_scal.
      apply (dR_comp (unit_deviance f (g_y g)) (fun t => exp (g_eta g + t))).
      * assert (He : 0 < exp (g_eta g + t)) by apply exp_pos.
        eapply dR_eq.
        -- apply unit_deviance_is_derive; auto; [apply Hy; auto|]. apply pos_mean_range; auto.
           intros ->. simpl in Ht. tauto.
        -- unfold unit_deviance_derivative. rewrite guess_power_variance by auto. reflexivity.
      * auto_derive; auto. ring.
    + transitivity (-2 * exp ((1 - p) * t) * (A - exp t * B)).
      * unfold A, B. rewrite <- !lsumf_scal, <- lsumf_minus, <- lsumf_scal. apply lsumf_ext. intros g Hg.
        rewrite !Rpower_exp.
        assert (E1 : exp (p * (g_eta g + t)) <> 0) by (apply Rgt_not_eq, exp_pos).
        assert (E2 : exp ((1 - p) * t) * exp ((1 - p) * g_eta g) = exp (g_eta g + t) / exp (p * (g_eta g + t))).
        { rewrite <- exp_plus. unfold Rdiv. rewrite <- exp_Ropp, <- exp_plus. f_equal. ring. }
        assert (E3 : exp ((2 - p) * g_eta g) * exp t = exp ((1 - p) * g_eta g) * exp (g_eta g + t)).
        { rewrite <- !exp_plus. f_equal. ring. }
        transitivity (-2 * (exp ((1 - p) * t) * exp ((1 - p) * g_eta g)) * g_w g * (g_y g - exp (g_eta g + t))).
        -- rewrite E2. field. auto.
        -- transitivity (-2 * exp ((1 - p) * t) * (g_y g * exp ((1 - p) * g_eta g) * g_w g - (exp ((1 - p) * g_eta g) * exp (g_eta g + t)) * g_w g)); [ring|].
           rewrite <- E3. ring.
      * rewrite EA. ring.
  - intros t Htb. assert (exp t <= exp b).
    { destruct (Req_dec t b) as [->|]; [lra|]. left. apply exp_increasing. lra. }
    assert (0 < exp ((1 - p) * t)) by apply exp_pos.
    assert (0 < 2 * exp ((1 - p) * t) * B) by (apply Rmult_lt_0_compat; lra).
    nra.
  - intros t Htb. assert (exp b <= exp t).
    { destruct (Req_dec t b) as [->|]; [lra|]. left. apply exp_increasing. lra. }
    assert (0 < exp ((1 - p) * t)) by apply exp_pos.
    assert (0 < 2 * exp ((1 - p) * t) * B) by (apply Rmult_lt_0_compat; lra).
    nra.
Qed.


Lemma guess_identity_optimal f l b b' :
  normal_like f -> 0 < lsumf g_w l ->
  b = gavg g_y l - gavg g_eta l ->
  null_obj f IdentityL l b <= null_obj f IdentityL l b'.
Proof.
  intros Hf HW Hb.
  assert (E : forall t, null_obj f IdentityL l t = lsumf (fun g => g_w g * (g_y g - g_eta g - t) ^ 2) l).
  { intros t. unfold null_obj. apply lsumf_ext. intros g _. simpl raw_inverse.
    destruct f; simpl in Hf; try tauto; unfold unit_deviance.
    - subst. destruct (Req_EM_T 0 0); [|lra]. ring.
    - ring. }
  rewrite !E.
  apply (unimodal_min (fun t => lsumf (fun g => g_w g * (g_y g - g_eta g - t) ^ 2) l)
           (fun t => 2 * lsumf g_w l * (t - b))).
  - intros t. eapply dR_eq.
    + apply (dR_lsumf _ (fun g t => g_w g * (g_y g - g_eta g - t) ^ 2)
        (fun g => (-2) * (g_y g * g_w g - g_eta g * g_w g - t * g_w g))).
      intros g _. auto_derive; auto. ring.
    + rewrite lsumf_scal, !lsumf_minus, lsumf_scal. rewrite Hb. unfold gavg. field. lra.
  - intros t Ht. assert (0 <= 2 * lsumf g_w l * (b - t)) by (apply Rmult_le_pos; lra). lra.
  - intros t Ht. apply Rmult_le_pos; lra.
Qed.


Lemma guess_no_offset f lk l b m :
  family_ok f ->
  guess_intercept f lk false l = Some b ->
  (forall g, In g l -> support f (g_y g) /\ 0 <= g_w g) ->
  0 < lsumf g_w l ->
  (match lk with TweedieL _ | CloglogL => lsumf g_w l = 1 | _ => True end) ->
  mean_domain lk (wavg (g_yw l)) -> mean_range f (wavg (g_yw l)) -> mean_range f m ->
  raw_inverse lk b = wavg (g_yw l) /\
  udsum f (g_yw l) (raw_inverse lk b) <= udsum f (g_yw l) m.
Proof.
  intros Hf Hg Hy HW H1 Hd Ha Hm.
  assert (Eavg : gavg g_y l = wavg (g_yw l)).
  { unfold gavg, wavg, g_yw. rewrite !lsumf_map. reflexivity. }
  assert (Eb : b = link_fn lk (wavg (g_yw l))).
  { unfold guess_intercept in Hg.
    destruct (match lk with IdentityL => false | _ => true end && all_equal l)%bool; [discriminate|].
    inversion Hg as [Hg']. clear Hg. rewrite <- Eavg.
    destruct lk as [q| | | |].
    - f_equal. unfold gavg. rewrite H1. field.
    - reflexivity.
    - reflexivity.
    - simpl. unfold logit. simpl in Hd. rewrite <- Eavg in Hd. rewrite ln_div by lra. reflexivity.
    - f_equal. unfold gavg. rewrite H1. field. }
  assert (Er : raw_inverse lk b = wavg (g_yw l)) by (rewrite Eb; apply raw_inverse_link; auto).
  split; auto. rewrite Er. apply weighted_mean_min; auto.
  - intros yw Hin. apply in_map_iff in Hin. destruct Hin as [g [<- Hg']]. apply Hy; auto.
  - unfold g_yw. rewrite lsumf_map. exact HW.
Qed.

Lemma guess_offset_optimal f lk l b b' :
  family_ok f -> guess_intercept f lk true l = Some b ->
  (forall g, In g l -> support f (g_y g) /\ 0 <= g_w g) -> 0 < lsumf g_w l ->
  (lk = LogL /\ tweedie_like f /\
     0 < lsumf (fun g => g_y g * Rpower (exp (g_eta g)) (1 - guess_power f) * g_w g) l)
   \/ (lk = IdentityL /\ normal_like f) ->
  null_obj f lk l b <= null_obj f lk l b'.
Proof.
  intros Hf Hg Hy HW [[-> [Ht HA]]|[-> Hn]]; unfold guess_intercept in Hg.
  - destruct (true && all_equal l)%bool; [discriminate|]. inversion Hg as [Hb].
    rewrite Hb. apply guess_log_optimal; auto.
  - simpl in Hg. inversion Hg as [Hb]. rewrite Hb. apply guess_identity_optimal; auto.
Qed.

(** ** C19 score *)

Lemma score_le_1 f l : family_ok f -> (forall o, In o l -> obs_ok f o /\ 0 <= ow o) ->
  0 < deviance f (with_mu (y_mean l) l) -> score f l <= 1.
Proof.
  intros Hf Ho Hd. unfold score. assert (0 <= deviance f l) by (apply deviance_nonneg; auto).
  assert (0 <= deviance f l / deviance f (with_mu (y_mean l) l)).
  { apply Rmult_le_pos; auto. left. apply Rinv_0_lt_compat; auto. }
  lra.
Qed.

Lemma score_eq_1 f l : family_ok f -> f <> BinomialF -> ~ neg_power f ->
  (forall o, In o l -> obs_ok f o /\ 0 <= ow o) ->
  0 < deviance f (with_mu (y_mean l) l) ->
  (score f l = 1 <-> forall o, In o l -> 0 < ow o -> omu o = oy o).
Proof.
  intros Hf Hb Hn Ho Hd.
  assert (E : deviance f l = lsumf (fun o => ow o * unit_deviance f (oy o) (omu o)) l).
  { apply deviance_sum; auto. intros o Hi; apply Ho; auto. intros p -> Hp. exfalso; apply Hn; exact Hp. }
  assert (S1 : score f l = 1 <-> deviance f l = 0).
  { unfold score. split; intros H.
    - assert (Hq : deviance f l / deviance f (with_mu (y_mean l) l) = 0) by lra.
      apply Rmult_eq_reg_r with (/ deviance f (with_mu (y_mean l) l)).
      + unfold Rdiv in Hq. rewrite Hq. ring.
      + apply Rinv_neq_0_compat. lra.
    - rewrite H. unfold Rdiv. ring. }
  rewrite S1, E. split.
  - intros Hz o Hi Hw.
    assert (Hz' := lsumf_zero_inv _ _ _ (fun o Hi => Rmult_le_pos _ _ (proj2 (Ho o Hi))
       (proj1 (unit_deviance_nonneg f (oy o) (omu o) Hf Hb (proj1 (proj1 (Ho o Hi))) (proj2 (proj1 (Ho o Hi)))))) Hz o Hi).
    cbv beta in Hz'. apply Rmult_integral in Hz'. destruct Hz' as [Hz'|Hz']; [lra|].
    symmetry. apply (unit_deviance_nonneg f (oy o) (omu o) Hf Hb); auto; apply (Ho o Hi).
  - intros H. apply lsumf_zero. intros o Hi. destruct (Ho o Hi) as [[Hy Hm] Hw].
    destruct (Req_dec (ow o) 0) as [->|]; [ring|].
    assert (omu o = oy o) as Eo by (apply H; auto; lra).
    assert (Hu : unit_deviance f (oy o) (omu o) = 0) by (apply unit_deviance_nonneg; auto).
    rewrite Hu. ring.
Qed.

Lemma deviance_const f l m : family_ok f -> ~ neg_power f ->
  (forall o, In o l -> support f (oy o)) -> mean_range f m ->
  deviance f (with_mu m l) = udsum f (map (fun o => (oy o, ow o)) l) m.
Proof.
  intros Hf Hn Ho Hm. rewrite deviance_sum; auto.
  - unfold with_mu, udsum. rewrite !lsumf_map. reflexivity.
  - intros o Hi. apply in_map_iff in Hi. destruct Hi as [o' [<- Hi]]. split; simpl; auto.
  - intros p -> Hp. exfalso. apply Hn. exact Hp.
Qed.

Lemma score_constant f l m : family_ok f -> ~ neg_power f ->
  (forall o, In o l -> support f (oy o) /\ 0 <= ow o) -> 0 < lsumf ow l ->
  mean_range f m -> mean_range f (y_mean l) ->
  0 < deviance f (with_mu (y_mean l) l) ->
  score f (with_mu m l) <= 0 /\ score f (with_mu (y_mean l) l) = 0.
Proof.
  intros Hf Hn Ho HW Hm Ha Hd.
  assert (Es : forall t, score f (with_mu t l) = 1 - deviance f (with_mu t l) / deviance f (with_mu (y_mean l) l)).
  { intros t. unfold score. 
    assert (Ey : y_mean (with_mu t l) = y_mean l).
    { unfold y_mean, with_mu. rewrite !lsumf_map. reflexivity. }
    assert (Ew : with_mu (y_mean l) (with_mu t l) = with_mu (y_mean l) l).
    { unfold with_mu. rewrite map_map. reflexivity. }
    rewrite Ey, Ew. reflexivity. }
  rewrite !Es. split; [|field; lra].
  assert (Hle : deviance f (with_mu (y_mean l) l) <= deviance f (with_mu m l)).
  { rewrite !deviance_const by (auto; intros o Hi; apply Ho; auto).
    assert (Eavg : y_mean l = wavg (map (fun o => (oy o, ow o)) l)).
    { unfold y_mean, wavg. rewrite !lsumf_map. reflexivity. }
    rewrite Eavg in Ha |- *. apply weighted_mean_min; auto.
    - intros yw Hi. apply in_map_iff in Hi. destruct Hi as [o [<- Hi]]. apply Ho; auto.
    - rewrite lsumf_map. exact HW. }
  assert (1 <= deviance f (with_mu m l) / deviance f (with_mu (y_mean l) l)); [|lra].
  apply Rmult_le_reg_r with (deviance f (with_mu (y_mean l) l)); auto. field_simplify; lra.
Qed.

(** With a negative Tweedie power and negative responses the statement fails, because the compiled
    deviance ignores negative y. *)
Lemma score_constant_refuted :
  exists l m, family_ok (TweedieF (-1)) /\
    (forall o, In o l -> in_y_range (TweedieF (-1)) (oy o) = true /\ 0 < ow o) /\
    0 < m /\ 0 < y_mean l /\ 0 < deviance (TweedieF (-1)) (with_mu (y_mean l) l) /\
    0 < score (TweedieF (-1)) (with_mu m l).
Proof.
  exists [mkobs (-1) 1 0; mkobs 3 1 0], (3/2).
  assert (Hf : family_ok (TweedieF (-1))) by (simpl; lra).
  assert (Em : y_mean [mkobs (-1) 1 0; mkobs 3 1 0] = 1).
  { unfold y_mean. rewrite !lsumf_cons, !lsumf_nil. simpl. lra. }
  assert (D : forall m, 0 < m -> deviance (TweedieF (-1)) (with_mu m [mkobs (-1) 1 0; mkobs 3 1 0])
     = 2 * (2 * (m * m * m / 3) + 9 / 2 - 3 / 2 * (m * m))).
  { intros m Hm. unfold deviance. deq. unfold tweedie_deviance, with_mu. simpl map.
    rewrite !lsumf_cons, lsumf_nil. cbn [oy ow omu]. cbv zeta. 
    destruct (Rlt_dec 0 (-1)); [lra|]. destruct (Rlt_dec 0 3); [|lra].
    replace (1 - -1) with 2 by ring. replace (2 - -1) with 3 by ring. rewrite !Rpower_2 by lra. field. }
  split; auto. split.
  { intros o [<-|[<-|[]]]; (split; [apply in_y_range_iff; auto; simpl; split; intros; lra|simpl; lra]). }
  split; [lra|]. rewrite Em. split; [lra|]. rewrite D by lra. split; [lra|].
  unfold score.
  assert (Em2 : y_mean (with_mu (3 / 2) [mkobs (-1) 1 0; mkobs 3 1 0]) = 1).
  { unfold y_mean, with_mu. rewrite !lsumf_map, !lsumf_cons, !lsumf_nil. simpl. lra. }
  rewrite Em2.
  change (with_mu 1 (with_mu (3 / 2) [mkobs (-1) 1 0; mkobs 3 1 0])) with (with_mu 1 [mkobs (-1) 1 0; mkobs 3 1 0]).
  rewrite !D by lra. lra.
Qed.
