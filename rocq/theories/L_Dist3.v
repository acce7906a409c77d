From Verif Require Import Base M_Link S_Link L_Link M_Dist S_Dist L_Dist L_Dist2.

(** ** C12 fused kernels *)

Lemma to_obs_map rows (g : srow -> R) :
  to_obs rows (map g rows) = map (fun s => mkobs (s_y s) (s_w s) (g s)) rows.
Proof. unfold to_obs. induction rows; simpl; f_equal; auto. Qed.

Lemma binomial_logit_mu_eq eta : binomial_logit_mu eta = expit eta.
Proof.
  unfold binomial_logit_mu, expit. destruct (Rlt_dec 0 eta); auto.
  rewrite exp_Ropp. assert (0 < exp eta) by apply exp_pos. field. lra.
Qed.

(** Per-row value of the constant. *)
Definition poisson_k (y w : R) : R := - 2 * (if Rlt_dec 0 y then w * y * (ln y - 1) else 0).
Definition gamma_k (y w : R) : R := 2 * (w * (ln y + 1)).
Definition tweedie_k (p y w : R) : R :=
  - 2 * (if Rlt_dec 0 y then w * (Rpower y (1 - p) * (y / (1 - p)) / (2 - p)) else 0).
Definition negbin_k (th y w : R) : R :=
  2 * (w * (y + 1 / th) * ln (y + 1 / th) - (if Rlt_dec 0 y then w * y * ln y else 0)).
Definition emd_k (f : family) (lk : link) (y w : R) : R :=
  match f, lk with
  | TweedieF p, LogL =>
      if Req_EM_T p 1 then poisson_k y w
      else if Req_EM_T p 2 then gamma_k y w
      else if Rlt_dec 1 p then (if Rlt_dec p 2 then tweedie_k p y w else 0) else 0
  | PoissonF, LogL => poisson_k y w
  | GammaF, LogL => gamma_k y w
  | NegBinF th, LogL => negbin_k th y w
  | _, _ => 0
  end.

Lemma lsumf_diff A (F G K : A -> R) l c d :
  (forall a, In a l -> c * F a = d * G a + K a) -> c * lsumf F l = d * lsumf G l + lsumf K l.
Proof.
  intros H. rewrite <- !lsumf_scal, <- lsumf_plus. apply lsumf_ext. auto.
Qed.

Section Emd.
Variables (factor : R) (rows : list srow).
Let ne := new_eta factor.

Lemma poisson_emd_eq : (forall s, In s rows -> 0 <= s_y s) ->
  snd (poisson_log_emd factor rows) =
  poisson_deviance (map (fun s => mkobs (s_y s) (s_w s) (exp (ne s))) rows) +
  lsumf (fun s => poisson_k (s_y s) (s_w s)) rows.
Proof.
  intros H. unfold poisson_log_emd, poisson_deviance. cbn [snd]. rewrite lsumf_map. cbn [oy ow omu].
  apply lsumf_diff. intros s Hs. specialize (H s Hs). unfold poisson_k. fold (ne s). rewrite ln_exp.
  destruct (Rlt_dec 0 (s_y s)); [ring|]. replace (s_y s) with 0 by lra. ring.
Qed.
Lemma gamma_emd_eq :
  snd (gamma_log_emd factor rows) =
  gamma_deviance (map (fun s => mkobs (s_y s) (s_w s) (exp (ne s))) rows) +
  lsumf (fun s => gamma_k (s_y s) (s_w s)) rows.
Proof.
  unfold gamma_log_emd, gamma_deviance. cbn [snd]. rewrite lsumf_map. cbn [oy ow omu].
  apply lsumf_diff. intros s Hs. unfold gamma_k. fold (ne s). rewrite ln_exp. ring.
Qed.
Lemma tweedie_emd_eq p : 1 < p < 2 -> (forall s, In s rows -> 0 <= s_y s) ->
  snd (tweedie_log_emd p factor rows) =
  tweedie_deviance p (map (fun s => mkobs (s_y s) (s_w s) (exp (ne s))) rows) +
  lsumf (fun s => tweedie_k p (s_y s) (s_w s)) rows.
Proof.
  intros Hp H. unfold tweedie_log_emd, tweedie_deviance. cbn [snd]. rewrite lsumf_map. cbn [oy ow omu].
  apply lsumf_diff. intros s Hs. specialize (H s Hs). unfold tweedie_k. cbv zeta. fold (ne s).
  destruct (Rlt_dec 0 (s_y s)); [field; split; lra|]. replace (s_y s) with 0 by lra. field; split; lra.
Qed.
Lemma negbin_emd_eq th : 0 < th -> (forall s, In s rows -> 0 <= s_y s) ->
  snd (negative_binomial_log_emd th factor rows) =
  negative_binomial_deviance th (map (fun s => mkobs (s_y s) (s_w s) (exp (ne s))) rows) +
  lsumf (fun s => negbin_k th (s_y s) (s_w s)) rows.
Proof.
  intros Hth H. unfold negative_binomial_log_emd, negative_binomial_deviance. cbv zeta. cbn [snd].
  rewrite lsumf_map. cbn [oy ow omu].
  assert (0 < 1 / th) by (apply Rdiv_lt_0_compat; lra).
  apply lsumf_diff. intros s Hs. specialize (H s Hs). unfold negbin_k. fold (ne s).
  assert (0 < exp (ne s)) by apply exp_pos.
  rewrite (ln_div (s_y s + 1 / th)) by lra.
  destruct (Rlt_dec 0 (s_y s)).
  - rewrite ln_div by lra. rewrite ln_exp. ring.
  - replace (s_y s) with 0 by lra. ring.
Qed.
Lemma ln_expit eta : ln (expit eta) = - ln (1 + exp (- eta)).
Proof. unfold expit. assert (0 < exp (- eta)) by apply exp_pos.
  unfold Rdiv. rewrite Rmult_1_l, ln_Rinv; lra. Qed.
Lemma ln_1m_expit eta : ln (1 - expit eta) = - eta - ln (1 + exp (- eta)).
Proof. rewrite one_minus_expit. assert (0 < exp (- eta)) by apply exp_pos.
  rewrite ln_div, ln_exp; lra. Qed.
Lemma ln_1p_exp eta : ln (1 + exp eta) = eta + ln (1 + exp (- eta)).
Proof.
  assert (0 < exp eta) by apply exp_pos. assert (0 < exp (- eta)) by apply exp_pos.
  rewrite <- (ln_exp eta) at 2. rewrite <- ln_mult by lra. f_equal.
  rewrite Rmult_plus_distr_l, <- exp_plus, Rplus_opp_r, exp_0. ring.
Qed.
Lemma binomial_emd_eq :
  snd (binomial_logit_emd factor rows) =
  deviance BinomialF (map (fun s => mkobs (s_y s) (s_w s) (expit (ne s))) rows).
Proof.
  unfold binomial_logit_emd, deviance, unit_deviance. cbn [snd]. rewrite lsumf_map. cbn [oy ow omu].
  rewrite <- lsumf_scal. apply lsumf_ext. intros s Hs. cbv zeta. fold (ne s).
  rewrite !xlogy_eq, ln_expit, ln_1m_expit. destruct (Rlt_dec 0 (ne s)); [ring|].
  rewrite ln_1p_exp. ring.
Qed.
End Emd.

Lemma eta_mu_deviance_spec f lk factor rows :
  family_ok f -> (forall s, In s rows -> support f (s_y s)) ->
  let etas := map (fun s => s_eta s + factor * s_xd s) rows in
  let mus := map (search_mean f lk) etas in
  eta_mu_deviance f lk factor rows =
    (etas, mus, deviance f (to_obs rows mus) + lsumf (fun s => emd_k f lk (s_y s) (s_w s)) rows).
Proof.
  intros Hf Hy etas mus.
  assert (Emus : forall g, (forall e, search_mean f lk e = g e) ->
      mus = map (fun s => g (new_eta factor s)) rows).
  { intros g Hg. unfold mus, etas. rewrite map_map. apply map_ext. intros. apply Hg. }
  assert (Z : forall (P : list obs -> R) l, (forall s, In s rows -> emd_k f lk (s_y s) (s_w s) = 0) ->
     P l = P l + lsumf (fun s => emd_k f lk (s_y s) (s_w s)) rows).
  { intros P l0 H. rewrite (lsumf_zero _ (fun s => emd_k f lk (s_y s) (s_w s))) by auto. lra. }
  assert (G : (match f, lk with BinomialF, LogitL => False | _, _ => True end) ->
     (forall s, In s rows -> emd_k f lk (s_y s) (s_w s) = 0) ->
     generic_emd f lk factor rows = (etas, mus, deviance f (to_obs rows mus) + lsumf (fun s => emd_k f lk (s_y s) (s_w s)) rows)).
  { intros Hm HK. unfold generic_emd. cbv zeta. fold etas. rewrite link_inverse_elementwise.
    assert (E : map (inverse1 lk) etas = mus).
    { unfold mus. apply map_ext. intros e. destruct f; destruct lk; try reflexivity; contradiction. }
    change (map (new_eta factor) rows) with etas. rewrite E. f_equal. apply Z. auto. }
  assert (LG : forall d, snd d = deviance f (map (fun s => mkobs (s_y s) (s_w s) (exp (new_eta factor s))) rows)
        + lsumf (fun s => emd_k f lk (s_y s) (s_w s)) rows ->
        fst d = (etas, map (fun s => exp (new_eta factor s)) rows) -> lk = LogL ->
        d = (etas, mus, deviance f (to_obs rows mus) + lsumf (fun s => emd_k f lk (s_y s) (s_w s)) rows)).
  { intros [d1 d2] H1 H2 ->. cbn [fst snd] in *. rewrite (Emus exp) by (destruct f; reflexivity).
    rewrite to_obs_map. rewrite H1, H2. reflexivity. }
  destruct f as [p| | | | | | |th]; destruct lk as [q| | | |]; unfold eta_mu_deviance;
    try (apply G; [exact I|intros; reflexivity]).
  - destruct (Req_EM_T p 0) as [->|]; [|apply G; [exact I|intros; reflexivity]].
    unfold normal_identity_emd. rewrite (Emus (fun e => e)) by reflexivity. rewrite to_obs_map.
    rewrite <- Z by (intros; reflexivity). unfold etas. f_equal.
    unfold deviance. deq. unfold normal_deviance. rewrite lsumf_map. reflexivity.
  - assert (Hsup : 1 <= p -> forall s, In s rows -> 0 <= s_y s).
    { intros Hp1 s Hs. apply (Hy s Hs). auto. }
    destruct (Req_EM_T p 1) as [->|].
    { apply LG; auto. rewrite poisson_emd_eq by (apply Hsup; lra). unfold deviance, emd_k. deq. reflexivity. }
    destruct (Req_EM_T p 2) as [->|].
    { apply LG; auto. rewrite gamma_emd_eq. unfold deviance, emd_k. deq. reflexivity. }
    destruct (Rlt_dec 1 p).
    2:{ apply G; [exact I|]. intros. unfold emd_k. deq. reflexivity. }
    destruct (Rlt_dec p 2).
    { apply LG; auto. rewrite tweedie_emd_eq by (try lra; apply Hsup; lra). unfold deviance, emd_k. deq. reflexivity. }
    assert (HZ : forall s : srow, In s rows -> emd_k (TweedieF p) LogL (s_y s) (s_w s) = 0).
    { intros. unfold emd_k. deq. reflexivity. }
    destruct (Req_EM_T p 3) as [->|]; [|apply G; [exact I|exact HZ]].
    apply LG; auto. rewrite <- (Z (fun l => deviance (TweedieF 3) l)) by auto.
    unfold deviance. deq. unfold inv_gaussian_deviance. rewrite lsumf_map. reflexivity.
  - unfold normal_identity_emd. rewrite (Emus (fun e => e)) by reflexivity. rewrite to_obs_map.
    rewrite <- Z by (intros; reflexivity). unfold etas. f_equal.
    unfold deviance, normal_deviance. rewrite lsumf_map. reflexivity.
  - apply LG; auto. rewrite poisson_emd_eq by auto. reflexivity.
  - apply LG; auto. rewrite gamma_emd_eq. reflexivity.
  - apply LG; auto. rewrite <- (Z (fun l => deviance InvGaussF l)) by (intros; reflexivity).
    unfold deviance, inv_gaussian_deviance. rewrite lsumf_map. reflexivity.
  - unfold binomial_logit_emd at 1. rewrite (Emus expit) by reflexivity.
    assert (E : map (fun s => binomial_logit_mu (new_eta factor s)) rows = map (fun s => expit (new_eta factor s)) rows).
    { apply map_ext. intros. apply binomial_logit_mu_eq. }
    rewrite E, to_obs_map, <- (Z (fun l => deviance BinomialF l)) by (intros; reflexivity).
    unfold etas. f_equal. exact (binomial_emd_eq factor rows).
  - apply LG; auto. rewrite negbin_emd_eq by auto. reflexivity.
Qed.

Lemma eta_mu_deviance_exact f lk factor rows :
  family_ok f -> (forall s, In s rows -> support f (s_y s)) ->
  (match f with NormalF | InvGaussF | BinomialF | GHSF => True | TweedieF p => p <= 0 \/ 2 < p | _ => lk <> LogL end) ->
  snd (eta_mu_deviance f lk factor rows) =
  deviance f (to_obs rows (snd (fst (eta_mu_deviance f lk factor rows)))).
Proof.
  intros Hf Hy He. rewrite eta_mu_deviance_spec by auto. cbn [fst snd].
  rewrite (lsumf_zero _ (fun s => emd_k f lk (s_y s) (s_w s))); [lra|].
  intros s _. unfold emd_k. destruct f; destruct lk; try reflexivity; try congruence. deq; auto; lra.
Qed.

(** ** C13 information *)
Lemma one_over_variance_any f lk mu phi w : family_ok f -> mean_domain lk mu -> mean_range f mu -> phi <> 0 ->
  one_over_variance f lk mu (link_fn lk mu) phi w = w / (unit_variance f mu * phi).
Proof.
  intros Hf Hd Hm Hphi.
  assert (E := raw_inverse_link lk mu Hd).
  assert (O := one_over_variance_eq f lk (link_fn lk mu) phi w Hf). rewrite E in O. apply O; auto.
Qed.

(** Local preservation of the mean range. *)
Lemma mean_range_locally f mu : mean_range f mu -> locally mu (fun m => mean_range f m).
Proof.
  intros H. destruct f as [p| | | | | | |th]; unfold mean_range in *.
  - destruct (Req_dec p 0) as [->|Hp].
    + apply filter_forall. intros. lra.
    + eapply filter_imp; [|apply locally_gt; exact (H Hp)]. simpl. auto.
  - apply filter_forall. auto.
  - apply locally_gt; exact H.
  - apply locally_gt; exact H.
  - apply locally_gt; exact H.
  - apply filter_forall. auto.
  - apply filter_and; [apply locally_gt|apply locally_lt]; lra.
  - apply locally_gt; exact H.
Qed.
Lemma lin_domain_locally lk eta : lin_domain lk eta -> locally eta (fun e => lin_domain lk e).
Proof.
  intros H. destruct lk as [p| | | |]; unfold lin_domain in *; [|apply filter_forall; auto..].
  destruct (Req_dec p 0) as [->|H0]; [apply filter_forall; intros; lra|].
  destruct (Req_dec p 1) as [->|H1]; [apply filter_forall; intros; lra|].
  eapply filter_imp; [|apply locally_gt; exact (H H0 H1)]. simpl. auto.
Qed.
Lemma raw_inverse_continuous lk eta : lin_domain lk eta -> continuous (raw_inverse lk) eta.
Proof. intros H. apply (ex_derive_continuous (raw_inverse lk)). eexists. apply is_derive_inverse; auto. Qed.

Lemma observed_information_is_derive f lk y w phi eta :
  family_ok f -> lin_domain lk eta -> mean_range f (raw_inverse lk eta) -> phi <> 0 ->
  is_derive (fun e => score_W f lk y (raw_inverse lk e) w phi) eta
    (- observed_W f lk y (raw_inverse lk eta) w phi).
Proof.
  intros Hf Hl Hm Hphi.
  assert (Hv := unit_variance_pos f _ Hf Hm).
  apply (dR_ext_loc (fun e => w / phi * (inverse_derivative lk e * (y - raw_inverse lk e) * / unit_variance f (raw_inverse lk e)))).
  { assert (L1 := lin_domain_locally lk eta Hl).
    assert (L2 : locally eta (fun e => mean_range f (raw_inverse lk e))).
    { apply (raw_inverse_continuous lk eta Hl). apply mean_range_locally; auto. }
    generalize (filter_and _ _ L1 L2). apply filter_imp. intros e [He1 He2].
    unfold score_W.
    rewrite link_raw_inverse by auto.
    rewrite one_over_variance_eq by auto.
    assert (0 < unit_variance f (raw_inverse lk e)) by (apply unit_variance_pos; auto). field. split; lra. }
  eapply dR_eq.
  - apply dR_scal. apply dR_mult.
    + apply dR_mult; [apply is_derive_inverse2; auto|].
      apply dR_minus; [apply dR_const|apply is_derive_inverse; auto].
    + apply (dR_comp Rinv (fun e => unit_variance f (raw_inverse lk e))).
      * instantiate (1 := - / (unit_variance f (raw_inverse lk eta) ^ 2)). auto_derive; [lra|]. field. lra.
      * apply (dR_comp (unit_variance f) (raw_inverse lk)).
        -- apply unit_variance_is_derive; auto.
        -- apply is_derive_inverse; auto.
  - unfold observed_W. cbv zeta. rewrite link_raw_inverse by auto. rewrite one_over_variance_eq by auto.
    field. split; lra.
Qed.

Lemma fisher_is_observed_at_mean f lk mu w phi :
  fisher_W f lk mu mu w phi = observed_W f lk mu mu w phi.
Proof. unfold fisher_W, observed_W. cbv zeta. unfold Rdiv. ring. Qed.

Lemma fisher_W_no_y f lk y y' mu w phi : fisher_W f lk y mu w phi = fisher_W f lk y' mu w phi.
Proof. reflexivity. Qed.

(** For canonical pairs h'' v = (h')^2 v'. *)
Lemma canonical_identity f lk eta : canonical_pair f lk -> lin_domain lk eta -> mean_range f (raw_inverse lk eta) ->
  inverse_derivative2 lk eta * unit_variance f (raw_inverse lk eta) =
  inverse_derivative lk eta ^ 2 * unit_variance_derivative f (raw_inverse lk eta).
Proof.
  intros Hc Hl Hm. assert (He : 0 < exp eta) by apply exp_pos.
  destruct f as [p| | | | | | |th]; destruct lk as [q| | | |]; simpl in Hc; try tauto; simpl in *.
  - subst q. destruct (Req_EM_T p 0) as [->|]; [ring|].
    destruct (Req_EM_T p 1) as [->|].
    { replace (1 - 1) with 0 by ring. rewrite Rpower_exp_0, Rpower_1 by auto. ring. }
    specialize (Hl n n0).
    rewrite !Rpower_mult.
    replace ((2 * p - 1) / (1 - p)) with (p / (1 - p) + (p - 1) / (1 - p)) by (field; lra).
    replace (1 / (1 - p) * (p - 1)) with ((p - 1) / (1 - p)) by (field; lra).
    replace (1 / (1 - p) * p) with (p / (1 - p)) by (field; lra).
    rewrite Rpower_plus. field. lra.
  - subst. ring.
  - subst. replace (1 - 1) with 0 by ring. rewrite Rpower_exp_0, Rpower_1 by auto. ring.
  - ring.
  - ring.
  - ring.
Qed.

Lemma fisher_is_observed_canonical f lk y mu w phi :
  family_ok f -> canonical_pair f lk -> mean_domain lk mu -> lin_domain lk (link_fn lk mu) -> mean_range f mu ->
  fisher_W f lk y mu w phi = observed_W f lk y mu w phi.
Proof.
  intros Hf Hc Hd Hl Hm. unfold fisher_W, observed_W. cbv zeta.
  assert (Hv := unit_variance_pos f mu Hf Hm).
  assert (E : inverse_derivative2 lk (link_fn lk mu) =
    inverse_derivative lk (link_fn lk mu) ^ 2 * unit_variance_derivative f mu / unit_variance f mu).
  { assert (C := canonical_identity f lk (link_fn lk mu) Hc Hl).
    rewrite raw_inverse_link in C by auto. specialize (C Hm).
    apply Rmult_eq_reg_r with (unit_variance f mu); [|lra]. rewrite C. field. lra. }
  rewrite E. field. lra.
Qed.
