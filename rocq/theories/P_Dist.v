(** Property theorems C04-C14, C18, C19 (families, kernels, starting intercept, score). *)
From Verif Require Import Base M_Link S_Link L_Link M_Dist S_Dist L_Dist L_Dist2 L_Dist3 L_Dist4.

(** C04 *)
Theorem C04_unit_deviance_nonneg :
  forall f y mu, family_ok f -> f <> BinomialF -> support f y -> mean_range f mu ->
    0 <= unit_deviance f y mu /\ (unit_deviance f y mu = 0 <-> y = mu).
Proof. exact unit_deviance_nonneg. Qed.
Print Assumptions C04_unit_deviance_nonneg.

(** Binomial: strictly positive inside the mean range; for fractional y it is minimal exactly at
    mu = y although it is not zero there. *)
Theorem C04_binomial_positive :
  forall y mu, 0 <= y <= 1 -> 0 < mu < 1 -> 0 < unit_deviance BinomialF y mu.
Proof. exact binomial_unit_deviance_nonneg. Qed.
Print Assumptions C04_binomial_positive.

Theorem C04_binomial_minimal_at_y :
  forall y mu, 0 < y < 1 -> 0 < mu < 1 ->
    unit_deviance BinomialF y y <= unit_deviance BinomialF y mu /\
    (unit_deviance BinomialF y mu = unit_deviance BinomialF y y -> y = mu).
Proof. exact binomial_unit_deviance_min. Qed.
Print Assumptions C04_binomial_minimal_at_y.

Example C04_ex : family_ok (TweedieF (3/2)) /\ support (TweedieF (3/2)) 0 /\ mean_range (TweedieF (3/2)) 2.
Proof. simpl. repeat split; intros; lra. Qed.

(** C05 *)
Theorem C05_unit_deviance_derivative :
  forall f y mu, family_ok f -> support f y -> mean_range f mu ->
    is_derive (unit_deviance f y) mu (unit_deviance_derivative f y mu).
Proof. exact unit_deviance_is_derive. Qed.
Print Assumptions C05_unit_deviance_derivative.

Example C05_ex : family_ok (NegBinF 2) /\ support (NegBinF 2) 0 /\ mean_range (NegBinF 2) 1.
Proof. simpl. repeat split; lra. Qed.

(** C06 *)
Theorem C06_unit_variance_derivative :
  forall f mu, mean_range f mu -> is_derive (unit_variance f) mu (unit_variance_derivative f mu).
Proof. exact unit_variance_is_derive. Qed.
Print Assumptions C06_unit_variance_derivative.

Theorem C06_variance_positive :
  forall f mu phi w, family_ok f -> mean_range f mu -> 0 < phi -> 0 < w ->
    0 < unit_variance f mu /\ 0 < variance f mu phi w /\ variance f mu phi w = unit_variance f mu * phi / w.
Proof.
  exact (fun f mu phi w Hf Hm Hp Hw =>
    conj (unit_variance_pos f mu Hf Hm)
     (conj (Rdiv_lt_0_compat _ _ (Rmult_lt_0_compat _ _ (unit_variance_pos f mu Hf Hm) Hp) Hw) eq_refl)).
Qed.
Print Assumptions C06_variance_positive.

Example C06_ex : mean_range BinomialF (1/3) /\ mean_range (TweedieF 0) (-5).
Proof. simpl. split; intros; lra. Qed.

(** C07 *)
Theorem C07_named_is_tweedie :
  forall f p, named_power f = Some p ->
    (forall mu, mean_range f mu ->
       unit_variance f mu = unit_variance (TweedieF p) mu /\
       unit_variance_derivative f mu = unit_variance_derivative (TweedieF p) mu) /\
    (forall y mu, support f y -> mean_range f mu ->
       unit_deviance f y mu = unit_deviance (TweedieF p) y mu) /\
    (forall l, deviance f l = deviance (TweedieF p) l) /\
    (forall lk y w eta mu, mean_range f mu -> rowwise f lk y w eta mu = rowwise (TweedieF p) lk y w eta mu) /\
    (forall lk factor rows, eta_mu_deviance f lk factor rows = eta_mu_deviance (TweedieF p) lk factor rows) /\
    (forall lgamma tw_norm phi l, log_likelihood lgamma tw_norm f phi l = log_likelihood lgamma tw_norm (TweedieF p) phi l) /\
    (forall m b ddof l, (forall o, In o l -> mean_range f (omu o)) ->
       dispersion f m b ddof l = dispersion (TweedieF p) m b ddof l) /\
    (forall lk he l, guess_intercept f lk he l = guess_intercept (TweedieF p) lk he l) /\
    (forall y, in_y_range f y = in_y_range (TweedieF p) y).
Proof.
  exact (fun f p H =>
    conj (fun mu Hm => conj (named_unit_variance f p mu H Hm) (named_unit_variance_derivative f p mu H Hm))
   (conj (fun y mu Hy Hm => named_unit_deviance f p y mu H Hy Hm)
   (conj (fun l => named_deviance f p l H)
   (conj (fun lk y w eta mu Hm => named_rowwise f p lk y w eta mu H Hm)
   (conj (fun lk fa rows => named_eta_mu_deviance f p lk fa rows H)
   (conj (fun lg tn phi l => named_log_likelihood lg tn f p phi l H)
   (conj (fun m b dd l Hm => named_dispersion f p m b dd l H Hm)
   (conj (fun lk he l => named_guess_intercept f p lk he l H)
         (fun y => named_in_y_range f p y H))))))))).
Qed.
Print Assumptions C07_named_is_tweedie.

Example C07_ex : named_power InvGaussF = Some 3 /\ mean_range InvGaussF 2 /\ support InvGaussF 1.
Proof. simpl. repeat split; lra. Qed.

(** C08: true except for Tweedie powers p < 0 with negative responses. *)
Theorem C08_deviance_is_weighted_sum_partial :
  forall f l, family_ok f ->
    (forall o, In o l -> support f (oy o) /\ mean_range f (omu o)) ->
    (forall p, f = TweedieF p -> p < 0 -> forall o, In o l -> 0 <= oy o) ->
    deviance f l = lsumf (fun o => ow o * unit_deviance f (oy o) (omu o)) l.
Proof. exact deviance_sum. Qed.
Print Assumptions C08_deviance_is_weighted_sum_partial.

(** The unrestricted claim is false: Tweedie power -1, one observation y = -1. *)
Theorem C08_deviance_is_weighted_sum_refuted :
  exists o, obs_ok (TweedieF (-1)) o /\ family_ok (TweedieF (-1)) /\ 0 < ow o /\
    in_y_range (TweedieF (-1)) (oy o) = true /\
    deviance (TweedieF (-1)) [o] <> ow o * unit_deviance (TweedieF (-1)) (oy o) (omu o).
Proof. exact deviance_sum_refuted. Qed.
Print Assumptions C08_deviance_is_weighted_sum_refuted.

(** C08, exactly what happens for a Tweedie power below zero: the deviance lacks the cross term of the
    observations below zero, so with non-negative weights it is never larger than the weighted sum, and
    it equals the weighted sum if and only if every observation below zero has weight zero. *)
Theorem C08_deviance_gap :
  forall p l, p < 0 -> (forall o, In o l -> 0 < omu o) ->
    let total := lsumf (fun o => ow o * unit_deviance (TweedieF p) (oy o) (omu o)) l in
    total - deviance (TweedieF p) l =
      lsumf (fun o => if Rlt_dec (oy o) 0 then 2 * ow o * (- oy o) * Rpower (omu o) (1 - p) / (1 - p) else 0) l /\
    ((forall o, In o l -> 0 <= ow o) ->
       deviance (TweedieF p) l <= total /\
       (deviance (TweedieF p) l = total <-> forall o, In o l -> oy o < 0 -> ow o = 0)).
Proof.
  intros p l Hp Hm total. pose proof (deviance_gap p l Hp Hm) as G. fold total in G. split; [exact G|]. intros Hw.
  set (g := fun o : obs => if Rlt_dec (oy o) 0 then 2 * ow o * (- oy o) * Rpower (omu o) (1 - p) / (1 - p) else 0) in *.
  assert (K : forall o, In o l -> oy o < 0 -> 0 < 2 * (- oy o) * Rpower (omu o) (1 - p) / (1 - p)).
  { intros o Ho Hy. unfold Rpower. pose proof (exp_pos ((1 - p) * ln (omu o))). apply Rdiv_lt_0_compat; [|lra]. apply Rmult_lt_0_compat; lra. }
  assert (E : forall o, oy o < 0 -> g o = ow o * (2 * (- oy o) * Rpower (omu o) (1 - p) / (1 - p))).
  { intros o Hy. unfold g. destruct (Rlt_dec (oy o) 0); [|lra]. unfold Rdiv. ring. }
  assert (E0 : forall o, ~ oy o < 0 -> g o = 0).
  { intros o Hy. unfold g. destruct (Rlt_dec (oy o) 0); [lra|reflexivity]. }
  assert (N : forall o, In o l -> 0 <= g o).
  { intros o Ho. destruct (Rlt_dec (oy o) 0) as [Hy|Hy]; [|rewrite E0 by exact Hy; lra]. rewrite E by exact Hy. apply Rmult_le_pos; [auto|]. left. auto. }
  split; [pose proof (lsumf_nonneg _ g l N); lra|]. split.
  - intros Q o Ho Hy. assert (Z : g o = 0) by (apply (lsumf_zero_inv _ g l); auto; lra).
    rewrite E in Z by exact Hy. apply Rmult_integral in Z. destruct Z as [Z|Z]; [exact Z|]. specialize (K o Ho Hy). lra.
  - intros Q. assert (Z : lsumf g l = 0); [|lra]. apply lsumf_zero. intros o Ho. destruct (Rlt_dec (oy o) 0) as [Hy|Hy]; [|auto].
    rewrite E, (Q o Ho Hy) by exact Hy. ring.
Qed.
Print Assumptions C08_deviance_gap.

Theorem C08_deviance_nonneg :
  forall f l, family_ok f -> (forall o, In o l -> obs_ok f o /\ 0 <= ow o) -> 0 <= deviance f l.
Proof. exact deviance_nonneg. Qed.
Print Assumptions C08_deviance_nonneg.

Example C08_ex : forall o, In o [mkobs 0 1 2; mkobs 3 (1/2) 1] -> support PoissonF (oy o) /\ mean_range PoissonF (omu o).
Proof. intros o [<-|[<-|[]]]; simpl; lra. Qed.

(** C09 *)
Theorem C09_loglik_gap :
  forall (lgamma : R -> R) (tw_norm : R -> R -> R -> R) (phi : R) (l : list obs), 0 < phi ->
    2 * phi * (normal_ll phi (saturate l) - normal_ll phi l) = normal_deviance l /\
    ((forall o, In o l -> 0 <= oy o /\ 0 < omu o) ->
       2 * (poisson_ll lgamma (saturate l) - poisson_ll lgamma l) = poisson_deviance l) /\
    ((forall o, In o l -> 0 < oy o /\ 0 < omu o) ->
       2 * phi * (gamma_ll lgamma phi (saturate l) - gamma_ll lgamma phi l) = gamma_deviance l /\
       2 * phi * (inv_gaussian_ll phi (saturate l) - inv_gaussian_ll phi l) = inv_gaussian_deviance l) /\
    (forall p, 1 < p < 2 -> (forall o, In o l -> 0 <= oy o /\ 0 < omu o) ->
       2 * phi * (tweedie_ll tw_norm p phi (saturate l) - tweedie_ll tw_norm p phi l) = tweedie_deviance p l) /\
    (forall theta, 0 < theta -> (forall o, In o l -> 0 < oy o /\ 0 < omu o) ->
       2 * (negative_binomial_ll lgamma theta (saturate l) - negative_binomial_ll lgamma theta l)
       = negative_binomial_deviance theta l) /\
    ((forall o, In o l -> (oy o = 0 \/ oy o = 1) /\ 0 < omu o < 1) ->
       2 * (binomial_ll (saturate l) - binomial_ll l) = deviance BinomialF l).
Proof.
  exact (fun lg tn phi l Hp =>
   conj (normal_ll_gap phi l Hp)
  (conj (poisson_ll_gap lg l)
  (conj (fun Hr => conj (gamma_ll_gap lg phi l Hp Hr) (inv_gaussian_ll_gap phi l Hp Hr))
  (conj (fun p H1 Hr => tweedie_ll_gap tn p phi l Hp H1 Hr)
  (conj (fun th Ht Hr => negbin_ll_gap lg th l Ht Hr)
        (binomial_ll_gap l)))))).
Qed.
Print Assumptions C09_loglik_gap.

Example C09_ex : forall o, In o [mkobs 1 1 (1/2); mkobs 0 2 (1/4)] -> (oy o = 0 \/ oy o = 1) /\ 0 < omu o < 1.
Proof. intros o [<-|[<-|[]]]; simpl; split; auto; lra. Qed.

(** C10 *)
Theorem C10_gradient_rows_exact :
  forall f lk y w eta,
    family_ok f -> support f y -> lin_domain lk eta -> mean_range f (raw_inverse lk eta) ->
    is_derive (fun e => - (1 / 2) * (w * unit_deviance f y (raw_inverse lk e))) eta
      (gradient_row f lk y w eta (raw_inverse lk eta)).
Proof. exact gradient_row_is_derive. Qed.
Print Assumptions C10_gradient_rows_exact.

Example C10_ex : lin_domain CloglogL 1 /\ mean_range BinomialF (raw_inverse CloglogL 1).
Proof. split; [exact I|]. simpl. apply (raw_cloglog_bounds 1). Qed.

(** C11 *)
Theorem C11_hessian_rows_exact :
  forall f lk y w eta, exact_hessian_pair f lk ->
    is_derive (fun e => gradient_row f lk y w e (raw_inverse lk e)) eta
      (- hessian_row f lk y w eta (raw_inverse lk eta)).
Proof. exact hessian_row_is_derive. Qed.
Print Assumptions C11_hessian_rows_exact.

Theorem C11_hessian_rows_fisher :
  forall f lk y w eta, family_ok f -> lin_domain lk eta -> mean_range f (raw_inverse lk eta) ->
    ~ exact_hessian_pair f lk \/ canonical_pair f lk ->
    hessian_row f lk y w eta (raw_inverse lk eta) =
    w * inverse_derivative lk eta ^ 2 / unit_variance f (raw_inverse lk eta).
Proof. intros f lk y w eta Hf _. now apply hessian_row_fisher. Qed.
Print Assumptions C11_hessian_rows_fisher.

Theorem C11_hessian_rows_nonneg :
  forall f lk y w eta,
    family_ok f -> support f y -> lin_domain lk eta -> mean_range f (raw_inverse lk eta) -> 0 <= w ->
    0 <= hessian_row f lk y w eta (raw_inverse lk eta).
Proof. intros f lk y w eta Hf Hs _. now apply hessian_row_nonneg. Qed.
Print Assumptions C11_hessian_rows_nonneg.

Example C11_ex : exact_hessian_pair (TweedieF (3/2)) LogL /\ ~ exact_hessian_pair InvGaussF LogL.
Proof. simpl. split; [lra|tauto]. Qed.

(** C12 *)
Theorem C12_line_search_objective :
  forall f lk (ys ws : list R), family_ok f -> (forall y, In y ys -> support f y) ->
    exists K : R, forall factor rows,
      map s_y rows = ys -> map s_w rows = ws ->
      let etas := map (fun s => s_eta s + factor * s_xd s) rows in
      let mus := map (search_mean f lk) etas in
      eta_mu_deviance f lk factor rows = (etas, mus, deviance f (to_obs rows mus) + K).
Proof.
  intros f lk ys ws Hf Hy.
  exists (lsumf (fun yw => emd_k f lk (fst yw) (snd yw)) (combine ys ws)).
  intros factor rows Ey Ew etas mus.
  rewrite eta_mu_deviance_spec; auto.
  - replace (lsumf (fun yw => emd_k f lk (fst yw) (snd yw)) (combine ys ws))
      with (lsumf (fun s => emd_k f lk (s_y s) (s_w s)) rows); [reflexivity|].
    rewrite <- Ey, <- Ew. clear. induction rows; simpl; [reflexivity|].
    rewrite !lsumf_cons, IHrows. reflexivity.
  - intros s Hs. apply Hy. rewrite <- Ey. apply in_map. auto.
Qed.
Print Assumptions C12_line_search_objective.

Theorem C12_exact_for_normal_and_invgauss :
  forall f lk factor rows,
    family_ok f -> (forall s, In s rows -> support f (s_y s)) ->
    (match f with NormalF | InvGaussF | BinomialF | GHSF => True
     | TweedieF p => p <= 0 \/ 2 < p | _ => lk <> LogL end) ->
    snd (eta_mu_deviance f lk factor rows) =
    deviance f (to_obs rows (snd (fst (eta_mu_deviance f lk factor rows)))).
Proof. exact eta_mu_deviance_exact. Qed.
Print Assumptions C12_exact_for_normal_and_invgauss.

Example C12_ex : forall y, In y [0; 2; 5] -> support PoissonF y.
Proof. intros y [<-|[<-|[<-|[]]]]; simpl; lra. Qed.

(** C13 *)
Theorem C13_observed_information :
  forall f lk y w phi eta,
    family_ok f -> lin_domain lk eta -> mean_range f (raw_inverse lk eta) -> phi <> 0 ->
    is_derive (fun e => score_W f lk y (raw_inverse lk e) w phi) eta
      (- observed_W f lk y (raw_inverse lk eta) w phi).
Proof. exact observed_information_is_derive. Qed.
Print Assumptions C13_observed_information.

Theorem C13_fisher_is_observed_at_mean :
  forall f lk y mu w phi, fisher_W f lk y mu w phi = observed_W f lk mu mu w phi.
Proof. exact (fun f lk y mu w phi => fisher_is_observed_at_mean f lk mu w phi). Qed.
Print Assumptions C13_fisher_is_observed_at_mean.

Theorem C13_fisher_is_observed_canonical :
  forall f lk y mu w phi,
    family_ok f -> canonical_pair f lk -> mean_domain lk mu -> lin_domain lk (link_fn lk mu) ->
    mean_range f mu -> fisher_W f lk y mu w phi = observed_W f lk y mu w phi.
Proof. exact fisher_is_observed_canonical. Qed.
Print Assumptions C13_fisher_is_observed_canonical.

Example C13_ex : canonical_pair GammaF LogL \/ (canonical_pair (TweedieF 2) (TweedieL 2) /\
  mean_domain (TweedieL 2) 3 /\ lin_domain (TweedieL 2) (link_fn (TweedieL 2) 3)).
Proof. right. simpl. repeat split; intros; try lra.
  destruct (Req_EM_T 2 0); [lra|]. destruct (Req_EM_T 2 1); [lra|]. apply exp_pos. Qed.

(** C14 *)
Theorem C14_pearson_formula :
  forall f ddof l,
    dispersion f Pearson true ddof l =
    lsumf (fun o => ow o * ((oy o - omu o) ^ 2 / unit_variance f (omu o))) l / (lsumf ow l - ddof).
Proof. exact dispersion_pearson. Qed.
Print Assumptions C14_pearson_formula.

Theorem C14_nonneg :
  forall f m ddof l, family_ok f ->
    (forall o, In o l -> obs_ok f o /\ 0 <= ow o) -> ddof < lsumf ow l ->
    0 <= dispersion f m true ddof l.
Proof. exact dispersion_nonneg. Qed.
Print Assumptions C14_nonneg.

Theorem C14_frequency_weights :
  forall f m ddof (l : list (nat * (R * R))),
    dispersion f m true ddof (freq_obs l) = dispersion f m true ddof (expand_obs l) /\
    dispersion f m true ddof (freq_obs l) = dispersion f m false ddof (expand_obs l).
Proof. exact (fun f m ddof l => conj (dispersion_expand f m ddof l) (dispersion_expand_unweighted f m ddof l)). Qed.
Print Assumptions C14_frequency_weights.

Example C14_ex : expand_obs [(2%nat, (1, 3)); (0%nat, (5, 5))] = [mkobs 1 1 3; mkobs 1 1 3].
Proof. reflexivity. Qed.

(** C18 *)
Theorem C18_guess_intercept_optimal_offset :
  forall f lk l b b',
    family_ok f -> guess_intercept f lk true l = Some b ->
    (forall g, In g l -> support f (g_y g) /\ 0 <= g_w g) -> 0 < lsumf g_w l ->
    (lk = LogL /\ tweedie_like f /\
       0 < lsumf (fun g => g_y g * Rpower (exp (g_eta g)) (1 - guess_power f) * g_w g) l)
     \/ (lk = IdentityL /\ normal_like f) ->
    null_obj f lk l b <= null_obj f lk l b'.
Proof. exact guess_offset_optimal. Qed.
Print Assumptions C18_guess_intercept_optimal_offset.

Theorem C18_guess_intercept_optimal_no_offset :
  forall f lk l b m,
    family_ok f -> guess_intercept f lk false l = Some b ->
    (forall g, In g l -> support f (g_y g) /\ 0 <= g_w g) -> 0 < lsumf g_w l ->
    (match lk with TweedieL _ | CloglogL => lsumf g_w l = 1 | _ => True end) ->
    mean_domain lk (wavg (g_yw l)) -> mean_range f (wavg (g_yw l)) -> mean_range f m ->
    raw_inverse lk b = wavg (g_yw l) /\
    udsum f (g_yw l) (raw_inverse lk b) <= udsum f (g_yw l) m.
Proof. exact guess_no_offset. Qed.
Print Assumptions C18_guess_intercept_optimal_no_offset.

Example C18_ex : exists b, guess_intercept PoissonF LogL true [mkgrow 0 1 0; mkgrow 2 1 1] = Some b /\
   0 < lsumf (fun g => g_y g * Rpower (exp (g_eta g)) (1 - guess_power PoissonF) * g_w g) [mkgrow 0 1 0; mkgrow 2 1 1].
Proof.
  unfold guess_intercept. simpl. unfold Reqb. destruct (Req_EM_T 2 0); [lra|]. simpl. eexists. split; [reflexivity|].
  rewrite !lsumf_cons, lsumf_nil. simpl. replace (1 - 1) with 0 by ring. rewrite !Rpower_exp_0. lra.
Qed.

(** C19 *)
Theorem C19_score_at_most_one :
  forall f l, family_ok f -> (forall o, In o l -> obs_ok f o /\ 0 <= ow o) ->
    0 < deviance f (with_mu (y_mean l) l) -> score f l <= 1.
Proof. exact score_le_1. Qed.
Print Assumptions C19_score_at_most_one.

Theorem C19_score_one_iff_perfect :
  forall f l, family_ok f -> f <> BinomialF -> ~ neg_power f ->
    (forall o, In o l -> obs_ok f o /\ 0 <= ow o) ->
    0 < deviance f (with_mu (y_mean l) l) ->
    (score f l = 1 <-> forall o, In o l -> 0 < ow o -> omu o = oy o).
Proof. exact score_eq_1. Qed.
Print Assumptions C19_score_one_iff_perfect.

Theorem C19_constant_prediction_partial :
  forall f l m, family_ok f -> ~ neg_power f ->
    (forall o, In o l -> support f (oy o) /\ 0 <= ow o) -> 0 < lsumf ow l ->
    mean_range f m -> mean_range f (y_mean l) ->
    0 < deviance f (with_mu (y_mean l) l) ->
    score f (with_mu m l) <= 0 /\ score f (with_mu (y_mean l) l) = 0.
Proof. exact score_constant. Qed.
Print Assumptions C19_constant_prediction_partial.

Theorem C19_constant_prediction_refuted :
  exists l m, family_ok (TweedieF (-1)) /\
    (forall o, In o l -> in_y_range (TweedieF (-1)) (oy o) = true /\ 0 < ow o) /\
    0 < m /\ 0 < y_mean l /\ 0 < deviance (TweedieF (-1)) (with_mu (y_mean l) l) /\
    0 < score (TweedieF (-1)) (with_mu m l).
Proof. exact score_constant_refuted. Qed.
Print Assumptions C19_constant_prediction_refuted.

Example C19_ex : 0 < deviance NormalF (with_mu (y_mean [mkobs 0 1 1; mkobs 2 1 1]) [mkobs 0 1 1; mkobs 2 1 1]).
Proof.
  assert (E : y_mean [mkobs 0 1 1; mkobs 2 1 1] = 1).
  { unfold y_mean. rewrite !lsumf_cons, !lsumf_nil. simpl. lra. }
  rewrite E. unfold deviance, normal_deviance, with_mu. rewrite lsumf_map, !lsumf_cons, lsumf_nil. simpl. lra.
Qed.
