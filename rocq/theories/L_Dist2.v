From Verif Require Import Base M_Link S_Link L_Link M_Dist S_Dist L_Dist.

Ltac deq := repeat match goal with
  | |- context [Req_EM_T ?a ?b] => destruct (Req_EM_T a b); try (exfalso; lra)
  | |- context [Rlt_dec ?a ?b] => destruct (Rlt_dec a b); try (exfalso; lra)
  | |- context [Rle_dec ?a ?b] => destruct (Rle_dec a b); try (exfalso; lra)
  end.

(** ** C07 named classes *)
Lemma named_unit_variance f p mu : named_power f = Some p -> mean_range f mu ->
  unit_variance f mu = unit_variance (TweedieF p) mu.
Proof.
  destruct f; simpl; try discriminate; intros H Hm; inversion H; subst.
  - rewrite Rpower_exp_0. auto.
  - rewrite Rpower_1; auto.
  - rewrite Rpower_2; auto. ring.
  - rewrite Rpower_3; auto. ring.
Qed.
Lemma named_unit_variance_derivative f p mu : named_power f = Some p -> mean_range f mu ->
  unit_variance_derivative f mu = unit_variance_derivative (TweedieF p) mu.
Proof.
  destruct f; simpl; try discriminate; intros H Hm; inversion H; subst.
  - ring.
  - replace (1 - 1) with 0 by ring. rewrite Rpower_exp_0. ring.
  - replace (2 - 1) with 1 by ring. rewrite Rpower_1; auto.
  - replace (3 - 1) with 2 by ring. rewrite Rpower_2; auto. ring.
Qed.
Lemma named_unit_deviance f p y mu : named_power f = Some p -> support f y -> mean_range f mu ->
  unit_deviance f y mu = unit_deviance (TweedieF p) y mu.
Proof.
  destruct f; simpl; try discriminate; intros H Hy Hm; inversion H; subst; deq; auto.
  field. lra.
Qed.
Lemma named_deviance f p l : named_power f = Some p -> deviance f l = deviance (TweedieF p) l.
Proof. destruct f; simpl; try discriminate; intros H; inversion H; subst; deq; auto. Qed.
Lemma named_generic_rows f p lk y w eta mu : named_power f = Some p -> mean_range f mu ->
  generic_rows f lk y w eta mu = generic_rows (TweedieF p) lk y w eta mu.
Proof.
  intros H Hm. unfold generic_rows. 
  assert (E : one_over_variance f lk mu eta 1 w = one_over_variance (TweedieF p) lk mu eta 1 w).
  { unfold one_over_variance. rewrite <- (named_unit_variance f p mu H Hm).
    destruct f; simpl in H; try discriminate; reflexivity. }
  rewrite E. reflexivity.
Qed.
Lemma named_rowwise f p lk y w eta mu : named_power f = Some p -> mean_range f mu ->
  rowwise f lk y w eta mu = rowwise (TweedieF p) lk y w eta mu.
Proof.
  intros H Hm. assert (G := named_generic_rows f p lk y w eta mu H Hm).
  destruct f; simpl in H; try discriminate; inversion H; subst; destruct lk; unfold rowwise; deq; auto; lra.
Qed.
Lemma named_eta_mu_deviance f p lk factor rows : named_power f = Some p ->
  eta_mu_deviance f lk factor rows = eta_mu_deviance (TweedieF p) lk factor rows.
Proof.
  intros H. 
  assert (G : generic_emd f lk factor rows = generic_emd (TweedieF p) lk factor rows).
  { unfold generic_emd. rewrite (named_deviance f p _ H). reflexivity. }
  destruct f; simpl in H; try discriminate; inversion H; subst; destruct lk; unfold eta_mu_deviance; deq; auto; lra.
Qed.
Lemma named_log_likelihood lg tn f p phi l : named_power f = Some p ->
  log_likelihood lg tn f phi l = log_likelihood lg tn (TweedieF p) phi l.
Proof. destruct f; simpl; try discriminate; intros H; inversion H; subst; deq; auto; lra. Qed.
Lemma named_dispersion f p m b ddof l : named_power f = Some p ->
  (forall o, In o l -> mean_range f (omu o)) ->
  dispersion f m b ddof l = dispersion (TweedieF p) m b ddof l.
Proof.
  intros H Hm. unfold dispersion.
  rewrite !(named_deviance f p _ H).
  assert (E : forall o, In o l -> pearson_residual f o = pearson_residual (TweedieF p) o).
  { intros o Ho. specialize (Hm o Ho). unfold pearson_residual. f_equal.
    exact (named_unit_variance f p (omu o) H Hm). }
  assert (E1 : lsumf (pearson_residual f) l = lsumf (pearson_residual (TweedieF p)) l).
  { apply lsumf_ext. auto. }
  assert (E2 : lsumf (fun o => ow o * pearson_residual f o) l = lsumf (fun o => ow o * pearson_residual (TweedieF p) o) l).
  { apply lsumf_ext. intros o Ho. rewrite E; auto. }
  rewrite E1, E2. reflexivity.
Qed.
Lemma named_guess_intercept f p lk he l : named_power f = Some p ->
  guess_intercept f lk he l = guess_intercept (TweedieF p) lk he l.
Proof. destruct f; simpl; try discriminate; intros H; inversion H; subst; reflexivity. Qed.
Lemma named_in_y_range f p y : named_power f = Some p -> in_y_range f y = in_y_range (TweedieF p) y.
Proof. destruct f; simpl; try discriminate; intros H; inversion H; subst; unfold in_y_range; simpl; deq; auto. Qed.

(** ** C08 deviance *)
Lemma deviance_sum f l : family_ok f -> (forall o, In o l -> obs_ok f o) ->
  (forall p, f = TweedieF p -> p < 0 -> forall o, In o l -> 0 <= oy o) ->
  deviance f l = lsumf (fun o => ow o * unit_deviance f (oy o) (omu o)) l.
Proof.
  intros Hf Ho Hneg.
  assert (Hn : normal_deviance l = lsumf (fun o => ow o * (oy o - omu o) ^ 2) l) by reflexivity.
  assert (Hp : (forall o, In o l -> 0 <= oy o /\ 0 < omu o) ->
    poisson_deviance l = lsumf (fun o => ow o * (2 * (xlogy (oy o) (oy o / omu o) - oy o + omu o))) l).
  { intros Hr. unfold poisson_deviance. rewrite <- lsumf_scal. apply lsumf_ext. intros o Hi.
    destruct (Hr o Hi) as [Hy Hm]. rewrite xlogy_eq. destruct (Rlt_dec 0 (oy o)).
    - rewrite ln_div by lra. ring.
    - replace (oy o) with 0 by lra. ring. }
  assert (Hg : (forall o, In o l -> 0 < oy o /\ 0 < omu o) ->
    gamma_deviance l = lsumf (fun o => ow o * (2 * (ln (omu o / oy o) + oy o / omu o - 1))) l).
  { intros Hr. unfold gamma_deviance. rewrite <- lsumf_scal. apply lsumf_ext. intros o Hi.
    destruct (Hr o Hi) as [Hy Hm]. rewrite ln_div by lra. ring. }
  destruct f as [p| | | | | | |th]; unfold deviance, unit_deviance, obs_ok in *; cbn [support mean_range] in Ho.
  - destruct (Req_EM_T p 0) as [->|H0]; [auto|].
    destruct (Req_EM_T p 1) as [->|H1].
    { apply Hp. intros o Hi. destruct (Ho o Hi) as [[Hy1 Hy2] Hm]. split; [apply Hy1; lra|apply Hm; lra]. }
    destruct (Req_EM_T p 2) as [->|H2].
    { apply Hg. intros o Hi. destruct (Ho o Hi) as [[Hy1 Hy2] Hm]. split; [apply Hy2; lra|apply Hm; lra]. }
    destruct (Req_EM_T p 3) as [->|H3].
    { unfold inv_gaussian_deviance. apply lsumf_ext. intros o Hi. cbv zeta. unfold Rdiv. ring. }
    unfold tweedie_deviance. rewrite <- lsumf_scal. apply lsumf_ext. intros o Hi. cbv zeta.
    destruct (Ho o Hi) as [[Hy1 Hy2] Hm]. specialize (Hm H0).
    assert (Hy : 0 <= oy o).
    { destruct Hf as [Hf|Hf]; [|auto]. apply (Hneg p); auto. lra. }
    unfold npow. rewrite Rmax_left by lra.
    destruct (Rlt_dec 0 (oy o)) as [Hlt|Hnl].
    + destruct (Req_EM_T (oy o) 0); [lra|].
      replace (2 - p) with (1 - p + 1) at 3 by ring. rewrite <- Rpower_succ by auto. field. split; lra.
    + assert (E : oy o = 0) by lra. rewrite E. destruct (Req_EM_T 0 0); [|congruence].
      destruct (Req_EM_T (2 - p) 0); [lra|]. field. split; lra.
  - auto.
  - apply Hp. intros o Hi. destruct (Ho o Hi); auto.
  - apply Hg. intros o Hi. destruct (Ho o Hi); auto.
  - unfold inv_gaussian_deviance. apply lsumf_ext. intros o Hi. destruct (Ho o Hi). cbv zeta. field. lra.
  - apply lsumf_ext. intros. ring.
  - apply lsumf_ext. intros. ring.
  - unfold negative_binomial_deviance. cbv zeta. rewrite <- lsumf_scal. apply lsumf_ext. intros o Hi.
    destruct (Ho o Hi) as [Hy Hm]. rewrite xlogy_eq. destruct (Rlt_dec 0 (oy o)).
    + ring.
    + replace (oy o) with 0 by lra. ring.
Qed.

(** for a negative Tweedie power the fused deviance drops the cross term of the rows with y <= 0 *)
Lemma deviance_gap p l : p < 0 -> (forall o, In o l -> 0 < omu o) ->
  lsumf (fun o => ow o * unit_deviance (TweedieF p) (oy o) (omu o)) l - deviance (TweedieF p) l =
  lsumf (fun o => if Rlt_dec (oy o) 0 then 2 * ow o * (- oy o) * Rpower (omu o) (1 - p) / (1 - p) else 0) l.
Proof.
  intros Hp Hm. unfold deviance, unit_deviance.
  destruct (Req_EM_T p 0); [lra|]. destruct (Req_EM_T p 1); [lra|]. destruct (Req_EM_T p 2); [lra|]. destruct (Req_EM_T p 3); [lra|].
  unfold tweedie_deviance. rewrite <- lsumf_scal. unfold Rminus at 1.
  replace (- lsumf (fun o => 2 * (ow o * (Rpower (omu o) (1 - p) * omu o) / (2 - p) + (if Rlt_dec 0 (oy o) then ow o * (Rpower (oy o) (1 - p) * (oy o / (1 - p)) / (2 - p) - oy o / (1 - p) * Rpower (omu o) (1 - p)) else 0))) l)
   with (lsumf (fun o => (-1) * (2 * (ow o * (Rpower (omu o) (1 - p) * omu o) / (2 - p) + (if Rlt_dec 0 (oy o) then ow o * (Rpower (oy o) (1 - p) * (oy o / (1 - p)) / (2 - p) - oy o / (1 - p) * Rpower (omu o) (1 - p)) else 0)))) l)
   by (rewrite lsumf_scal; ring).
  rewrite <- lsumf_plus. apply lsumf_ext. intros o Hi. cbv zeta. unfold npow.
  destruct (Rlt_dec (oy o) 0) as [Hn|Hn]; destruct (Rlt_dec 0 (oy o)) as [Hq|Hq]; try lra.
  - rewrite Rmax_right by lra. destruct (Req_EM_T 0 0); [|congruence]. destruct (Req_EM_T (2 - p) 0); [lra|]. field. split; lra.
  - rewrite Rmax_left by lra. destruct (Req_EM_T (oy o) 0); [lra|].
    replace (2 - p) with (1 - p + 1) at 1 by ring. rewrite <- Rpower_succ by auto. field. split; lra.
  - assert (E : oy o = 0) by lra. rewrite E, Rmax_left by lra. destruct (Req_EM_T 0 0); [|congruence]. destruct (Req_EM_T (2 - p) 0); [lra|]. field. split; lra.
Qed.

Lemma deviance_sum_refuted :
  exists o, obs_ok (TweedieF (-1)) o /\ family_ok (TweedieF (-1)) /\ 0 < ow o /\
    in_y_range (TweedieF (-1)) (oy o) = true /\
    deviance (TweedieF (-1)) [o] <> ow o * unit_deviance (TweedieF (-1)) (oy o) (omu o).
Proof.
  exists (mkobs (-1) 1 1). assert (Hf : family_ok (TweedieF (-1))) by (simpl; lra).
  assert (Ho : obs_ok (TweedieF (-1)) (mkobs (-1) 1 1)) by (unfold obs_ok; simpl; repeat split; intros; lra).
  split; auto. split; auto. split; [simpl; lra|]. split.
  { apply in_y_range_iff; auto. apply Ho. }
  unfold deviance, unit_deviance. deq. unfold tweedie_deviance, lsumf, npow. simpl.
  destruct (Rlt_dec 0 (-1)); [lra|]. rewrite Rmax_right by lra. deq.
  assert (E : forall a, Rpower 1 a = 1).
  { intros a. unfold Rpower. rewrite ln_1, Rmult_0_r. apply exp_0. }
  rewrite E. lra.
Qed.

Lemma deviance_cons f o l : deviance f (o :: l) = deviance f [o] + deviance f l.
Proof.
  assert (G : forall c (g : obs -> R), c * lsumf g (o :: l) = c * lsumf g [o] + c * lsumf g l).
  { intros c g. rewrite !lsumf_cons, lsumf_nil. ring. }
  assert (G1 : forall (g : obs -> R), lsumf g (o :: l) = lsumf g [o] + lsumf g l).
  { intros g. rewrite !lsumf_cons, lsumf_nil. ring. }
  unfold deviance, normal_deviance, poisson_deviance, gamma_deviance, inv_gaussian_deviance,
    tweedie_deviance, negative_binomial_deviance.
  destruct f as [p| | | | | | |th]; auto.
  repeat match goal with |- context [Req_EM_T p ?b] => destruct (Req_EM_T p b) end; auto.
Qed.

Lemma deviance_nil f : deviance f [] = 0.
Proof.
  unfold deviance, normal_deviance, poisson_deviance, gamma_deviance, inv_gaussian_deviance,
    tweedie_deviance, negative_binomial_deviance.
  destruct f as [p| | | | | | |th]; rewrite ?lsumf_nil;
  repeat match goal with |- context [Req_EM_T p ?b] => destruct (Req_EM_T p b) end; rewrite ?lsumf_nil; lra.
Qed.

Lemma deviance_nonneg f l : family_ok f -> (forall o, In o l -> obs_ok f o /\ 0 <= ow o) ->
  0 <= deviance f l.
Proof.
  intros Hf. induction l as [|o l IH]; intros Ho; [rewrite deviance_nil; lra|].
  rewrite deviance_cons. apply Rplus_le_le_0_compat; [|apply IH; auto with datatypes].
  clear IH. destruct (Ho o (or_introl eq_refl)) as [Hok Hw]. clear Ho.
  destruct (Classical_Prop.classic (exists p, f = TweedieF p /\ p < 0 /\ oy o < 0)) as [[p [-> [Hp Hy]]]|Hc].
  - destruct Hok as [_ Hm]. simpl in Hm. specialize (Hm ltac:(lra)).
    unfold deviance. deq. unfold tweedie_deviance. rewrite lsumf_cons, lsumf_nil. cbv zeta. deq.
    rewrite !Rplus_0_r. apply Rmult_le_pos; [lra|].
    apply Rmult_le_pos; [|left; apply Rinv_0_lt_compat; lra].
    apply Rmult_le_pos; auto. apply Rmult_le_pos; [left; apply Rpower_pos|lra].
  - rewrite deviance_sum; auto.
    + rewrite lsumf_cons, lsumf_nil, Rplus_0_r. destruct Hok as [Hy Hm]. apply Rmult_le_pos; auto.
      destruct (Classical_Prop.classic (f = BinomialF)) as [->|Hb].
      * left. apply binomial_unit_deviance_nonneg; auto.
      * apply unit_deviance_nonneg; auto.
    + intros o' [<-|[]]. auto.
    + intros p -> Hp o' [<-|[]]. destruct (Rle_lt_dec 0 (oy o)); auto. exfalso. apply Hc. eauto.
Qed.

(** ** C09 log-likelihood gap *)

Lemma lsumf_saturate g l : lsumf g (saturate l) = lsumf (fun o => g (mkobs (oy o) (ow o) (oy o))) l.
Proof. unfold saturate. apply lsumf_map. Qed.

Lemma normal_ll_gap phi l : 0 < phi ->
  2 * phi * (normal_ll phi (saturate l) - normal_ll phi l) = normal_deviance l.
Proof.
  intros Hphi. unfold normal_ll, normal_deviance. rewrite !lsumf_saturate. simpl.
  rewrite (lsumf_zero _ (fun o => - (ow o * ((oy o - oy o) * ((oy o - oy o) * 1)))))
    by (intros; ring).
  rewrite (lsumf_ext _ (fun o => - (ow o * ((oy o - omu o) * ((oy o - omu o) * 1))))
     (fun o => (-1) * (ow o * ((oy o - omu o) * ((oy o - omu o) * 1))))) by (intros; ring).
  rewrite lsumf_scal. field. lra.
Qed.
Lemma poisson_ll_gap lg l : (forall o, In o l -> 0 <= oy o /\ 0 < omu o) ->
  2 * (poisson_ll lg (saturate l) - poisson_ll lg l) = poisson_deviance l.
Proof.
  intros Hr. unfold poisson_ll, poisson_deviance. rewrite lsumf_saturate. simpl.
  rewrite <- lsumf_minus. f_equal. apply lsumf_ext. intros o Hi. destruct (Hr o Hi).
  destruct (Rlt_dec 0 (oy o)); [ring|]. replace (oy o) with 0 by lra. ring.
Qed.
Lemma gamma_ll_gap lg phi l : 0 < phi -> (forall o, In o l -> 0 < oy o /\ 0 < omu o) ->
  2 * phi * (gamma_ll lg phi (saturate l) - gamma_ll lg phi l) = gamma_deviance l.
Proof.
  intros Hphi Hr. unfold gamma_ll, gamma_deviance. cbv zeta. rewrite !lsumf_saturate. simpl.
  change (lsumf (fun o : obs => ow o) l) with (lsumf ow l).
  match goal with |- 2 * phi * (?a - ?b - (?c - ?d)) = _ =>
    replace (2 * phi * (a - b - (c - d))) with (2 * (phi * (a - c))) by ring end.
  rewrite <- lsumf_minus, <- lsumf_scal. f_equal. apply lsumf_ext. intros o Hi. destruct (Hr o Hi).
  field. lra.
Qed.
Lemma inv_gaussian_ll_gap phi l : 0 < phi -> (forall o, In o l -> 0 < oy o /\ 0 < omu o) ->
  2 * phi * (inv_gaussian_ll phi (saturate l) - inv_gaussian_ll phi l) = inv_gaussian_deviance l.
Proof.
  intros Hphi Hr. unfold inv_gaussian_ll, inv_gaussian_deviance. cbv zeta. rewrite !lsumf_saturate. simpl.
  change (lsumf (fun o : obs => ow o) l) with (lsumf ow l).
  match goal with |- 2 * phi * (?a + ?b - (?c + ?d)) = _ =>
    replace (2 * phi * (a + b - (c + d))) with (2 * phi * (a - c)) by ring end.
  rewrite <- lsumf_minus, <- lsumf_scal. apply lsumf_ext. intros o Hi. destruct (Hr o Hi).
  field. lra.
Qed.
Lemma tweedie_ll_gap tn p phi l : 0 < phi -> 1 < p < 2 -> (forall o, In o l -> 0 <= oy o /\ 0 < omu o) ->
  2 * phi * (tweedie_ll tn p phi (saturate l) - tweedie_ll tn p phi l) = tweedie_deviance p l.
Proof.
  intros Hphi Hp Hr. unfold tweedie_ll, tweedie_deviance. rewrite lsumf_saturate. cbn [oy ow omu].
  rewrite <- lsumf_minus, <- !lsumf_scal. apply lsumf_ext. intros o Hi. destruct (Hr o Hi) as [Hy Hm].
  unfold tweedie_unit_ll, npow. destruct (Req_EM_T (oy o) 0) as [E|E].
  - rewrite E. destruct (Req_EM_T (2 - p) 0); [lra|]. destruct (Rlt_dec 0 0); [lra|].
    destruct (Req_EM_T (omu o) 0); [lra|]. cbv zeta.
    replace (Rpower (omu o) (2 - p)) with (omu o * Rpower (omu o) (1 - p))
      by (rewrite Rpower_succ by auto; f_equal; ring).
    destruct (Req_EM_T 0 0); [|lra]. field. split; lra.
  - destruct (Rlt_dec 0 (oy o)); [|lra]. cbv zeta. field. repeat split; lra.
Qed.
Lemma negbin_ll_gap lg theta l : 0 < theta -> (forall o, In o l -> 0 < oy o /\ 0 < omu o) ->
  2 * (negative_binomial_ll lg theta (saturate l) - negative_binomial_ll lg theta l)
  = negative_binomial_deviance theta l.
Proof.
  intros Hth Hr. unfold negative_binomial_ll, negative_binomial_deviance. cbv zeta.
  rewrite lsumf_saturate. cbn [oy ow omu]. rewrite <- lsumf_minus. f_equal. apply lsumf_ext.
  intros o Hi. destruct (Hr o Hi) as [Hy Hm]. destruct (Rlt_dec 0 (oy o)); [|lra].
  assert (Hi2 : 0 < 1 / theta) by (apply Rdiv_lt_0_compat; lra).
  assert (A : forall m, 0 < m -> ln (1 + theta * m) = ln theta + ln (m + 1 / theta)).
  { intros m Hmm. rewrite <- ln_mult by lra. f_equal. field. lra. }
  rewrite !A by lra. rewrite !ln_mult by lra. rewrite !ln_div by lra. ring.
Qed.
Lemma binomial_ll_gap l : (forall o, In o l -> (oy o = 0 \/ oy o = 1) /\ 0 < omu o < 1) ->
  2 * (binomial_ll (saturate l) - binomial_ll l) = deviance BinomialF l.
Proof.
  intros Hr. unfold binomial_ll, deviance. rewrite lsumf_saturate. cbn [oy ow omu].
  rewrite <- lsumf_minus, <- lsumf_scal. apply lsumf_ext. intros o Hi.
  destruct (Hr o Hi) as [[E|E] Hm]; unfold unit_deviance; rewrite !xlogy_eq, E.
  - rewrite Rminus_0_r, ln_1. ring.
  - replace (1 - 1) with 0 by ring. rewrite ln_1. ring.
Qed.

(** ** C10 gradient rows *)
Lemma exp_expit_sum eta : exp eta + 2 + exp (- eta) = / (expit eta * (1 - expit eta)).
Proof.
  unfold expit. rewrite exp_Ropp. assert (0 < exp eta) by apply exp_pos. field. lra.
Qed.

Lemma one_over_variance_eq f lk eta phi w : family_ok f ->
  mean_range f (raw_inverse lk eta) -> phi <> 0 ->
  one_over_variance f lk (raw_inverse lk eta) eta phi w = w / (unit_variance f (raw_inverse lk eta) * phi).
Proof.
  intros Hf Hm Hphi. unfold one_over_variance.
  destruct f; try reflexivity. destruct lk; try reflexivity.
  simpl. rewrite exp_expit_sum. assert (H := expit_bounds eta). field. lra.
Qed.

Lemma generic_rows_eq f lk y w eta : family_ok f -> mean_range f (raw_inverse lk eta) ->
  let mu := raw_inverse lk eta in
  generic_rows f lk y w eta mu =
    (w * (y - mu) * inverse_derivative lk eta / unit_variance f mu,
     w * inverse_derivative lk eta ^ 2 / unit_variance f mu).
Proof.
  intros Hf Hm mu. unfold generic_rows. unfold mu. rewrite one_over_variance_eq by (auto; lra).
  assert (H := unit_variance_pos f _ Hf Hm). f_equal; field; lra.
Qed.

Lemma Rpower_1mp mu p : 0 < mu -> Rpower mu (1 - p) = mu / Rpower mu p.
Proof. intros. unfold Rminus. rewrite Rpower_plus, Rpower_1, Rpower_Ropp by auto. reflexivity. Qed.

Lemma gradient_row_eq f lk y w eta : family_ok f -> mean_range f (raw_inverse lk eta) ->
  let mu := raw_inverse lk eta in
  gradient_row f lk y w eta mu = w * (y - mu) * inverse_derivative lk eta / unit_variance f mu.
Proof.
  intros Hf Hm mu. assert (G := generic_rows_eq f lk y w eta Hf Hm). cbv zeta in G.
  assert (Hv := unit_variance_pos f _ Hf Hm).
  unfold gradient_row. fold mu in G, Hv |- *.
  assert (GG : fst (generic_rows f lk y w eta mu) = w * (y - mu) * inverse_derivative lk eta / unit_variance f mu)
    by (rewrite G; reflexivity).
  assert (He : 0 < exp eta) by apply exp_pos.
  destruct f as [p| | | | | | |th]; destruct lk as [q| | | |]; unfold rowwise; auto; simpl in *; unfold mu in *; clear mu.
  - destruct (Req_EM_T p 0) as [->|]; [|auto]. simpl. rewrite Rpower_exp_0. field.
  - destruct (Req_EM_T p 1) as [->|]. { simpl. rewrite Rpower_1 by auto. field. lra. }
    destruct (Req_EM_T p 2) as [->|]. { simpl. rewrite Rpower_2 by auto. field. lra. }
    destruct (Rlt_dec 1 p); [|auto]. destruct (Rlt_dec p 2).
    { simpl. rewrite Rpower_1mp by auto. field. lra. }
    destruct (Req_EM_T p 3) as [->|]; [|auto]. simpl. rewrite Rpower_3 by auto. field. lra.
  - simpl. field.
  - simpl. field. lra.
  - simpl. field. lra.
  - simpl. field. lra.
  - simpl. assert (H := expit_bounds eta). field. lra.
  - simpl. assert (0 < th * exp eta) by (apply Rmult_lt_0_compat; auto). field. lra.
Qed.

Lemma gradient_row_is_derive f lk y w eta :
  family_ok f -> support f y -> lin_domain lk eta -> mean_range f (raw_inverse lk eta) ->
  is_derive (fun e => - (1 / 2) * (w * unit_deviance f y (raw_inverse lk e))) eta
    (gradient_row f lk y w eta (raw_inverse lk eta)).
Proof.
  intros Hf Hy Hl Hm. rewrite gradient_row_eq by auto.
  eapply dR_eq.
  - apply dR_scal. apply dR_scal. apply (dR_comp (unit_deviance f y) (raw_inverse lk)).
    + apply unit_deviance_is_derive; auto.
    + apply is_derive_inverse; auto.
  - unfold unit_deviance_derivative. field. apply Rgt_not_eq. apply unit_variance_pos; auto.
Qed.

(** ** C11 Hessian rows *)
Lemma hessian_row_fisher f lk y w eta : family_ok f -> mean_range f (raw_inverse lk eta) ->
  ~ (exact_hessian_pair f lk) \/ canonical_pair f lk ->
  hessian_row f lk y w eta (raw_inverse lk eta) = fisher_weight f lk w eta.
Proof.
  intros Hf Hm Hc. assert (G := generic_rows_eq f lk y w eta Hf Hm). cbv zeta in G.
  assert (GG : snd (generic_rows f lk y w eta (raw_inverse lk eta)) = fisher_weight f lk w eta)
    by (rewrite G; reflexivity).
  assert (Hv := unit_variance_pos f _ Hf Hm).
  assert (He : 0 < exp eta) by apply exp_pos.
  unfold hessian_row, fisher_weight in *.
  destruct f as [p| | | | | | |th]; destruct lk as [q| | | |]; unfold rowwise; auto; simpl in *.
  - destruct (Req_EM_T p 0) as [->|]; [|auto]. simpl. rewrite Rpower_exp_0. field.
  - destruct (Req_EM_T p 1) as [->|]. { simpl. rewrite Rpower_1 by auto. field. lra. }
    destruct (Req_EM_T p 2) as [->|]. { exfalso. lra. }
    destruct (Rlt_dec 1 p); [|auto]. destruct (Rlt_dec p 2). { exfalso. lra. }
    destruct (Req_EM_T p 3) as [->|]; [|auto]. simpl. rewrite Rpower_3 by auto. field. lra.
  - simpl. field.
  - simpl. field. lra.
  - exfalso. tauto.
  - simpl. field. lra.
  - simpl. assert (H := expit_bounds eta). field. lra.
  - simpl. assert (0 < th * exp eta) by (apply Rmult_lt_0_compat; auto). field. lra.
Qed.

Lemma fisher_weight_nonneg f lk w eta : family_ok f -> mean_range f (raw_inverse lk eta) -> 0 <= w ->
  0 <= fisher_weight f lk w eta.
Proof.
  intros Hf Hm Hw. unfold fisher_weight. assert (H := unit_variance_pos f _ Hf Hm).
  apply Rmult_le_pos; [|left; apply Rinv_0_lt_compat; auto].
  apply Rmult_le_pos; auto. apply pow2_ge_0.
Qed.

Lemma hessian_row_nonneg f lk y w eta :
  family_ok f -> support f y -> mean_range f (raw_inverse lk eta) -> 0 <= w ->
  0 <= hessian_row f lk y w eta (raw_inverse lk eta).
Proof.
  intros Hf Hy Hm Hw.
  destruct (Classical_Prop.classic (~ exact_hessian_pair f lk \/ canonical_pair f lk)) as [Hc|Hc].
  - rewrite hessian_row_fisher by auto. apply fisher_weight_nonneg; auto.
  - assert (He : exact_hessian_pair f lk /\ ~ canonical_pair f lk) by tauto.
    destruct He as [He Hnc]. assert (Hexp : 0 < exp eta) by apply exp_pos.
    destruct f as [p| | | | | | |th]; destruct lk as [q| | | |]; simpl in He, Hnc; try tauto;
      unfold hessian_row, rowwise; simpl in *.
    + destruct (Req_EM_T p 1); [lra|]. destruct Hy as [Hy1 Hy2].
      destruct (Req_EM_T p 2) as [->|].
      { simpl. assert (0 < y) by (apply Hy2; lra). apply Rmult_le_pos; auto.
        left. apply Rdiv_lt_0_compat; lra. }
      destruct (Rlt_dec 1 p); [|lra]. destruct (Rlt_dec p 2); [|lra]. simpl.
      assert (0 <= y) by (apply Hy1; lra).
      apply Rmult_le_pos.
      * apply Rmult_le_pos; auto. left; apply Rpower_pos.
      * assert (0 <= (p - 1) * y) by (apply Rmult_le_pos; lra).
        assert (0 <= (2 - p) * exp eta) by (apply Rmult_le_pos; lra). lra.
    + simpl. apply Rmult_le_pos; auto. left. apply Rdiv_lt_0_compat; lra.
Qed.

Lemma Rpower_exp a b : Rpower (exp a) b = exp (b * a).
Proof. unfold Rpower. rewrite ln_exp. reflexivity. Qed.

Lemma hessian_row_is_derive f lk y w eta : exact_hessian_pair f lk ->
  is_derive (fun e => gradient_row f lk y w e (raw_inverse lk e)) eta
    (- hessian_row f lk y w eta (raw_inverse lk eta)).
Proof.
  intros He.
  destruct f as [p| | | | | | |th]; destruct lk as [q| | | |]; simpl in He; try tauto;
    unfold gradient_row, hessian_row, rowwise.
  - subst p. destruct (Req_EM_T 0 0); [|lra]. simpl. auto_derive; auto. ring.
  - destruct (Req_EM_T p 1). { simpl. auto_derive; auto. ring. }
    destruct (Req_EM_T p 2). { simpl. assert (H : 0 < exp eta) by apply exp_pos.
      auto_derive; [lra|]. field. lra. }
    destruct (Rlt_dec 1 p); [|lra]. destruct (Rlt_dec p 2); [|lra]. simpl.
    apply (dR_ext (fun e => w * exp ((1 - p) * e) * (y - exp e))).
    { intros. rewrite Rpower_exp. reflexivity. }
    rewrite Rpower_exp. auto_derive; auto. ring.
  - simpl. auto_derive; auto. ring.
  - simpl. auto_derive; auto. ring.
  - simpl. assert (H : 0 < exp eta) by apply exp_pos. auto_derive; [lra|]. field. lra.
  - simpl. eapply dR_eq.
    + apply dR_scal. apply dR_minus; [apply dR_const|apply expit_deriv].
    + ring.
Qed.
