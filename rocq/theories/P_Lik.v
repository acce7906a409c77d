(** C66: log_likelihood is the log of the density of the named distribution, with mean mu and variance
    dispersion * unit_variance(mu). *)
From Coq Require Import Psatz.
From Coquelicot Require Import Coquelicot.
From Verif Require Import Base M_Link M_Dist S_Dist S_Gamma L_Gamma L_Tweedie L_Panjer S_Lik.
Local Open Scope R_scope.

Lemma fd_pos lg f phi mu y d : is_lgamma lg -> 0 < phi -> family_ok f -> mean_range f mu -> family_density lg f phi mu y d -> 0 < d.
Proof.
  intros LG HP HF HM HD. destruct f; cbn in *; try tauto.
  - subst d. unfold normal_pdf. apply Rdiv_lt_0_compat; [apply exp_pos|]. apply sqrt_lt_R0. pose proof PI_RGT_0. apply Rmult_lt_0_compat; lra.
  - destruct HD as [k [_ ->]]. unfold poisson_pmf. apply Rdiv_lt_0_compat; [|apply lt_0_INR, lt_O_fact]. apply Rmult_lt_0_compat; [apply exp_pos|apply pow_lt; lra].
  - destruct HD as [Hy ->]. unfold gamma_pdf. apply Rdiv_lt_0_compat; apply Rmult_lt_0_compat; try apply exp_pos; apply Rpower_pos.
  - destruct HD as [Hy ->]. unfold inv_gauss_pdf. apply Rmult_lt_0_compat; [|apply exp_pos]. apply sqrt_lt_R0. apply Rdiv_lt_0_compat; [apply Rinv_0_lt_compat; lra|].
    pose proof PI_RGT_0. apply Rmult_lt_0_compat; [lra|apply pow_lt; lra].
  - destruct HD as [Hy ->]. unfold bernoulli_pmf. destruct (Req_EM_T y 1); lra.
  - destruct HD as [k [_ ->]]. assert (0 < theta * mu) by (apply Rmult_lt_0_compat; lra). unfold negbin_pmf.
    apply Rmult_lt_0_compat; [apply Rmult_lt_0_compat; [apply Rdiv_lt_0_compat; [apply exp_pos|apply Rmult_lt_0_compat; [apply exp_pos|apply lt_0_INR, lt_O_fact]]|apply Rpower_pos]|].
    apply pow_lt. assert (/ (1 + theta * mu) < 1); [|lra]. rewrite <- Rinv_1. apply Rinv_lt_contravar; lra.
Qed.
Lemma ln_sqrt x : 0 < x -> ln (sqrt x) = ln x / 2.
Proof.
  intros H. assert (S0 : 0 < sqrt x) by (apply sqrt_lt_R0; exact H). rewrite <- (sqrt_sqrt x) at 2 by lra. rewrite ln_mult by exact S0. lra.
Qed.
Lemma ln_pow_nat x k : 0 < x -> ln (x ^ k) = INR k * ln x.
Proof. intros H. rewrite <- Rpower_pow by exact H. apply ln_Rpower. Qed.

(** the contribution of one row *)
Lemma unit_loglik lg tw f phi mu y w d : is_lgamma lg -> 0 < phi -> family_ok f -> mean_range f mu -> family_density lg f phi mu y d ->
  forall l ll, log_likelihood lg tw f phi l = Some ll -> log_likelihood lg tw f phi (mkobs y w mu :: l) = Some (w * ln d + ll).
Proof.
  intros LG HP HF HM HD l ll. pose proof (fd_pos _ _ _ _ _ _ LG HP HF HM HD) as DP.
  destruct f; cbn [family_density mean_range family_ok] in *; try tauto; cbn [log_likelihood]; intros E; injection E as <-; f_equal.
  - subst d. unfold normal_ll, normal_pdf. rewrite !lsumf_cons. cbn [oy omu ow].
    assert (P : 0 < 2 * PI * phi) by (pose proof PI_RGT_0; apply Rmult_lt_0_compat; lra).
    rewrite ln_div by (apply exp_pos || (apply sqrt_lt_R0; exact P)). rewrite ln_exp, ln_sqrt by exact P. field. lra.
  - destruct HD as [k [-> ->]]. unfold poisson_ll, poisson_pmf. rewrite lsumf_cons. cbn [oy omu ow].
    assert (F : 0 < INR (fact k)) by (apply lt_0_INR, lt_O_fact). assert (M : 0 < mu ^ k) by (apply pow_lt; lra).
    rewrite ln_div, ln_mult by (try apply Rmult_lt_0_compat; (exact F || exact M || apply exp_pos)). rewrite ln_exp, ln_pow_nat by lra.
    destruct k as [|k].
    + cbn [INR]. destruct (Rlt_dec 0 0); [lra|]. change (fact 0) with 1%nat. change (INR 1) with 1. rewrite ln_1. ring.
    + destruct (Rlt_dec 0 (INR (S k))) as [L|L]; [|exfalso; apply L, lt_0_INR; lia]. rewrite (lg_fact lg (S k) LG). ring.
  - destruct HD as [Hy ->]. unfold gamma_ll, gamma_pdf. rewrite !lsumf_cons. cbn [oy omu ow].
    assert (S0 : 0 < mu * phi) by (apply Rmult_lt_0_compat; lra).
    rewrite ln_div by (apply Rmult_lt_0_compat; (apply exp_pos || apply Rpower_pos)). rewrite !ln_mult by (apply exp_pos || apply Rpower_pos).
    rewrite !ln_Rpower, !ln_exp, ln_mult by lra. replace (1 / phi) with (/ phi) by (field; lra).
    set (k := / phi). replace (- y / (mu * phi)) with (- k * (y / mu)) by (unfold k; field; lra). ring.
  - destruct HD as [Hy ->]. unfold inv_gaussian_ll, inv_gauss_pdf. cbv zeta. rewrite !lsumf_cons. cbn [oy omu ow].
    pose proof PI_RGT_0 as PP. assert (Y3 : 0 < y ^ 3) by (apply pow_lt; exact Hy).
    assert (A : 0 < / phi / (2 * PI * y ^ 3)) by (apply Rdiv_lt_0_compat; [apply Rinv_0_lt_compat; lra|apply Rmult_lt_0_compat; lra]).
    rewrite ln_mult by (apply exp_pos || (apply sqrt_lt_R0; exact A)). rewrite ln_exp, ln_sqrt by exact A.
    replace (/ phi / (2 * PI * y ^ 3)) with (1 / (2 * phi) / PI / y ^ 3) by (field; repeat split; lra).
    rewrite (ln_div (1 / (2 * phi) / PI)); [|apply Rdiv_lt_0_compat; [apply Rdiv_lt_0_compat; lra|lra]|exact Y3].
    rewrite ln_pow_nat by exact Hy. cbn [INR].
    replace (- / phi * (y - mu) ^ 2 / (2 * mu ^ 2 * y)) with (- (1 / (2 * phi) * (y / mu - 1) ^ 2 / y)) by (field; lra). lra.
  - destruct HD as [Hy ->]. unfold binomial_ll. rewrite lsumf_cons. cbn [oy omu ow]. unfold bernoulli_pmf, xlogy.
    destruct Hy as [->| ->].
    + destruct (Req_EM_T 0 1); [lra|]. destruct (Req_EM_T 0 0); [|lra]. destruct (Req_EM_T (1 - 0) 0); [lra|]. ring.
    + destruct (Req_EM_T 1 1); [|lra]. destruct (Req_EM_T 1 0); [lra|]. destruct (Req_EM_T (1 - 1) 0); [|lra]. ring.
  - destruct HD as [k [-> ->]]. unfold negative_binomial_ll, negbin_pmf. cbv zeta. rewrite lsumf_cons. cbn [oy omu ow].
    assert (T : 0 < theta * mu) by (apply Rmult_lt_0_compat; lra). assert (F : 0 < INR (fact k)) by (apply lt_0_INR, lt_O_fact).
    replace (1 - / (1 + theta * mu)) with (theta * mu * / (1 + theta * mu)) by (field; lra).
    assert (Q : 0 < theta * mu * / (1 + theta * mu)) by (apply Rmult_lt_0_compat; [lra|apply Rinv_0_lt_compat; lra]).
    assert (D1 : 0 < exp (lg (INR k + / theta)) / (exp (lg (/ theta)) * INR (fact k))) by (apply Rdiv_lt_0_compat; [apply exp_pos|apply Rmult_lt_0_compat; [apply exp_pos|exact F]]).
    rewrite (ln_mult (_ * Rpower _ _) (_ ^ k)); [|apply Rmult_lt_0_compat; [exact D1|apply Rpower_pos]|apply pow_lt; exact Q].
    rewrite (ln_mult (_ / _) (Rpower _ _)); [|exact D1|apply Rpower_pos]. rewrite ln_div; [|apply exp_pos|apply Rmult_lt_0_compat; [apply exp_pos|exact F]].
    rewrite (ln_mult (exp (lg (/ theta)))) by (apply exp_pos || exact F). rewrite !ln_exp, ln_Rpower, (ln_pow_nat (theta * mu * _)) by exact Q.
    rewrite (ln_mult (theta * mu) (/ _)); [|lra|apply Rinv_0_lt_compat; lra]. rewrite !ln_Rinv by lra.
    rewrite <- (lg_fact lg k LG). rewrite (Rplus_comm 1 (INR k)). replace (1 / theta) with (/ theta) by (field; lra). ring.
Qed.

(** For every data set, the value is the weighted sum of the log densities. *)
Theorem C66_loglik : forall lg tw f phi rows, is_lgamma lg -> 0 < phi -> family_ok f ->
  (forall o d, In (o, d) rows -> mean_range f (omu o) /\ family_density lg f phi (omu o) (oy o) d) ->
  match f with NormalF | PoissonF | GammaF | InvGaussF | BinomialF | NegBinF _ => True | _ => False end ->
  log_likelihood lg tw f phi (map fst rows) = Some (lsumf (fun od => ow (fst od) * ln (snd od)) rows).
Proof.
  intros lg tw f phi rows LG HP HF HR HS. induction rows as [|[o d] rows IH].
  - rewrite lsumf_nil. destruct f; try tauto; cbn; f_equal; unfold normal_ll, poisson_ll, gamma_ll, inv_gaussian_ll, binomial_ll, negative_binomial_ll; rewrite ?lsumf_nil; cbv zeta; rewrite ?lsumf_nil; unfold Rdiv; ring.
  - rewrite lsumf_cons. cbn [map fst snd]. destruct (HR o d (or_introl eq_refl)) as [A B]. destruct o as [y w mu].
    apply (unit_loglik lg tw f phi mu y w d LG HP HF A B). apply IH. intros o' d' H. apply HR. right. exact H.
Qed.
Print Assumptions C66_loglik.

(** The method answers for every family but the generalised hyperbolic secant and the Tweedie powers above 2 other than 3. *)
Theorem C66_defined : forall lg tw f phi l,
  (exists ll, log_likelihood lg tw f phi l = Some ll) <->
  match f with GHSF => False | TweedieF p => p <= 2 \/ p = 3 | _ => True end.
Proof.
  intros lg tw f phi l. destruct f; cbn [log_likelihood]; try (split; [intros _; exact I|intros _; eexists; reflexivity]).
  - repeat match goal with |- context [if ?c then _ else _] => destruct c end; split; intros H; try (eexists; reflexivity); try lra.
    destruct H as [ll H]; discriminate.
  - split; [intros [ll H]; discriminate|tauto].
Qed.
Print Assumptions C66_defined.

(** The masses add up to one, have mean mu and variance unit_variance(mu). *)
Theorem C66_poisson_moments : forall mu, 0 < mu ->
  is_series (poisson_pmf mu) 1 /\ is_series (fun k => INR k * poisson_pmf mu k) mu /\
  is_series (fun k => (INR k - mu) ^ 2 * poisson_pmf mu k) (unit_variance PoissonF mu).
Proof.
  intros mu Hm.
  assert (P0 : forall k, 0 <= poisson_pmf mu k).
  { intros k. unfold poisson_pmf. apply Rlt_le, Rdiv_lt_0_compat; [|apply lt_0_INR, lt_O_fact]. apply Rmult_lt_0_compat; [apply exp_pos|apply pow_lt; exact Hm]. }
  assert (S1 : is_series (poisson_pmf mu) 1).
  { pose proof (is_exp_Reals mu) as E. apply is_pseries_R in E.
    replace 1 with (exp (- mu) * exp mu) by (rewrite <- exp_plus, Rplus_opp_l; apply exp_0).
    apply (is_series_ext_R (fun n => exp (- mu) * (/ INR (fact n) * mu ^ n))); [intros n; unfold poisson_pmf, Rdiv; ring|].
    apply (is_series_scal_l (exp (- mu)) _ (exp mu) E). }
  assert (HR : forall k, (INR k + 1) * poisson_pmf mu (S k) = (mu + 0 * INR k) * poisson_pmf mu k).
  { intros k. unfold poisson_pmf. change (fact (S k)) with (S k * fact k)%nat. rewrite mult_INR, S_INR. cbn [pow].
    pose proof (pos_INR k). assert (INR (fact k) <> 0) by apply INR_fact_neq_0. field. split; [exact H0|lra]. }
  assert (M : mu / (1 - 0) = mu) by field.
  pose proof (first_moment (poisson_pmf mu) mu 0 P0 S1 ltac:(lra) ltac:(lra) HR) as F. rewrite M in F.
  pose proof (variance_sum (poisson_pmf mu) mu 0 P0 S1 ltac:(lra) ltac:(lra) HR) as V. rewrite !M in V.
  split; [exact S1|]. split; [exact F|exact V].
Qed.
Print Assumptions C66_poisson_moments.
Theorem C66_negbin_moments : forall lg theta mu, is_lgamma lg -> 0 < theta -> 0 < mu ->
  let P := negbin_pmf lg (/ theta) (/ (1 + theta * mu)) in
  is_series P 1 /\ is_series (fun k => INR k * P k) mu /\ is_series (fun k => (INR k - mu) ^ 2 * P k) (unit_variance (NegBinF theta) mu).
Proof.
  intros lg theta mu LG Ht Hm P. set (r := / theta). assert (Hr : 0 < r) by (apply Rinv_0_lt_compat; lra).
  assert (T : 0 < theta * mu) by (apply Rmult_lt_0_compat; lra). set (pr := / (1 + theta * mu)).
  assert (PR : 0 < pr < 1). { unfold pr. split; [apply Rinv_0_lt_compat; lra|]. rewrite <- Rinv_1. apply Rinv_lt_contravar; lra. }
  assert (EP : forall k, P k = Rpower pr r * (nbc lg r k * (1 - pr) ^ k)).
  { intros k. unfold P, negbin_pmf. fold r. fold pr. unfold nbc. rewrite (Rplus_comm (INR k) 1), (lg_fact lg k LG).
    unfold Rminus at 2 3. rewrite !exp_plus, !exp_Ropp. rewrite exp_ln by (apply lt_0_INR, lt_O_fact).
    assert (INR (fact k) <> 0) by apply INR_fact_neq_0. pose proof (exp_pos (lg r)). field. split; lra. }
  assert (P0 : forall k, 0 <= P k).
  { intros k. rewrite EP. apply Rlt_le, Rmult_lt_0_compat; [apply Rpower_pos|]. apply Rmult_lt_0_compat; [apply nbc_pos|apply pow_lt; lra]. }
  assert (S1 : is_series P 1).
  { pose proof (nbc_sum lg r LG Hr (1 - pr) ltac:(lra)) as E. replace (1 - (1 - pr)) with pr in E by ring.
    replace 1 with (Rpower pr r * PSeries (nbc lg r) (1 - pr)) by lra.
    apply (is_series_ext_R (fun k => Rpower pr r * (nbc lg r k * (1 - pr) ^ k))); [intros k; symmetry; apply EP|].
    apply (is_series_scal_l (Rpower pr r) (fun k => nbc lg r k * (1 - pr) ^ k) (PSeries (nbc lg r) (1 - pr))). apply Series_correct. apply ex_pseries_R. apply CV_radius_inside. apply in_radius; try assumption. lra. }
  set (q := 1 - pr). set (b := r * q).
  assert (HR : forall k, (INR k + 1) * P (S k) = (b + q * INR k) * P k).
  { intros k. rewrite !EP. cbn [pow]. pose proof (nbc_rec lg r LG Hr k) as N. fold q.
    transitivity (Rpower pr r * (((INR k + 1) * nbc lg r (S k)) * (q * q ^ k))); [ring|]. rewrite N. unfold b. ring. }
  assert (B0 : 0 <= b) by (unfold b, q; apply Rmult_le_pos; lra).
  assert (M : b / (1 - q) = mu). { unfold b, q, r. replace (1 - (1 - pr)) with pr by ring. unfold pr. field. lra. }
  assert (V0 : mu / (1 - q) = unit_variance (NegBinF theta) mu). { unfold q. replace (1 - (1 - pr)) with pr by ring. unfold pr. cbn. field. lra. }
  pose proof (first_moment P b q P0 S1 B0 ltac:(unfold q; lra) HR) as F. rewrite M in F.
  pose proof (variance_sum P b q P0 S1 B0 ltac:(unfold q; lra) HR) as V. rewrite !M, V0 in V.
  split; [exact S1|]. split; [exact F|exact V].
Qed.
Print Assumptions C66_negbin_moments.
Theorem C66_binomial_moments : forall mu, 0 < mu < 1 ->
  bernoulli_pmf mu 0 + bernoulli_pmf mu 1 = 1 /\ 0 * bernoulli_pmf mu 0 + 1 * bernoulli_pmf mu 1 = mu /\
  (0 - mu) ^ 2 * bernoulli_pmf mu 0 + (1 - mu) ^ 2 * bernoulli_pmf mu 1 = unit_variance BinomialF mu.
Proof.
  intros mu Hm. unfold bernoulli_pmf. destruct (Req_EM_T 0 1); [lra|]. destruct (Req_EM_T 1 1); [|lra]. cbn. repeat split; ring.
Qed.
Print Assumptions C66_binomial_moments.

Example C66_nonvacuous : is_lgamma lgam /\ family_density lgam (NegBinF 2) 1 3 (INR 4) (negbin_pmf lgam (/ 2) (/ (1 + 2 * 3)) 4)
  /\ family_density lgam GammaF (1/2) 3 5 (gamma_pdf lgam (/ (1/2)) (3 * (1/2)) 5).
Proof. split; [exact lgam_spec|]. split; [exists 4%nat; split; reflexivity|]. cbn. split; [lra|reflexivity]. Qed.
