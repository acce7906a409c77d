From Verif Require Import Base M_Link S_Link L_Link M_Dist S_Dist.

(** ** Range of y *)
Lemma in_y_range_iff f y : family_ok f -> in_y_range f y = true <-> support f y.
Proof.
  unfold in_y_range. destruct f as [p| | | | | | |th]; simpl; intros Hf;
    rewrite ?andb_true_r, ?andb_true_iff, ?Rleb_true, ?Rltb_true; try tauto; try lra.
  destruct (Rle_dec p 0) as [Hp|Hp]; simpl.
  - split; intros; auto. split; intros; lra.
  - destruct (Rlt_dec p 2) as [Hp2|Hp2]; rewrite ?andb_true_r, ?Rleb_true, ?Rltb_true; split; intros.
    + split; intros; lra.
    + apply H. lra.
    + split; intros; lra.
    + apply H. lra.
Qed.

(** ** Variance functions *)
Lemma unit_variance_pos f mu : family_ok f -> mean_range f mu -> 0 < unit_variance f mu.
Proof.
  destruct f as [p| | | | | | |th]; simpl; intros Hf Hm.
  - apply Rpower_pos.
  - lra.
  - lra.
  - nra.
  - rewrite Rmult_1_r. apply Rmult_lt_0_compat; [|apply Rmult_lt_0_compat]; lra.
  - nra.
  - nra.
  - rewrite Rmult_1_r. assert (0 < th * (mu * mu)); [|lra].
    apply Rmult_lt_0_compat; [|apply Rmult_lt_0_compat]; lra.
Qed.

Lemma Rpower_exp_0 x : Rpower x 0 = 1.
Proof. unfold Rpower. rewrite Rmult_0_l. apply exp_0. Qed.

Lemma unit_variance_is_derive f mu : mean_range f mu ->
  is_derive (unit_variance f) mu (unit_variance_derivative f mu).
Proof.
  destruct f as [p| | | | | | |th]; unfold mean_range, unit_variance, unit_variance_derivative; intros Hm.
  - destruct (Req_dec p 0) as [->|Hp].
    + rewrite Rmult_0_l. apply (dR_ext (fun _ => 1)); [|apply dR_const].
      intros t. rewrite Rpower_exp_0. reflexivity.
    + apply is_derive_Rpower. auto.
  - apply dR_const.
  - apply dR_id.
  - auto_derive; auto. ring.
  - auto_derive; auto. ring.
  - auto_derive; auto. ring.
  - auto_derive; auto. ring.
  - auto_derive; auto. ring.
Qed.

(** ** Unit deviance: derivative *)
Lemma xlogy_eq x y : xlogy x y = x * ln y.
Proof. unfold xlogy. destruct (Req_EM_T x 0) as [->|]; lra. Qed.

Lemma Rpower_succ mu a : 0 < mu -> mu * Rpower mu a = Rpower mu (a + 1).
Proof. intros. rewrite Rpower_plus, Rpower_1; auto. ring. Qed.

Lemma poisson_ud_derive y mu : 0 <= y -> 0 < mu ->
  is_derive (fun m => 2 * (xlogy y (y / m) - y + m)) mu (- 2 * (y - mu) / mu).
Proof.
  intros Hy Hm. destruct (Req_dec y 0) as [->|Hy0].
  - apply (dR_ext (fun m => 2 * m)). { intros. rewrite xlogy_eq. ring. }
    auto_derive; auto. field. lra.
  - apply (dR_ext (fun m => 2 * (y * ln (y / m) - y + m))).
    { intros. rewrite xlogy_eq. reflexivity. }
    auto_derive.
    + repeat split; try lra. apply Rdiv_lt_0_compat; lra.
    + field. split; lra.
Qed.

Lemma gamma_ud_derive y mu : 0 < y -> 0 < mu ->
  is_derive (fun m => 2 * (ln (m / y) + y / m - 1)) mu (- 2 * (y - mu) / mu ^ 2).
Proof.
  intros Hy Hm. auto_derive.
  - repeat split; try lra. apply Rdiv_lt_0_compat; lra.
  - field. split; lra.
Qed.

Lemma ig_ud_derive y mu : 0 < y -> 0 < mu ->
  is_derive (fun m => (y / m - 1) ^ 2 / y) mu (- 2 * (y - mu) / mu ^ 3).
Proof.
  intros Hy Hm. auto_derive.
  - repeat split; try lra.
  - field. lra.
Qed.

Lemma tweedie_ud_derive p c y mu : p <> 1 -> p <> 2 -> 0 < mu ->
  is_derive (fun m => 2 * (c - y * Rpower m (1 - p) / (1 - p) + m * Rpower m (1 - p) / (2 - p)))
    mu (- 2 * (y - mu) / Rpower mu p).
Proof.
  intros H1 H2 Hm.
  apply (dR_ext_loc (fun m => 2 * (c - y * Rpower m (1 - p) / (1 - p) + Rpower m (2 - p) / (2 - p)))).
  { eapply filter_imp; [|apply (locally_gt mu 0); auto]. cbv beta. intros m Hmm.
    rewrite Rpower_succ by auto. replace (1 - p + 1) with (2 - p) by ring. reflexivity. }
  eapply dR_eq.
  - apply dR_scal. apply dR_plus.
    + apply dR_minus; [apply dR_const|].
      apply (dR_scal_r (fun m => y * Rpower m (1 - p)) (/ (1 - p))).
      apply dR_scal. apply is_derive_Rpower; auto.
    + apply (dR_scal_r (fun m => Rpower m (2 - p)) (/ (2 - p))). apply is_derive_Rpower; auto.
  - replace (1 - p - 1) with (- p) by ring. replace (2 - p - 1) with (- p + 1) by ring.
    rewrite <- Rpower_succ by auto. rewrite Rpower_Ropp.
    assert (0 < Rpower mu p) by apply Rpower_pos. field. repeat split; lra.
Qed.

Lemma unit_deviance_is_derive f y mu :
  family_ok f -> support f y -> mean_range f mu ->
  is_derive (unit_deviance f y) mu (unit_deviance_derivative f y mu).
Proof.
  destruct f as [p| | | | | | |th];
    unfold unit_deviance, unit_deviance_derivative, unit_variance, mean_range, support, family_ok; intros Hf Hy Hm.
  - destruct (Req_EM_T p 0) as [->|H0].
    { rewrite Rpower_exp_0. auto_derive; auto. field. }
    specialize (Hm H0). destruct Hy as [Hy1 Hy2].
    destruct (Req_EM_T p 1) as [->|H1].
    { rewrite Rpower_1 by auto. apply poisson_ud_derive; auto. apply Hy1. lra. }
    destruct (Req_EM_T p 2) as [->|H2].
    { rewrite Rpower_2 by auto. replace (mu * mu) with (mu ^ 2) by ring. apply gamma_ud_derive; auto.
      apply Hy2; lra. }
    destruct (Req_EM_T p 3) as [->|H3].
    { rewrite Rpower_3 by auto. replace (mu * mu * mu) with (mu ^ 3) by ring. apply ig_ud_derive; auto.
      apply Hy2; lra. }
    cbv zeta. apply tweedie_ud_derive; auto.
  - auto_derive; auto. field.
  - apply poisson_ud_derive; auto.
  - apply gamma_ud_derive; auto.
  - apply (dR_ext_loc (fun m => (y / m - 1) ^ 2 / y)); [|apply ig_ud_derive; auto].
    eapply filter_imp; [|apply (locally_gt mu 0); auto]. cbv beta. intros m Hmm. field. lra.
  - assert (0 < 1 + y * y) by nra. assert (0 < 1 + mu * mu) by nra.
    assert (Hat : is_derive atan mu (/ (1 + mu ^ 2))).
    { eapply dR_eq; [apply is_derive_atan|]. unfold Rsqr. f_equal. ring. }
    eapply dR_eq.
    + apply dR_plus.
      * apply (dR_scal (fun m => atan y - atan m) (2 * y)).
        apply dR_minus; [apply dR_const|exact Hat].
      * instantiate (1 := 2 * mu / (1 + mu ^ 2)). auto_derive.
        -- apply Rdiv_lt_0_compat; simpl; rewrite ?Rmult_1_r; lra.
        -- field. simpl; rewrite ?Rmult_1_r; split; lra.
    + field. simpl; rewrite ?Rmult_1_r; lra.
  - apply (dR_ext (fun m => - 2 * (y * ln m + (1 - y) * ln (1 - m)))).
    { intros. rewrite !xlogy_eq. reflexivity. }
    auto_derive; [repeat split; lra|]. field. lra.
  - cbv zeta.
    assert (Hr : 0 < 1 / th) by (apply Rdiv_lt_0_compat; lra).
    assert (E : mu + th * mu ^ 2 = th * (mu * (mu + 1 / th))) by (field; lra).
    rewrite E.
    set (r := 1 / th) in *.
    assert (Eth : th = / r) by (unfold r; field; lra). rewrite Eth. clearbody r.
    destruct (Req_dec y 0) as [->|Hy0].
    + apply (dR_ext (fun m => 2 * (0 - (0 + r) * ln ((0 + r) / (m + r))))).
      { intros. rewrite xlogy_eq. ring. }
      auto_derive.
      * repeat split; try lra. apply Rdiv_lt_0_compat; lra.
      * field. repeat split; lra.
    + apply (dR_ext (fun m => 2 * (y * ln (y / m) - (y + r) * ln ((y + r) / (m + r))))).
      { intros. rewrite xlogy_eq. reflexivity. }
      auto_derive.
      * repeat split; try lra; apply Rdiv_lt_0_compat; lra.
      * field. repeat split; lra.
Qed.

(** ** Non-negativity *)
(** A function whose derivative has the sign of (m - y) is minimal at y. *)
Lemma bregman_min (g g' v : R -> R) y mu :
  (forall m, Rmin y mu <= m <= Rmax y mu -> is_derive g m (g' m)) ->
  (forall m, Rmin y mu <= m <= Rmax y mu -> 0 < v m /\ g' m = - 2 * (y - m) / v m) ->
  g y <= g mu /\ (g mu = g y -> y = mu).
Proof.
  intros Hd Hv. destruct (Rtotal_order y mu) as [Hlt|[Heq|Hgt]].
  - rewrite Rmin_left, Rmax_right in * by lra.
    assert (g y < g mu).
    { apply (derive_pos_strict g g'); auto. intros m Hm.
      destruct (Hv m ltac:(lra)) as [Hp ->]. apply Rdiv_lt_0_compat; lra. }
    split; lra.
  - subst. split; [lra|auto].
  - rewrite Rmin_right, Rmax_left in * by lra.
    assert (g y < g mu).
    { apply (derive_neg_strict g g'); auto. intros m Hm.
      destruct (Hv m ltac:(lra)) as [Hp ->].
      assert (0 < 2 * (y - m) / v m) by (apply Rdiv_lt_0_compat; lra).
      replace (-2 * (y - m) / v m) with (- (2 * (y - m) / v m)) by (field; lra). lra. }
    split; lra.
Qed.

Lemma ln_div_self x : x <> 0 -> ln (x / x) = 0.
Proof. intros. unfold Rdiv. rewrite Rinv_r by auto. apply ln_1. Qed.

Lemma unit_deviance_self f y : family_ok f -> f <> BinomialF -> support f y -> mean_range f y ->
  unit_deviance f y y = 0.
Proof.
  destruct f as [p| | | | | | |th]; unfold unit_deviance, mean_range, support, family_ok; intros Hf Hb Hy Hm.
  - destruct (Req_EM_T p 0) as [->|H0]; [ring|]. specialize (Hm H0).
    destruct (Req_EM_T p 1) as [->|H1]. { rewrite xlogy_eq, ln_div_self by lra. ring. }
    destruct (Req_EM_T p 2) as [->|H2]. { rewrite ln_div_self by lra. field. lra. }
    destruct (Req_EM_T p 3) as [->|H3]. { field. lra. }
    cbv zeta. unfold npow. rewrite Rmax_left by lra.
    destruct (Req_EM_T y 0); [lra|].
    replace (2 - p) with (1 - p + 1) at 1 by ring. rewrite <- Rpower_succ by auto. field.
    split; lra.
  - ring.
  - rewrite xlogy_eq, ln_div_self by lra. ring.
  - rewrite ln_div_self by lra. field. lra.
  - field. lra.
  - rewrite ln_div_self; [ring|]. simpl. nra.
  - congruence.
  - cbv zeta. assert (0 < 1 / th) by (apply Rdiv_lt_0_compat; lra).
    rewrite xlogy_eq, !ln_div_self by lra. ring.
Qed.

Lemma mean_range_interval f y mu m :
  mean_range f y -> mean_range f mu -> Rmin y mu <= m <= Rmax y mu -> mean_range f m.
Proof.
  intros Hy Hm Hb.
  assert (Hb' : (y <= m <= mu) \/ (mu <= m <= y)).
  { unfold Rmin, Rmax in Hb. destruct (Rle_dec y mu); lra. }
  destruct f as [p| | | | | | |th]; simpl in *; auto; try (intros Hp; specialize (Hy Hp); specialize (Hm Hp)); lra.
Qed.

(** Cases where y is a boundary value of the mean range. *)
Lemma unit_deviance_boundary f y mu : family_ok f -> f <> BinomialF -> support f y -> ~ mean_range f y ->
  mean_range f mu -> 0 < unit_deviance f y mu.
Proof.
  destruct f as [p| | | | | | |th]; unfold unit_deviance, mean_range, support, family_ok; intros Hf Hb Hy Hny Hm;
    try (exfalso; tauto).
  - destruct (Req_EM_T p 0) as [->|H0]; [exfalso; apply Hny; intros; lra|].
    specialize (Hm H0). assert (Hy0 : y <= 0).
    { destruct (Rle_dec y 0); auto. exfalso. apply Hny. intros; lra. }
    destruct Hy as [Hy1 Hy2].
    destruct (Req_EM_T p 1) as [->|H1].
    { assert (y = 0) by (assert (0 <= y) by (apply Hy1; lra); lra). subst. rewrite xlogy_eq. lra. }
    assert (Hp2 : p < 2). { destruct (Rlt_dec p 2); auto. exfalso. assert (0 < y) by (apply Hy2; lra). lra. }
    destruct (Req_EM_T p 2) as [->|H2]; [lra|].
    destruct (Req_EM_T p 3) as [->|H3]; [lra|].
    cbv zeta. unfold npow. rewrite Rmax_right by lra.
    destruct (Req_EM_T 0 0); [|congruence]. destruct (Req_EM_T (2 - p) 0); [lra|].
    assert (Hpw : 0 < Rpower mu (1 - p)) by apply Rpower_pos.
    assert (0 < mu * Rpower mu (1 - p) / (2 - p)).
    { apply Rdiv_lt_0_compat; [apply Rmult_lt_0_compat; lra|lra]. }
    assert (0 <= - (y * Rpower mu (1 - p) / (1 - p))).
    { destruct Hf as [Hf|Hf].
      - replace (- (y * Rpower mu (1 - p) / (1 - p))) with ((- y) * (Rpower mu (1 - p) / (1 - p))) by (field; lra).
        apply Rmult_le_pos; [lra|]. left. apply Rdiv_lt_0_compat; lra.
      - assert (y = 0) by (assert (0 <= y) by (apply Hy1; lra); lra). subst y.
        unfold Rdiv. rewrite !Rmult_0_l. lra. }
    replace (0 / ((1 - p) * (2 - p))) with 0 by (field; split; lra). lra.
  - assert (y = 0) by lra. subst. rewrite xlogy_eq. lra.
  - assert (y = 0) by lra. subst. rewrite xlogy_eq. cbv zeta.
    assert (Hr : 0 < 1 / th) by (apply Rdiv_lt_0_compat; lra).
    set (r := 1 / th) in *. clearbody r. rewrite Rplus_0_l.
    assert (ln (r / (mu + r)) < 0).
    { rewrite <- ln_1. apply ln_increasing; [apply Rdiv_lt_0_compat; lra|].
      apply Rmult_lt_reg_r with (mu + r); [lra|]. field_simplify; lra. }
    nra.
Qed.

Lemma unit_deviance_nonneg f y mu : family_ok f -> f <> BinomialF -> support f y -> mean_range f mu ->
  0 <= unit_deviance f y mu /\ (unit_deviance f y mu = 0 <-> y = mu).
Proof.
  intros Hf Hb Hy Hm.
  assert (Hdec : mean_range f y \/ ~ mean_range f y) by apply Classical_Prop.classic.
  destruct Hdec as [Hmy|Hmy].
  - destruct (bregman_min (unit_deviance f y) (unit_deviance_derivative f y) (unit_variance f) y mu) as [H1 H2].
    + intros m Hmm. apply unit_deviance_is_derive; auto. apply (mean_range_interval f y mu); auto.
    + intros m Hmm. split; [|reflexivity]. apply unit_variance_pos; auto. apply (mean_range_interval f y mu); auto.
    + rewrite unit_deviance_self in * by auto. split; auto. split; auto.
      intros <-. apply unit_deviance_self; auto.
  - assert (H := unit_deviance_boundary f y mu Hf Hb Hy Hmy Hm). split; [lra|]. split; [lra|].
    intros <-. contradiction.
Qed.

Lemma binomial_unit_deviance_nonneg y mu : 0 <= y <= 1 -> 0 < mu < 1 -> 0 < unit_deviance BinomialF y mu.
Proof.
  intros Hy Hm. unfold unit_deviance. rewrite !xlogy_eq.
  assert (ln mu < 0) by (rewrite <- ln_1; apply ln_increasing; lra).
  assert (ln (1 - mu) < 0) by (rewrite <- ln_1; apply ln_increasing; lra).
  destruct (Req_dec y 0) as [->|]; [nra|]. destruct (Req_dec y 1) as [->|]; nra.
Qed.

(** The binomial unit deviance (twice a cross entropy) is minimal at mu = y, but not zero there. *)
Lemma binomial_unit_deviance_min y mu : 0 < y < 1 -> 0 < mu < 1 ->
  unit_deviance BinomialF y y <= unit_deviance BinomialF y mu /\
  (unit_deviance BinomialF y mu = unit_deviance BinomialF y y -> y = mu).
Proof.
  intros Hy Hm.
  apply (bregman_min (unit_deviance BinomialF y) (unit_deviance_derivative BinomialF y) (unit_variance BinomialF) y mu).
  - intros m Hmm. apply unit_deviance_is_derive; simpl; try lra; try exact I.
    unfold Rmin, Rmax in Hmm. destruct (Rle_dec y mu); lra.
  - intros m Hmm. split; [|reflexivity]. simpl.
    unfold Rmin, Rmax in Hmm. destruct (Rle_dec y mu); nra.
Qed.
