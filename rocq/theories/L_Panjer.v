(** Moments of the discrete families: distributions with (k+1) P_(k+1) = (b + q k) P_k. *)
From Coq Require Import Psatz.
From Coquelicot Require Import Coquelicot.
From Verif Require Import Base S_Gamma L_Gamma L_Tweedie.
Local Open Scope R_scope.

Lemma is_series_ext_R (f g : nat -> R) l : (forall n, f n = g n) -> is_series f l -> is_series g l.
Proof. intros H. apply is_series_ext. exact H. Qed.
Lemma bounded_series (T : nat -> R) B : (forall k, 0 <= T k) -> (forall n, rsum n T <= B) -> ex_series T.
Proof.
  intros H0 HB. assert (E : ex_finite_lim_seq (sum_n T)).
  { apply ex_finite_lim_seq_incr with B.
    - intros n. rewrite !rsum_sum_n. cbn [rsum]. pose proof (H0 (S n)). lra.
    - intros n. rewrite rsum_sum_n. apply HB. }
  destruct E as [l E]. exists l. exact E.
Qed.
Lemma rsum_le_series (T : nat -> R) (l : R) n : (forall k, 0 <= T k) -> is_series T l -> rsum n T <= l.
Proof.
  intros H0 HS. destruct n as [|n].
  - cbn. assert (Q : forall n, 0 <= sum_n T n) by (intros n; rewrite rsum_sum_n; apply rsum_nonneg; intros; apply H0).
    apply (is_lim_seq_le (fun _ => 0) (sum_n T) 0 l Q (is_lim_seq_const 0) HS).
  - rewrite <- rsum_sum_n. apply (is_lim_seq_incr_compare (sum_n T) l HS).
    intros k. rewrite !rsum_sum_n. cbn [rsum]. pose proof (H0 (S k)). lra.
Qed.
Lemma rec_series (T : nat -> R) C q : (forall k, 0 <= T k) -> 0 <= q < 1 -> 0 <= C -> T O = 0 ->
  (forall n, rsum n (fun k => T (S k)) <= C + q * rsum n T) -> ex_series T.
Proof.
  intros H0 Hq HC HT HR. apply (bounded_series T (C / (1 - q)) H0).
  assert (P : 0 <= C / (1 - q)) by (apply Rdiv_le_0_compat; lra).
  induction n as [|n IH]; [exact P|]. rewrite rsum_S_l, HT, Rplus_0_l. specialize (HR n).
  apply Rle_trans with (C + q * (C / (1 - q))); [nra|]. right. field. lra.
Qed.
(** shifting a series by one *)
Lemma series_shift (T : nat -> R) (l : R) : T O = 0 -> is_series (fun k => T (S k)) l -> is_series T l.
Proof.
  intros H0 HS. apply (is_series_decr_1 T l). rewrite H0. 
  match goal with |- is_series _ ?x => replace x with l; [exact HS|] end. unfold plus, opp; cbn. ring.
Qed.

Section Panjer.
Variables (P : nat -> R) (b q : R).
Hypothesis P0 : forall k, 0 <= P k.
Hypothesis PS : is_series P 1.
Hypothesis Hb : 0 <= b.
Hypothesis Hq : 0 <= q < 1.
Hypothesis HR : forall k, (INR k + 1) * P (S k) = (b + q * INR k) * P k.
Let m := b / (1 - q).

Lemma first_moment : is_series (fun k => INR k * P k) m.
Proof.
  assert (E : ex_series (fun k => INR k * P k)).
  { apply (rec_series _ b q); try lra.
    - intros k. apply Rmult_le_pos; [apply pos_INR|apply P0].
    - cbn. ring.
    - intros n. rewrite (rsum_ext _ _ (fun k => b * P k + q * (INR k * P k))) by (intros k _; rewrite S_INR, HR; ring).
      rewrite rsum_plus, !rsum_scal. pose proof (rsum_le_series P 1 n P0 PS). nra. }
  destruct E as [l E].
  assert (F : is_series (fun k => INR k * P k) (b * 1 + q * l)).
  { apply series_shift; [cbn; ring|]. apply (is_series_ext_R (fun k => b * P k + q * (INR k * P k))).
    - intros k. rewrite S_INR, HR. ring.
    - apply (is_series_plus (fun k => b * P k) (fun k => q * (INR k * P k)) (b * 1) (q * l)).
      + apply (is_series_scal_l b P 1 PS).
      + apply (is_series_scal_l q _ l E). }
  assert (EQ : l = b * 1 + q * l) by (exact (eq_trans (eq_sym (is_series_unique _ _ E)) (is_series_unique _ _ F))).
  replace m with l; [exact E|]. unfold m. apply Rmult_eq_reg_r with (1 - q); [|lra]. unfold Rdiv. rewrite Rmult_assoc, Rinv_l by lra. lra.
Qed.
Lemma second_moment : is_series (fun k => INR k ^ 2 * P k) (m ^ 2 + m / (1 - q)).
Proof.
  pose proof first_moment as M1.
  assert (K0 : forall k, 0 <= INR k * P k) by (intros k; apply Rmult_le_pos; [apply pos_INR|apply P0]).
  assert (M0 : 0 <= m) by (unfold m; apply Rdiv_le_0_compat; lra).
  assert (ST : forall k, INR (S k) ^ 2 * P (S k) = b * P k + (b + q) * (INR k * P k) + q * (INR k ^ 2 * P k)).
  { intros k. rewrite S_INR. replace ((INR k + 1) ^ 2 * P (S k)) with ((INR k + 1) * ((INR k + 1) * P (S k))) by ring. rewrite HR. ring. }
  assert (E : ex_series (fun k => INR k ^ 2 * P k)).
  { apply (rec_series _ (b + (b + q) * m) q); try lra.
    - intros k. apply Rmult_le_pos; [apply pow2_ge_0|apply P0].
    - assert (0 <= (b + q) * m) by (apply Rmult_le_pos; lra). lra.
    - cbn. ring.
    - intros n. rewrite (rsum_ext _ _ (fun k => (b * P k + (b + q) * (INR k * P k)) + q * (INR k ^ 2 * P k))) by (intros k _; apply ST).
      rewrite !rsum_plus, !rsum_scal. pose proof (rsum_le_series P 1 n P0 PS). pose proof (rsum_le_series _ m n K0 M1).
      assert (b * rsum n P <= b * 1) by (apply Rmult_le_compat_l; lra).
      assert ((b + q) * rsum n (fun i => INR i * P i) <= (b + q) * m) by (apply Rmult_le_compat_l; lra). lra. }
  destruct E as [l E].
  assert (F : is_series (fun k => INR k ^ 2 * P k) (b * 1 + (b + q) * m + q * l)).
  { apply series_shift; [cbn; ring|]. apply (is_series_ext_R (fun k => (b * P k + (b + q) * (INR k * P k)) + q * (INR k ^ 2 * P k))); [intros k; symmetry; apply ST|].
    apply (is_series_plus (fun k => b * P k + (b + q) * (INR k * P k)) (fun k => q * (INR k ^ 2 * P k)) (b * 1 + (b + q) * m) (q * l)).
    - apply (is_series_plus (fun k => b * P k) (fun k => (b + q) * (INR k * P k)) (b * 1) ((b + q) * m)); [apply (is_series_scal_l b P 1 PS)|apply (is_series_scal_l (b + q) _ m M1)].
    - apply (is_series_scal_l q _ l E). }
  assert (EQ : l = b * 1 + (b + q) * m + q * l) by (exact (eq_trans (eq_sym (is_series_unique _ _ E)) (is_series_unique _ _ F))).
  replace (m ^ 2 + m / (1 - q)) with l; [exact E|]. apply Rmult_eq_reg_r with (1 - q); [|lra].
  replace ((m ^ 2 + m / (1 - q)) * (1 - q)) with (m * (m * (1 - q)) + m) by (field; lra).
  assert (MM : m * (1 - q) = b) by (unfold m; field; lra). rewrite MM. assert (b = m - q * m) by lra. lra.
Qed.
Lemma variance_sum : is_series (fun k => (INR k - m) ^ 2 * P k) (m / (1 - q)).
Proof.
  replace (m / (1 - q)) with ((m ^ 2 + m / (1 - q)) + ((-2 * m) * m + m ^ 2 * 1)) by ring.
  apply (is_series_ext_R (fun k => INR k ^ 2 * P k + ((-2 * m) * (INR k * P k) + m ^ 2 * P k))); [intros; ring|].
  apply (is_series_plus (fun k => INR k ^ 2 * P k) (fun k => (-2 * m) * (INR k * P k) + m ^ 2 * P k)); [exact second_moment|].
  apply (is_series_plus (fun k => (-2 * m) * (INR k * P k)) (fun k => m ^ 2 * P k)).
  - apply (is_series_scal_l (-2 * m) _ m first_moment).
  - apply (is_series_scal_l (m ^ 2) _ 1 PS).
Qed.
End Panjer.

(** The negative binomial series. *)
Section NB.
Variables (lg : R -> R) (r : R).
Hypothesis LG : is_lgamma lg.
Hypothesis Hr : 0 < r.
Definition nbc (lg : R -> R) (r : R) (k : nat) : R := exp (lg (INR k + r) - lg r - lg (INR k + 1)).
Local Notation c := (nbc lg r).
Lemma nbc_pos k : 0 < c k.
Proof. apply exp_pos. Qed.
Lemma nbc_0 : c O = 1.
Proof. unfold nbc. cbn [INR]. rewrite !Rplus_0_l. destruct LG as [E _]. rewrite E. replace (lg r - lg r - 0) with 0 by ring. apply exp_0. Qed.
Lemma nbc_rec k : (INR k + 1) * c (S k) = (INR k + r) * c k.
Proof.
  unfold nbc. destruct LG as [_ [R2 _]]. pose proof (pos_INR k). rewrite S_INR.
  replace (INR k + 1 + r) with ((INR k + r) + 1) by ring. rewrite !R2 by lra.
  replace (lg (INR k + r) + ln (INR k + r) - lg r - (lg (INR k + 1) + ln (INR k + 1)))
    with (ln (INR k + r) + (- ln (INR k + 1) + (lg (INR k + r) - lg r - lg (INR k + 1)))) by ring.
  rewrite !exp_plus, exp_Ropp, !exp_ln by lra. field. lra.
Qed.
Lemma nbc_ratio : is_lim_seq (fun n => Rabs (c (S n) / c n)) 1.
Proof.
  apply (is_lim_seq_ext (fun n => 1 + (r - 1) * / (INR n + 1))).
  - intros n. pose proof (pos_INR n). pose proof (nbc_pos n). pose proof (nbc_pos (S n)). pose proof (nbc_rec n).
    rewrite Rabs_pos_eq by (apply Rlt_le, Rdiv_lt_0_compat; lra).
    apply Rmult_eq_reg_r with ((INR n + 1) * c n); [|apply Rmult_integral_contrapositive; split; lra].
    replace (c (S n) / c n * ((INR n + 1) * c n)) with ((INR n + 1) * c (S n)) by (field; lra). rewrite H2. field. lra.
  - replace (Finite 1) with (Finite (1 + (r - 1) * 0)) by (f_equal; ring).
    apply is_lim_seq_plus'; [apply is_lim_seq_const|]. apply is_lim_seq_mult'; [apply is_lim_seq_const|].
    replace (Finite 0) with (Rbar_inv p_infty) by reflexivity. apply is_lim_seq_inv; [|discriminate].
    apply (is_lim_seq_plus INR (fun _ => 1) p_infty 1); [apply is_lim_seq_INR|apply is_lim_seq_const|reflexivity].
Qed.
Lemma nbc_radius : CV_radius c = Finite 1.
Proof.
  rewrite (CV_radius_finite_DAlembert c 1).
  - f_equal. apply Rinv_1.
  - intros n. pose proof (nbc_pos n). lra.
  - lra.
  - exact nbc_ratio.
Qed.
Lemma in_radius x : -1 < x < 1 -> Rbar_lt (Rabs x) (CV_radius c).
Proof. intros H. rewrite nbc_radius. cbn. apply Rabs_def1; lra. Qed.
Lemma nbc_ode x : -1 < x < 1 -> (1 - x) * PSeries (PS_derive c) x = r * PSeries c x.
Proof.
  intros H. pose proof (in_radius x H) as RD.
  assert (E0 : ex_pseries c x) by (apply CV_radius_inside; exact RD).
  assert (E1 : ex_pseries (PS_derive c) x) by (apply CV_radius_inside; rewrite CV_radius_derive; exact RD).
  rewrite Rmult_minus_distr_r, Rmult_1_l. rewrite <- (PSeries_incr_1 (PS_derive c) x). rewrite <- (PSeries_scal r c x).
  rewrite <- PSeries_minus; [|exact E1|apply ex_pseries_incr_1; exact E1].
  apply PSeries_ext. intros n. unfold PS_minus, PS_scal, PS_plus, PS_opp, PS_derive, PS_incr_1. 
  destruct n as [|n].
  - pose proof (nbc_rec 0) as Q. cbn [INR] in *. unfold scal, plus, opp, zero; cbn. unfold mult; cbn. rewrite !Rplus_0_l in Q. lra.
  - pose proof (nbc_rec (S n)) as Q. change (plus (INR (S (S n)) * c (S (S n))) (opp (INR (S n) * c (S n))) = scal r (c (S n))) || idtac.
    unfold scal, plus, opp; cbn -[INR]. unfold mult; cbn -[INR]. rewrite (S_INR (S n)). lra.
Qed.
Lemma nbc_sum x : 0 <= x < 1 -> PSeries c x * Rpower (1 - x) r = 1.
Proof.
  intros H. set (g := fun t => PSeries c t * Rpower (1 - t) r).
  assert (D : forall t, -1 < t < 1 -> is_derive g t 0).
  { intros t Ht. pose proof (is_derive_PSeries c t (in_radius t Ht)) as D1.
    assert (D2 : is_derive (fun t => Rpower (1 - t) r) t (r * Rpower (1 - t) (r - 1) * (0 - 1))).
    { apply (dR_comp (fun z => Rpower z r) (fun t => 1 - t)); [apply is_derive_Rpower; lra|].
      apply dR_minus; [apply dR_const|apply dR_id]. }
    eapply dR_eq; [apply (dR_mult _ _ _ _ _ D1 D2)|].
    assert (RP : Rpower (1 - t) r = (1 - t) * Rpower (1 - t) (r - 1)).
    { replace r with (1 + (r - 1)) at 1 by ring. rewrite Rpower_plus, Rpower_1 by lra. reflexivity. }
    rewrite RP. transitivity (Rpower (1 - t) (r - 1) * ((1 - t) * PSeries (PS_derive c) t - r * PSeries c t)); [ring|rewrite (nbc_ode t Ht); ring]. }
  assert (E : g x = g 0).
  { destruct (Req_dec x 0) as [X|X]; [rewrite X; reflexivity|].
    destruct (mvt g (fun _ => 0) 0 x) as [z [Q _]]; [lra|intros t Ht; apply D; lra|]. lra. }
  unfold g in E. rewrite E, PSeries_0, nbc_0, Rminus_0_r. unfold Rpower. rewrite ln_1, Rmult_0_r, exp_0. ring.
Qed.
End NB.
