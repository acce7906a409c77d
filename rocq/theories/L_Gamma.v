(** A function satisfying the specification of log-gamma exists, and basic consequences. *)
From Coq Require Import Reals Lra Lia Psatz.
From Coquelicot Require Import Coquelicot.
From Verif Require Import S_Gamma.
Local Open Scope R_scope.

(** consequences *)
Lemma lg_fact lg n : is_lgamma lg -> lg (1 + INR n) = ln (INR (fact n)).
Proof.
  intros [H1 [H2 _]]. induction n as [|n IH].
  - cbn. rewrite Rplus_0_r, ln_1. exact H1.
  - rewrite S_INR. replace (1 + (INR n + 1)) with ((1 + INR n) + 1) by ring.
    pose proof (pos_INR n). rewrite H2 by lra. rewrite IH.
    change (fact (S n)) with (S n * fact n)%nat. rewrite mult_INR, ln_mult.
    + rewrite S_INR. rewrite (Rplus_comm (INR n) 1). ring.
    + rewrite S_INR; lra.
    + apply lt_0_INR, lt_O_fact.
Qed.
Lemma lg_two lg : is_lgamma lg -> lg 2 = 0.
Proof. intros [H1 [H2 _]]. replace 2 with (1 + 1) by ring. rewrite H2, H1, ln_1 by lra. ring. Qed.
Lemma lg_ge lg x : is_lgamma lg -> 2 <= x -> 0 <= lg x.
Proof.
  intros H Hx. pose proof (lg_two lg H) as E2. destruct H as [H1 [_ H3]].
  assert (T : 0 < / (x - 1) <= 1).
  { split; [apply Rinv_0_lt_compat; lra|]. rewrite <- Rinv_1. apply Rinv_le_contravar; lra. }
  pose proof (H3 x 1 (/ (x - 1)) ltac:(lra) ltac:(lra) ltac:(lra)) as Q.
  replace (/ (x - 1) * x + (1 - / (x - 1)) * 1) with 2 in Q by (field; lra).
  rewrite E2, H1 in Q. replace (/ (x - 1) * lg x + (1 - / (x - 1)) * 0) with (/ (x - 1) * lg x) in Q by ring.
  destruct (Rle_dec 0 (lg x)) as [L|L]; [exact L|]. exfalso.
  assert (/ (x - 1) * lg x < 0); [|lra]. rewrite <- (Rmult_0_r (/ (x - 1))). apply Rmult_lt_compat_l; lra.
Qed.

(** existence: ln Gamma x = - ln x + sum_k (x ln (1+1/k) - ln (1+x/k)) *)
Definition gk (x : R) (n : nat) : R := x * ln (1 + / (INR n + 1)) - ln (1 + x / (INR n + 1)).

Lemma ln1p_bounds t : 0 <= t -> t - t ^ 2 <= ln (1 + t) <= t.
Proof.
  intros H. split.
  - assert (Q : ln (/ (1 + t)) <= / (1 + t) - 1).
    { pose proof (exp_ineq1_le (ln (/ (1 + t)))) as E. rewrite exp_ln in E by (apply Rinv_0_lt_compat; lra). lra. }
    rewrite ln_Rinv in Q by lra.
    assert (1 - / (1 + t) >= t - t ^ 2); [|lra].
    apply Rle_ge. apply Rmult_le_reg_r with (1 + t); [lra|]. replace ((1 - / (1 + t)) * (1 + t)) with t by (field; lra). nra.
  - pose proof (exp_ineq1_le (ln (1 + t))) as E. rewrite exp_ln in E by lra. lra.
Qed.

Definition ksq (n : nat) : R := / (INR n + 1) ^ 2.
Lemma ksq_sum n : sum_n ksq n <= 2 - / (INR n + 1).
Proof.
  induction n as [|n IH].
  - rewrite sum_O. unfold ksq. cbn. lra.
  - rewrite sum_Sn. change (plus (sum_n ksq n) (ksq (S n))) with (sum_n ksq n + ksq (S n)). unfold ksq at 2. rewrite !S_INR. pose proof (pos_INR n) as Pn.
    assert (/ (INR n + 1 + 1) ^ 2 <= / (INR n + 1) - / (INR n + 1 + 1)); [|lra].
    apply Rmult_le_reg_r with ((INR n + 1 + 1) ^ 2); [apply pow_lt; lra|]. rewrite Rinv_l by (apply pow_nonzero; lra).
    replace ((/ (INR n + 1) - / (INR n + 1 + 1)) * (INR n + 1 + 1) ^ 2) with ((INR n + 1 + 1) / (INR n + 1)) by (field; lra).
    apply Rmult_le_reg_r with (INR n + 1); [lra|]. unfold Rdiv. rewrite Rmult_assoc, Rinv_l by lra. lra.
Qed.
Lemma ksq_ex : ex_series ksq.
Proof.
  assert (E : ex_finite_lim_seq (sum_n ksq)).
  { apply ex_finite_lim_seq_incr with 2.
    - intros n. rewrite sum_Sn. change (plus (sum_n ksq n) (ksq (S n))) with (sum_n ksq n + ksq (S n)). pose proof (pos_INR (S n)). unfold ksq.
      assert (0 < / (INR (S n) + 1) ^ 2) by (apply Rinv_0_lt_compat, pow_lt; lra). lra.
    - intros n. pose proof (ksq_sum n). pose proof (pos_INR n). assert (0 < / (INR n + 1)) by (apply Rinv_0_lt_compat; lra). lra. }
  destruct E as [l E]. exists l. exact E.
Qed.
Lemma gk_bound x n : 0 <= x -> Rabs (gk x n) <= (x + x ^ 2) * ksq n.
Proof.
  intros H. pose proof (pos_INR n) as P. unfold gk, ksq.
  assert (I : 0 < / (INR n + 1)) by (apply Rinv_0_lt_compat; lra).
  destruct (ln1p_bounds (/ (INR n + 1)) ltac:(lra)) as [A B].
  assert (X : 0 <= x / (INR n + 1)) by (apply Rmult_le_pos; lra).
  destruct (ln1p_bounds (x / (INR n + 1)) X) as [C D].
  replace (/ (INR n + 1) ^ 2) with ((/ (INR n + 1)) ^ 2) by (rewrite pow_inv by lra; reflexivity || (field; lra)).
  unfold Rdiv in *. set (k := / (INR n + 1)) in *. apply Rabs_le.
  assert (x * ln (1 + k) <= x * k) by (apply Rmult_le_compat_l; lra).
  assert (x * (k - k ^ 2) <= x * ln (1 + k)) by (apply Rmult_le_compat_l; lra).
  assert (0 <= k ^ 2) by nra. assert (0 <= x ^ 2 * k ^ 2) by nra. assert (0 <= x * k ^ 2) by nra. nra.
Qed.
Lemma gk_ex x : 0 <= x -> ex_series (gk x).
Proof.
  intros H. apply (ex_series_le (gk x) (fun n => (x + x ^ 2) * ksq n)).
  - intros n. apply (gk_bound x n H).
  - apply (ex_series_scal_l (x + x ^ 2) ksq), ksq_ex.
Qed.

Lemma series_zero : Series (fun _ => 0) = 0.
Proof.
  apply is_series_unique. apply (is_lim_seq_ext (fun _ => 0) (sum_n (fun _ => 0)) 0); [|apply is_lim_seq_const].
  intros n. rewrite sum_n_const. ring.
Qed.
Definition lgam (x : R) : R := - ln x + Series (gk x).

Lemma lgam_one : lgam 1 = 0.
Proof.
  unfold lgam. rewrite ln_1, (Series_ext (gk 1) (fun _ => 0)).
  - rewrite series_zero. ring.
  - intros n. unfold gk, Rdiv. rewrite !Rmult_1_l. ring.
Qed.

Lemma tele x N : 0 < x -> sum_n (fun n => gk (x + 1) n - gk x n) N = ln (INR N + 2) - ln (INR N + 2 + x) + ln (1 + x).
Proof.
  intros H. induction N as [|N IH].
  - rewrite sum_O. unfold gk. cbn. replace (0 + 1) with 1 by ring. unfold Rdiv. rewrite Rinv_1, !Rmult_1_r.
    replace (1 + (x + 1)) with (0 + 2 + x) by ring. replace (1 + 1) with (0 + 2) by ring. match goal with |- ?a = ?c => change (@eq R a c) end. ring.
  - rewrite sum_Sn, IH. match goal with |- plus ?a ?b = ?c => change (@eq R (a + b) c) end. unfold gk. rewrite S_INR. pose proof (pos_INR N).
    replace (1 + / (INR N + 1 + 1)) with ((INR N + 1 + 2) / (INR N + 2)) by (field; lra).
    replace (1 + (x + 1) / (INR N + 1 + 1)) with ((INR N + 1 + 2 + x) / (INR N + 2)) by (field; lra).
    replace (1 + x / (INR N + 1 + 1)) with ((INR N + 2 + x) / (INR N + 2)) by (field; lra).
    rewrite !ln_div by lra. ring.
Qed.
Lemma lim_tele x : 0 < x -> is_lim_seq (fun N => ln (INR N + 2) - ln (INR N + 2 + x) + ln (1 + x)) (ln (1 + x)).
Proof.
  intros H.
  apply is_lim_seq_ext with (fun N => ln (1 + x) + - ln (1 + x * / (INR N + 2))).
  { intros N. pose proof (pos_INR N). replace (1 + x * / (INR N + 2)) with ((INR N + 2 + x) / (INR N + 2)) by (field; lra). rewrite ln_div by lra. ring. }
  replace (Finite (ln (1 + x))) with (Rbar_plus (ln (1 + x)) (Rbar_opp (ln (1 + x * 0)))) by (cbn; rewrite Rmult_0_r, Rplus_0_r, ln_1; f_equal; ring).
  apply is_lim_seq_plus'; [apply is_lim_seq_const|]. apply (is_lim_seq_opp _ (Finite (ln (1 + x * 0)))).
  apply (is_lim_seq_continuous ln).
  - rewrite Rmult_0_r, Rplus_0_r. apply derivable_continuous_pt, ex_derive_Reals_0. exists (/ 1). apply is_derive_ln. lra.
  - apply is_lim_seq_plus'; [apply is_lim_seq_const|].
    apply is_lim_seq_mult'; [apply is_lim_seq_const|].
    apply is_lim_seq_ext with (fun N => / (INR N + 2)); [reflexivity|].
    replace (Finite 0) with (Rbar_inv p_infty) by reflexivity. apply is_lim_seq_inv; [|discriminate].
    apply (is_lim_seq_plus INR (fun _ => 2) p_infty 2); [apply is_lim_seq_INR|apply is_lim_seq_const|reflexivity].
Qed.
Lemma lgam_rec x : 0 < x -> lgam (x + 1) = lgam x + ln x.
Proof.
  intros H. unfold lgam.
  assert (E : Series (fun n => gk (x + 1) n - gk x n) = ln (1 + x)).
  { apply is_series_unique. apply (is_lim_seq_ext (fun N => ln (INR N + 2) - ln (INR N + 2 + x) + ln (1 + x)) (sum_n (fun n => gk (x + 1) n - gk x n)) (ln (1 + x))).
    - intros N. symmetry. apply tele. exact H.
    - apply lim_tele. exact H. }
  rewrite Series_minus in E by (apply gk_ex; lra). rewrite (Rplus_comm x 1) in *. lra.
Qed.

Lemma ln_concave x y t : 0 < x -> 0 < y -> 0 <= t <= 1 -> t * ln x + (1 - t) * ln y <= ln (t * x + (1 - t) * y).
Proof.
  intros Hx Hy Ht. set (m := t * x + (1 - t) * y).
  assert (M : 0 < m).
  { unfold m. destruct (Rle_lt_dec t 0) as [L|L]; [replace t with 0 by lra; lra|].
    assert (0 < t * x) by (apply Rmult_lt_0_compat; lra). assert (0 <= (1 - t) * y) by (apply Rmult_le_pos; lra). lra. }
  assert (T : forall z, 0 < z -> ln z <= ln m + (z - m) / m).
  { intros z Hz. assert (Q : ln (z / m) <= z / m - 1).
    { pose proof (exp_ineq1_le (ln (z / m))) as E. rewrite exp_ln in E by (apply Rdiv_lt_0_compat; lra). lra. }
    rewrite ln_div in Q by lra. replace ((z - m) / m) with (z / m - 1) by (field; lra). lra. }
  pose proof (T x Hx) as Tx. pose proof (T y Hy) as Ty.
  assert (t * ln x <= t * (ln m + (x - m) / m)) by (apply Rmult_le_compat_l; lra).
  assert ((1 - t) * ln y <= (1 - t) * (ln m + (y - m) / m)) by (apply Rmult_le_compat_l; lra).
  assert (t * (ln m + (x - m) / m) + (1 - t) * (ln m + (y - m) / m) = ln m); [|lra].
  replace (t * (ln m + (x - m) / m) + (1 - t) * (ln m + (y - m) / m)) with (ln m + (t * x + (1 - t) * y - m) / m) by (field; lra).
  fold m. unfold Rdiv. ring.
Qed.
Lemma gk_convex x y t n : 0 < x -> 0 < y -> 0 <= t <= 1 -> gk (t * x + (1 - t) * y) n <= t * gk x n + (1 - t) * gk y n.
Proof.
  intros Hx Hy Ht. pose proof (pos_INR n). unfold gk.
  assert (Px : 0 < x / (INR n + 1)) by (apply Rdiv_lt_0_compat; lra). assert (Py : 0 < y / (INR n + 1)) by (apply Rdiv_lt_0_compat; lra).
  pose proof (ln_concave (1 + x / (INR n + 1)) (1 + y / (INR n + 1)) t ltac:(lra) ltac:(lra) Ht) as Q.
  replace (t * (1 + x / (INR n + 1)) + (1 - t) * (1 + y / (INR n + 1))) with (1 + (t * x + (1 - t) * y) / (INR n + 1)) in Q by (field; lra).
  lra.
Qed.
Lemma lgam_spec : is_lgamma lgam.
Proof.
  split; [exact lgam_one|]. split; [exact lgam_rec|]. intros x y t Hx Hy Ht. unfold lgam.
  pose proof (ln_concave x y t Hx Hy Ht) as L.
  assert (Hm : 0 <= t * x + (1 - t) * y).
  { assert (0 <= t * x) by (apply Rmult_le_pos; lra). assert (0 <= (1 - t) * y) by (apply Rmult_le_pos; lra). lra. }
  pose proof (gk_ex x ltac:(lra)) as Ex. pose proof (gk_ex y ltac:(lra)) as Ey. pose proof (gk_ex _ Hm) as Em.
  assert (S1 : Series (fun n => t * gk x n + (1 - t) * gk y n) = t * Series (gk x) + (1 - t) * Series (gk y)).
  { rewrite Series_plus; [|apply (ex_series_scal_l t (gk x)), Ex|apply (ex_series_scal_l (1 - t) (gk y)), Ey]. rewrite !Series_scal_l. reflexivity. }
  assert (0 <= Series (fun n => (t * gk x n + (1 - t) * gk y n) - gk (t * x + (1 - t) * y) n)).
  { rewrite <- series_zero. apply Series_le.
    - intros n. pose proof (gk_convex x y t n Hx Hy Ht). lra.
    - apply (ex_series_minus (fun n => t * gk x n + (1 - t) * gk y n) (gk (t * x + (1 - t) * y))); [|exact Em]. apply (ex_series_plus (fun n => t * gk x n) (fun n => (1 - t) * gk y n)); [apply (ex_series_scal_l t (gk x)), Ex|apply (ex_series_scal_l (1 - t) (gk y)), Ey]. }
  rewrite Series_minus in H; [lra| |exact Em].
  apply (ex_series_plus (fun n => t * gk x n) (fun n => (1 - t) * gk y n)); [apply (ex_series_scal_l t (gk x)), Ex|apply (ex_series_scal_l (1 - t) (gk y)), Ey].
Qed.
