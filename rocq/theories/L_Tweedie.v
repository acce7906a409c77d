(** Lemmas for C67. *)
From Coq Require Import ZArith Psatz.
From Coquelicot Require Import Coquelicot.
From Verif Require Import Base S_Gamma L_Gamma M_Tweedie S_Tweedie.
Local Open Scope R_scope.

Lemma nat_above x : exists n, x < INR n.
Proof.
  destruct (Rle_lt_dec x 0) as [L|L]; [exists 1%nat; cbn; lra|].
  destruct (archimed x) as [A _]. exists (Z.to_nat (up x)). rewrite INR_IZR_INZ, Z2Nat.id; [lra|].
  apply le_IZR. lra.
Qed.
Section T.
Variables (lg : R -> R) (p phi y : R).
Hypothesis LG : is_lgamma lg.
Hypothesis HP : 1 < p < 2.
Hypothesis HPHI : 0 < phi.
Hypothesis HY : 0 < y.

Let a := ds_a p.
Let jm := ds_mode p phi y.
Definition lw (lg : R -> R) (p phi y : R) (j : R) : R := j * ln (ds_z p phi y) - lg (1 + j) - lg (ds_a p * j).
Local Notation w := (lw lg p phi y).

Lemma a_pos : 0 < a.
Proof. unfold a, ds_a. apply Rdiv_lt_0_compat; lra. Qed.
Lemma alpha_neg : (2 - p) / (1 - p) = - a.
Proof. unfold a, ds_a. field. lra. Qed.
Lemma log_z_eq : log_z y p phi = ln (ds_z p phi y).
Proof.
  unfold log_z. rewrite alpha_neg. unfold ds_z. fold a. rewrite ln_div.
  - rewrite !ln_mult; try (apply Rpower_pos); try lra. rewrite !ln_Rpower. ring.
  - apply Rmult_lt_0_compat; apply Rpower_pos.
  - apply Rmult_lt_0_compat; [apply Rpower_pos|lra].
Qed.
Lemma log_w_eq j : j <> 0 -> log_w_j lg y p phi j = Some (w j).
Proof.
  intros H. unfold log_w_j. rewrite (proj2 (Reqb_false _ _) H). f_equal. unfold lw. rewrite log_z_eq, alpha_neg. fold a.
  replace (- - a * j) with (a * j) by ring. reflexivity.
Qed.
Lemma jm_eq : exp ((2 - p) * ln y - ln phi - ln (2 - p)) = jm.
Proof.
  unfold jm, ds_mode, Rpower. rewrite <- (exp_ln (phi * (2 - p))) by (apply Rmult_lt_0_compat; lra).
  unfold Rdiv. rewrite <- exp_Ropp, <- exp_plus. f_equal. rewrite ln_mult by lra. ring.
Qed.
Lemma jm_pos : 0 < jm.
Proof. rewrite <- jm_eq. apply exp_pos. Qed.
(** concavity *)
Lemma w_conc x z t : 0 < x -> 0 < z -> 0 <= t <= 1 -> t * w x + (1 - t) * w z <= w (t * x + (1 - t) * z).
Proof.
  intros Hx Hz Ht. pose proof LG as [_ [_ C]]. pose proof a_pos as Pa. unfold lw. fold a.
  pose proof (C (1 + x) (1 + z) t ltac:(lra) ltac:(lra) Ht) as C1.
  replace (t * (1 + x) + (1 - t) * (1 + z)) with (1 + (t * x + (1 - t) * z)) in C1 by ring.
  pose proof (C (a * x) (a * z) t ltac:(apply Rmult_lt_0_compat; lra) ltac:(apply Rmult_lt_0_compat; lra) Ht) as C2.
  replace (t * (a * x) + (1 - t) * (a * z)) with (a * (t * x + (1 - t) * z)) in C2 by ring.
  lra.
Qed.
Lemma w_slope x m z : 0 < x -> x < m -> m < z -> (w z - w m) * (m - x) <= (w m - w x) * (z - m).
Proof.
  intros Hx H1 H2. set (t := (z - m) / (z - x)).
  assert (T : 0 <= t <= 1).
  { unfold t. split; [apply Rlt_le, Rdiv_lt_0_compat; lra|]. apply Rmult_le_reg_r with (z - x); [lra|]. unfold Rdiv. rewrite Rmult_assoc, Rinv_l; lra. }
  pose proof (w_conc x z t Hx ltac:(lra) T) as C.
  replace (t * x + (1 - t) * z) with m in C by (unfold t; field; lra).
  apply (Rmult_le_compat_r (z - x)) in C; [|lra].
  replace ((t * w x + (1 - t) * w z) * (z - x)) with ((z - m) * w x + (m - x) * w z) in C by (unfold t; field; lra).
  lra.
Qed.

(** the terms vanish *)
Lemma w_nat_step n : (1 <= n)%nat -> 2 <= a * INR n -> w (INR n) <= INR n * ln (ds_z p phi y) - ln (INR (fact n)).
Proof.
  intros H1 H2. unfold lw. fold a. rewrite (lg_fact lg n LG). pose proof (lg_ge lg (a * INR n) LG H2). lra.
Qed.
Lemma fact_step n : ln (INR (fact (S n))) = ln (INR n + 1) + ln (INR (fact n)).
Proof.
  change (fact (S n)) with (S n * fact n)%nat. rewrite mult_INR, ln_mult, S_INR; [reflexivity| |apply lt_0_INR, lt_O_fact].
  rewrite S_INR. pose proof (pos_INR n). lra.
Qed.
Lemma w_tends c M : exists N, (1 <= N)%nat /\ (M <= N)%nat /\ w (INR N) < c.
Proof.
  pose proof a_pos as Pa. set (L := ln (ds_z p phi y)).
  destruct (nat_above (Rmax (exp (L + 1)) (2 / a))) as [K' HK'].
  set (K := (K' + M)%nat). assert (HK : Rmax (exp (L + 1)) (2 / a) < INR K) by (unfold K; rewrite plus_INR; pose proof (pos_INR M); lra).
  assert (K1 : exp (L + 1) < INR K) by (eapply Rle_lt_trans; [apply Rmax_l|exact HK]).
  assert (K2 : 2 / a < INR K) by (eapply Rle_lt_trans; [apply Rmax_r|exact HK]).
  assert (K0 : (1 <= K)%nat). { clearbody K. destruct K; [cbn in K1; pose proof (exp_pos (L + 1)); lra|lia]. }
  assert (F : forall n, INR (K + n) * L - ln (INR (fact (K + n))) <= INR K * L - ln (INR (fact K)) - INR n).
  { induction n as [|n IH]; [rewrite Nat.add_0_r; cbn; lra|].
    rewrite Nat.add_succ_r, fact_step, S_INR, S_INR.
    assert (G : L + 1 <= ln (INR (K + n) + 1)).
    { rewrite <- (ln_exp (L + 1)). apply Rlt_le, ln_increasing; [apply exp_pos|]. rewrite plus_INR. pose proof (pos_INR n). lra. }
    lra. }
  destruct (nat_above (INR K * L - ln (INR (fact K)) - c)) as [n Hn].
  exists (K + n)%nat. split; [lia|]. split; [unfold K; lia|]. pose proof (F n) as Fn.
  assert (A2 : 2 <= a * INR (K + n)).
  { rewrite plus_INR. pose proof (pos_INR n). assert (a * (2 / a) <= a * (INR K + INR n)) by (apply Rmult_le_compat_l; lra).
    replace (a * (2 / a)) with 2 in H0 by (field; lra). exact H0. }
  pose proof (w_nat_step (K + n) ltac:(lia) A2). fold L in H. lra.
Qed.

(** the loops *)
Lemma upper_spec crt d : forall j N, (1 <= j)%Z -> (Z.to_nat (N - j) = d)%nat -> (j <= N)%Z -> w (IZR N) < crt ->
  exists J, (j <= J)%Z /\ w (IZR J) < crt /\ forall fuel, (d < fuel)%nat -> upper_loop lg fuel y p phi crt j = Some J.
Proof.
  induction d as [|d IH]; intros j N Hj Hd HN Hw.
  - assert (j = N) by lia. subst N. exists j. split; [lia|]. split; [exact Hw|]. intros [|f] Hf; [lia|]. cbn [upper_loop].
    rewrite log_w_eq by (apply IZR_neq; lia). cbn [w_ge]. rewrite (proj2 (Rleb_false _ _)) by exact Hw. reflexivity.
  - destruct (Rle_lt_dec crt (w (IZR j))) as [L|L].
    + destruct (IH (j + 1)%Z N) as [J [A [B C]]]; [lia|lia|lia|exact Hw|]. exists J. split; [lia|]. split; [exact B|].
      intros [|f] Hf; [lia|]. cbn [upper_loop]. rewrite log_w_eq by (apply IZR_neq; lia). cbn [w_ge]. rewrite (proj2 (Rleb_true _ _)) by exact L. apply C. lia.
    + exists j. split; [lia|]. split; [exact L|]. intros [|f] Hf; [lia|]. cbn [upper_loop].
      rewrite log_w_eq by (apply IZR_neq; lia). cbn [w_ge]. rewrite (proj2 (Rleb_false _ _)) by exact L. reflexivity.
Qed.
Lemma lower_spec crt d : forall j, (0 <= j)%Z -> (Z.to_nat j = d)%nat ->
  exists J, (0 <= J <= j)%Z /\ (J <> 0%Z -> w (IZR J) < crt) /\ forall fuel, (d < fuel)%nat -> lower_loop lg fuel y p phi crt j = Some J.
Proof.
  induction d as [|d IH]; intros j Hj Hd.
  - assert (j = 0%Z) by lia. subst j. exists 0%Z. split; [lia|]. split; [congruence|]. intros [|f] Hf; [lia|]. cbn [lower_loop].
    unfold log_w_j. rewrite (proj2 (Reqb_true _ _)) by reflexivity. reflexivity.
  - destruct (Rle_lt_dec crt (w (IZR j))) as [L|L].
    + destruct (IH (j - 1)%Z) as [J [A [B C]]]; [lia|lia|]. exists J. split; [lia|]. split; [exact B|].
      intros [|f] Hf; [lia|]. cbn [lower_loop]. rewrite log_w_eq by (apply IZR_neq; lia). cbn [w_ge]. rewrite (proj2 (Rleb_true _ _)) by exact L. apply C. lia.
    + exists j. split; [lia|]. split; [intros _; exact L|]. intros [|f] Hf; [lia|]. cbn [lower_loop].
      rewrite log_w_eq by (apply IZR_neq; lia). cbn [w_ge]. rewrite (proj2 (Rleb_false _ _)) by exact L. reflexivity.
Qed.
Lemma zfloor_spec x : IZR (zfloor x) <= x < IZR (zfloor x) + 1.
Proof. unfold zfloor. rewrite minus_IZR. destruct (archimed x). lra. Qed.
Lemma zceil_spec x : x <= IZR (zceil x) < x + 1.
Proof. unfold zceil. rewrite opp_IZR. pose proof (zfloor_spec (- x)). lra. Qed.

Lemma limits : exists fuel0 lo hi, (0 <= lo)%Z /\ (lo <= zceil jm)%Z /\ (zceil jm <= hi)%Z /\
  (lo = 1%Z \/ lo = 0%Z \/ (0 < IZR lo /\ IZR lo <= jm /\ w (IZR lo) < w jm - 37)) /\ w (IZR hi) < w jm - 37 /\
  forall fuel, (fuel0 <= fuel)%nat -> sum_limits lg fuel y p phi jm = Some (lo, hi).
Proof.
  pose proof jm_pos as PJ. set (crt := w jm - 37).
  destruct (zceil_spec jm) as [C1 C2]. destruct (zfloor_spec jm) as [F1 F2].
  assert (C0 : (1 <= zceil jm)%Z) by (apply (Z.le_succ_l 0), lt_IZR; lra).
  assert (F0 : (0 <= zfloor jm)%Z) by (apply Z.lt_succ_r, lt_IZR; unfold Z.succ; rewrite plus_IZR; lra).
  assert (FC : (zfloor jm <= zceil jm)%Z) by (apply le_IZR; lra).
  destruct (w_tends crt (Z.to_nat (zceil jm))) as [N [N1 [N2 N3]]].
  rewrite INR_IZR_INZ in N3.
  destruct (upper_spec crt _ (zceil jm) (Z.of_nat N) C0 eq_refl ltac:(lia) N3) as [hi [H1 [H2 H3]]].
  destruct (lower_spec crt _ (zfloor jm) F0 eq_refl) as [l [L1 [L2 L3]]].
  set (f0 := S (Nat.max (Z.to_nat (Z.of_nat N - zceil jm)) (Z.to_nat (zfloor jm)))).
  assert (S0 : forall fuel, (f0 <= fuel)%nat -> sum_limits lg fuel y p phi jm = Some (if Rle_dec (w 1) crt then l else 1%Z, hi)).
  { intros fuel Hf. unfold sum_limits. rewrite log_w_eq by lra. fold crt. rewrite (log_w_eq 1) by lra. cbn [w_le].
    rewrite H3 by (unfold f0 in Hf; lia). unfold Rleb. destruct (Rle_dec (w 1) crt); [rewrite L3 by (unfold f0 in Hf; lia)|]; reflexivity. }
  exists f0, (if Rle_dec (w 1) crt then l else 1%Z), hi.
  split; [destruct (Rle_dec _ _); lia|]. split; [destruct (Rle_dec _ _); lia|]. split; [exact H1|]. split; [|split; [exact H2|exact S0]].
  destruct (Rle_dec _ _) as [D|D]; [|left; reflexivity]. right.
  destruct (Z.eq_dec l 0) as [E|E]; [left; exact E|right]. split; [apply (IZR_lt 0); lia|]. split; [|apply L2; exact E].
  apply Rle_trans with (IZR (zfloor jm)); [apply IZR_le; lia|lra].
Qed.

(** chords *)
Lemma w_chord x m u v D : 0 < x -> x < m -> x <= u -> u < v -> m <= v -> w m < w x - D -> 0 <= D -> (m - x) <= v - u -> w v < w u - D.
Proof.
  intros Hx Hxm Hxu Huv Hmv HD D0 HL.
  assert (S1 : (w v - w x) * (m - x) <= (w m - w x) * (v - x)).
  { destruct (Rle_lt_or_eq_dec _ _ Hmv) as [L|L]; [|subst v; lra]. pose proof (w_slope x m v Hx Hxm L). nra. }
  assert (S2 : (w v - w u) * (v - x) <= (w v - w x) * (v - u)).
  { destruct (Rle_lt_or_eq_dec _ _ Hxu) as [L|L]; [|subst u; lra]. pose proof (w_slope x u v Hx L Huv). nra. }
  assert (S3 : (w v - w u) * (m - x) <= (w m - w x) * (v - u)).
  { apply Rmult_le_reg_r with (v - x); [lra|].
    apply Rle_trans with ((w v - w x) * (v - u) * (m - x)); [nra|]. apply Rle_trans with ((w m - w x) * (v - x) * (v - u)); [nra|lra]. }
  assert ((w v - w u) * (m - x) < - D * (m - x)); [|nra].
  apply Rle_lt_trans with ((w m - w x) * (v - u)); [exact S3|].
  apply Rlt_le_trans with (- D * (v - u)); [apply Rmult_lt_compat_r; lra|nra].
Qed.
Lemma w_chord_left x m u v D : 0 < x -> x < m -> 0 < u -> u <= x -> u < v -> v <= m -> w x < w m - D -> 0 <= D -> (m - x) <= v - u -> w u < w v - D.
Proof.
  intros Hx Hxm Hu Hux Huv Hvm HD D0 HL.
  assert (S1 : (w m - w x) * (m - u) <= (w m - w u) * (m - x)).
  { destruct (Rle_lt_or_eq_dec _ _ Hux) as [L|L]; [|subst u; lra]. pose proof (w_slope u x m Hu L Hxm). nra. }
  assert (S2 : (w m - w u) * (v - u) <= (w v - w u) * (m - u)).
  { destruct (Rle_lt_or_eq_dec _ _ Hvm) as [L|L]; [|subst v; lra]. pose proof (w_slope u v m Hu Huv L). nra. }
  assert (S3 : (w m - w x) * (v - u) <= (w v - w u) * (m - x)).
  { apply Rmult_le_reg_r with (m - u); [lra|].
    apply Rle_trans with ((w m - w u) * (m - x) * (v - u)); [nra|]. apply Rle_trans with ((w v - w u) * (m - u) * (m - x)); [nra|lra]. }
  assert (D * (m - x) < (w v - w u) * (m - x)); [|nra].
  apply Rlt_le_trans with ((w m - w x) * (v - u)); [|exact S3].
  apply Rle_lt_trans with (D * (v - u)); [nra|apply Rmult_lt_compat_r; lra].
Qed.
Lemma term_eq j : (1 <= j)%nat -> ds_term lg p phi y j = exp (w (INR j)).
Proof.
  intros H. unfold ds_term, lw. rewrite (lg_fact lg j LG). unfold Rminus. rewrite !exp_plus, !exp_Ropp.
  rewrite exp_ln by (apply lt_0_INR, lt_O_fact). unfold Rpower, Rdiv. rewrite Rinv_mult, (Rmult_comm (ds_a p)). ring.
Qed.
Lemma term_pos j : 0 < ds_term lg p phi y j.
Proof.
  unfold ds_term. apply Rdiv_lt_0_compat; [apply Rpower_pos|]. apply Rmult_lt_0_compat; [apply lt_0_INR, lt_O_fact|apply exp_pos].
Qed.
End T.

(** geometric blocks *)
Lemma rsum_app n m f : rsum (n + m) f = rsum n f + rsum m (fun k => f (n + k)%nat).
Proof. induction m as [|m IH]; [rewrite Nat.add_0_r; cbn; ring|]. rewrite Nat.add_succ_r. cbn [rsum]. rewrite IH. ring. Qed.
Lemma rsum_rev n f : rsum n f = rsum n (fun k => f (n - 1 - k)%nat).
Proof.
  induction n as [|n IH]; [reflexivity|]. rewrite (rsum_S_l n (fun k => f (S n - 1 - k)%nat)). cbn [rsum]. rewrite IH, Rplus_comm.
  f_equal; [f_equal; lia|]. apply rsum_ext. intros i Hi. f_equal. lia.
Qed.
Lemma block_bound T m q : (forall k, 0 <= T k) -> 0 <= q < 1 -> (forall k, T (m + k)%nat <= q * T k) ->
  forall n, rsum (m + n) T * (1 - q) <= rsum m T.
Proof.
  intros HT Hq HB n. rewrite rsum_app.
  assert (A : rsum n (fun k => T (m + k)%nat) <= q * rsum n T) by (rewrite <- rsum_scal; apply rsum_le; intros; apply HB).
  assert (B : rsum n T <= rsum (m + n) T).
  { rewrite (Nat.add_comm m n), rsum_app. pose proof (rsum_nonneg m (fun k => T (n + k)%nat) ltac:(intros; apply HT)). lra. }
  rewrite rsum_app in B. assert (q * rsum n T <= q * (rsum m T + rsum n (fun k => T (m + k)%nat))) by (apply Rmult_le_compat_l; lra). lra.
Qed.
Lemma rsum_sum_n f n : sum_n f n = rsum (S n) f.
Proof.
  induction n as [|n IH]; [rewrite sum_O; cbn; symmetry; apply Rplus_0_l|]. rewrite sum_Sn, IH. reflexivity.
Qed.
Lemma block_series T m q : (forall k, 0 <= T k) -> 0 <= q < 1 -> (forall k, T (m + k)%nat <= q * T k) ->
  ex_series T /\ Series T * (1 - q) <= rsum m T.
Proof.
  intros HT Hq HB. pose proof (block_bound T m q HT Hq HB) as B.
  assert (P : forall n, sum_n T n * (1 - q) <= rsum m T).
  { intros n. rewrite rsum_sum_n. apply Rle_trans with (rsum (m + S n) T * (1 - q)); [|apply B].
    apply Rmult_le_compat_r; [lra|]. rewrite (Nat.add_comm m), rsum_app. pose proof (rsum_nonneg m (fun k => T (S n + k)%nat) ltac:(intros; apply HT)). lra. }
  assert (E : ex_finite_lim_seq (sum_n T)).
  { apply ex_finite_lim_seq_incr with (rsum m T / (1 - q)).
    - intros n. rewrite !rsum_sum_n. cbn [rsum]. pose proof (HT (S n)). lra.
    - intros n. apply Rmult_le_reg_r with (1 - q); [lra|]. unfold Rdiv. rewrite Rmult_assoc, Rinv_l by lra. rewrite Rmult_1_r. apply P. }
  destruct E as [l E]. assert (ES : is_series T l) by exact E. split; [exists l; exact ES|]. rewrite (is_series_unique T l ES).
  assert (L : is_lim_seq (fun n => sum_n T n * (1 - q)) (l * (1 - q))) by (apply (is_lim_seq_mult' _ _ l (1 - q)); [exact E|apply is_lim_seq_const]).
  apply (is_lim_seq_le _ _ _ _ P L (is_lim_seq_const _)).
Qed.

(** index bookkeeping *)
Lemma lsumf_seq_from (f : nat -> R) n : forall s, lsumf f (seq s n) = rsum n (fun k => f (s + k)%nat).
Proof.
  induction n as [|n IH]; intros s; [reflexivity|]. cbn [seq]. rewrite lsumf_cons, IH, rsum_S_l. rewrite Nat.add_0_r. f_equal.
  apply rsum_ext. intros i _. f_equal. lia.
Qed.
Lemma zrange_sum (g : Z -> R) lo hi : (0 <= lo)%Z -> (lo <= hi)%Z -> g 0%Z = 0 -> (0 < hi)%Z ->
  lsumf g (zrange lo hi) = lsumf (fun j => g (Z.of_nat j)) (seq (Nat.max 1 (Z.to_nat lo)) (Z.to_nat hi + 1 - Nat.max 1 (Z.to_nat lo))).
Proof.
  intros H0 H1 Hg Hh. unfold zrange. rewrite lsumf_map, !lsumf_seq_from.
  destruct (Z.eq_dec lo 0) as [E|E].
  - subst lo. replace (Z.to_nat (hi + 1 - 0)) with (S (Z.to_nat hi)) by lia. rewrite rsum_S_l. cbn [Nat.add Z.of_nat]. change (0 + 0)%Z with 0%Z. rewrite Hg, Rplus_0_l.
    change (Z.to_nat 0) with 0%nat. cbn [Nat.max]. replace (Z.to_nat hi + 1 - 1)%nat with (Z.to_nat hi) by lia.
    apply rsum_ext. intros i _. f_equal.
  - replace (Nat.max 1 (Z.to_nat lo)) with (Z.to_nat lo) by lia. replace (Z.to_nat (hi + 1 - lo)) with (Z.to_nat hi + 1 - Z.to_nat lo)%nat by lia.
    apply rsum_ext. intros i _. f_equal. lia.
Qed.
