(** C67: the truncated series of the Tweedie log-likelihood. *)
From Coq Require Import ZArith Psatz.
From Coquelicot Require Import Coquelicot.
From Verif Require Import Base M_Dist S_Gamma L_Gamma M_Tweedie S_Tweedie L_Tweedie.
Local Open Scope R_scope.

(** The relative error allowed by the cut-off 37. *)
Definition cut : R := 2 * exp (-37) / (1 - exp (-37)).

Lemma exp37 : 0 < exp (-37) < 1.
Proof. split; [apply exp_pos|]. rewrite <- exp_0. apply exp_increasing. lra. Qed.

(** The loops stop; the value is the log of a stretch of the series, which misses at most the fraction [cut]
    of the infinite series. *)
Theorem C67_series : forall lg p phi y, is_lgamma lg -> 1 < p < 2 -> 0 < phi -> 0 < y ->
  exists lo hi fuel0 total, (1 <= lo <= hi)%nat /\
    (forall fuel, (fuel0 <= fuel)%nat -> tweedie_normalization lg fuel y p phi = Some (ln (ds_sum lg p phi y lo hi) - ln y)) /\
    is_series (fun k => ds_term lg p phi y (S k)) total /\
    0 < ds_sum lg p phi y lo hi <= total /\
    total - ds_sum lg p phi y lo hi <= cut * ds_sum lg p phi y lo hi.
Proof.
  intros lg p phi y LG HP HPHI HY. pose proof (jm_pos p phi y HP HPHI) as PJ.
  set (jm := ds_mode p phi y) in *. set (W := ds_term lg p phi y). set (q := exp (-37)).
  destruct (limits lg p phi y LG HP HPHI) as [f0 [lo [hi [L0 [L1 [L2 [L3 [L4 L5]]]]]]]]. fold jm in L1, L2, L3, L4, L5.
  destruct (zceil_spec jm) as [C1 C2]. destruct (zfloor_spec jm) as [F1 F2].
  assert (C0 : (1 <= zceil jm)%Z) by (apply (Z.le_succ_l 0), lt_IZR; lra).
  assert (F0 : (0 <= zfloor jm)%Z) by (apply Z.lt_succ_r, lt_IZR; unfold Z.succ; rewrite plus_IZR; lra).
  assert (FC : (zfloor jm <= zceil jm)%Z) by (apply le_IZR; lra).
  set (c := Z.to_nat (zceil jm)). set (f := Z.to_nat (zfloor jm)). set (l := Nat.max 1 (Z.to_nat lo)). set (h := Z.to_nat hi).
  assert (Hc : INR c = IZR (zceil jm)) by (unfold c; rewrite INR_IZR_INZ, Z2Nat.id by lia; reflexivity).
  assert (Hf : INR f = IZR (zfloor jm)) by (unfold f; rewrite INR_IZR_INZ, Z2Nat.id by lia; reflexivity).
  assert (Hh : INR h = IZR hi) by (unfold h; rewrite INR_IZR_INZ, Z2Nat.id by lia; reflexivity).
  assert (lc : (l <= c)%nat) by (unfold l, c; lia). assert (ch : (c <= h)%nat) by (unfold h, c; lia).
  assert (l1 : (1 <= l)%nat) by (unfold l; lia).
  assert (WP : forall j, 0 <= W j) by (intros j; apply Rlt_le, term_pos).
  pose proof exp37 as Q. fold q in Q.
  assert (jh : jm < IZR hi).
  { assert (jm <= IZR hi) by (apply Rle_trans with (IZR (zceil jm)); [lra|apply IZR_le; lia]).
    destruct (Rle_lt_or_eq_dec _ _ H) as [X|X]; [exact X|]. rewrite <- X in L4. lra. }
  (* upper tail *)
  set (m := (h + 1 - c)%nat). set (T := fun k => W (c + k)%nat).
  assert (B : forall k, T (m + k)%nat <= q * T k).
  { intros k. unfold T, W. rewrite !term_eq by (unfold c; lia || assumption || lia). 
    unfold q. rewrite <- exp_plus. apply Rlt_le, exp_increasing.
    assert (X : lw lg p phi y (INR (c + (m + k))) < lw lg p phi y (INR (c + k)) - 37); [|lra].
    assert (Em : INR (c + (m + k)) = IZR hi + 1 + INR k).
    { replace (c + (m + k))%nat with (h + 1 + k)%nat by (unfold m; lia). rewrite !plus_INR, Hh. cbn. ring. }
    pose proof (pos_INR k). rewrite Em, plus_INR, Hc. apply (w_chord lg p phi y LG HP jm (IZR hi)); lra. }
  destruct (block_series T m q (fun k => WP _) ltac:(lra) B) as [ET ST].
  (* the whole series *)
  assert (Ex : ex_series (fun k => W (S k))).
  { apply (ex_series_incr_n _ (c - 1)). apply (ex_series_ext T); [|exact ET]. intros k. unfold T. f_equal. unfold c; lia. }
  exists l, h, f0, (Series (fun k => W (S k))). split; [lia|].
  (* value *)
  assert (SU : ds_sum lg p phi y l h = rsum (h + 1 - l) (fun k => W (l + k)%nat)) by apply lsumf_seq_from.
  assert (POS : 0 < ds_sum lg p phi y l h).
  { rewrite SU. replace (h + 1 - l)%nat with (S (h - l)) by lia. rewrite rsum_S_l.
    pose proof (rsum_nonneg (h - l) (fun i => W (l + S i)%nat) ltac:(intros; apply WP)). pose proof (term_pos lg p phi y (l + 0)). fold W in H0. lra. }
  split.
  { intros fuel Hfu. unfold tweedie_normalization. rewrite (jm_eq p phi y HP HPHI). fold jm. rewrite (L5 fuel Hfu).
    rewrite (log_w_eq lg p phi y) by (assumption || lra). f_equal.
    rewrite zrange_sum; [| lia | lia | | lia].
    2:{ unfold log_w_j. rewrite (proj2 (Reqb_true _ _)) by reflexivity. reflexivity. }
    fold l. fold h. rewrite lsumf_seq_from. unfold ds_sum. rewrite lsumf_seq_from.
    set (wm := lw lg p phi y jm).
    rewrite (rsum_ext _ _ (fun k => exp (- wm) * W (l + k)%nat)).
    2:{ intros k _. rewrite log_w_eq by (assumption || (apply IZR_neq; lia)). unfold W. rewrite term_eq by (assumption || lia).
        rewrite <- exp_plus. f_equal. rewrite <- INR_IZR_INZ. ring. }
    rewrite rsum_scal. change (fun k : nat => ds_term lg p phi y (l + k)) with (fun k => W (l + k)%nat). rewrite <- SU.
    rewrite ln_mult by (apply exp_pos || exact POS). rewrite ln_exp. ring. }
  split; [apply Series_correct, Ex|].
  (* decomposition *)
  assert (TOT : Series (fun k => W (S k)) = rsum (l - 1) (fun k => W (S k)) + rsum (c - l) (fun k => W (l + k)%nat) + Series T).
  { destruct (Nat.eq_dec c 1) as [E1|E1].
    - replace (l - 1)%nat with 0%nat by lia. replace (c - l)%nat with 0%nat by lia. cbn [rsum]. rewrite !Rplus_0_l.
      apply Series_ext. intros k. unfold T. rewrite E1. reflexivity.
    - rewrite (Series_incr_n (fun k => W (S k)) (c - 1)) by (lia || exact Ex).
      rewrite (Series_ext (fun k => W (S (c - 1 + k))) T) by (intros k; unfold T; f_equal; lia).
      f_equal. rewrite <- sum_n_Reals, rsum_sum_n. replace (S (pred (c - 1))) with ((l - 1) + (c - l))%nat by lia.
      rewrite rsum_app. f_equal. apply rsum_ext. intros i _. f_equal. lia. }
  assert (TS : Series T = rsum m T + Series (fun k => T (m + k)%nat)).
  { assert (M1 : (0 < m)%nat) by (unfold m; lia). rewrite (Series_incr_n T m M1 ET). f_equal. rewrite <- sum_n_Reals, rsum_sum_n. f_equal. lia. }
  assert (TN : 0 <= Series (fun k => T (m + k)%nat)).
  { rewrite <- (series_zero). apply Series_le; [intros k; split; [lra|apply WP]|]. apply (ex_series_incr_n T m). exact ET. }
  assert (SUM : ds_sum lg p phi y l h = rsum (c - l) (fun k => W (l + k)%nat) + rsum m T).
  { rewrite SU. replace (h + 1 - l)%nat with ((c - l) + m)%nat by (unfold m; lia). rewrite rsum_app. f_equal. apply rsum_ext. intros i _. unfold T. f_equal. lia. }
  assert (N1 : 0 <= rsum (l - 1) (fun k => W (S k))) by (apply rsum_nonneg; intros; apply WP).
  assert (N2 : 0 <= rsum (c - l) (fun k => W (l + k)%nat)) by (apply rsum_nonneg; intros; apply WP).
  assert (N3 : 0 <= rsum m T) by (apply rsum_nonneg; intros; apply WP).
  split; [split; [exact POS|lra]|].
  (* lower part *)
  assert (LOW : rsum (l - 1) (fun k => W (S k)) * (1 - q) <= q * ds_sum lg p phi y l h).
  { destruct L3 as [E|[E|[E1 [E2 E3]]]].
    - replace (l - 1)%nat with 0%nat by (unfold l; lia). cbn [rsum]. rewrite Rmult_0_l. apply Rmult_le_pos; lra.
    - replace (l - 1)%nat with 0%nat by (unfold l; lia). cbn [rsum]. rewrite Rmult_0_l. apply Rmult_le_pos; lra.
    - assert (lo0 : (0 < lo)%Z) by (apply lt_IZR; exact E1).
      assert (El : INR l = IZR lo). { unfold l. rewrite Nat.max_r by lia. rewrite INR_IZR_INZ, Z2Nat.id by lia. reflexivity. }
      assert (jl : IZR lo < jm). { destruct (Rle_lt_or_eq_dec _ _ E2) as [X|X]; [exact X|]. rewrite X in E3. lra. }
      assert (lf : (l <= f)%nat). { apply INR_le. rewrite El, Hf. apply IZR_le. apply Z.lt_succ_r, lt_IZR. unfold Z.succ. rewrite plus_IZR. lra. }
      set (m' := (f + 1 - l)%nat). set (T' := fun k => if Nat.ltb k f then W (f - k)%nat else 0).
      assert (B' : forall k, T' (m' + k)%nat <= q * T' k).
      { intros k. unfold T'. destruct (Nat.ltb_spec (m' + k) f) as [K|K].
        - assert (K2 : (k < f)%nat) by (unfold m' in K; lia). rewrite (proj2 (Nat.ltb_lt _ _) K2). unfold W. rewrite !term_eq by (assumption || lia).
          unfold q. rewrite <- exp_plus. apply Rlt_le, exp_increasing.
          assert (X : lw lg p phi y (INR (f - (m' + k))) < lw lg p phi y (INR (f - k)) - 37); [|lra].
          assert (Em : INR (f - (m' + k)) = INR (f - k) - INR m') by (rewrite <- minus_INR by (unfold m' in *; lia); f_equal; lia).
          assert (Mm : INR m' = INR f + 1 - INR l) by (unfold m'; rewrite minus_INR, plus_INR by lia; cbn; ring).
          assert (Fk : INR (f - k) = INR f - INR k) by (apply minus_INR; lia). pose proof (pos_INR k).
          assert (U0 : 0 < INR (f - (m' + k))) by (apply lt_0_INR; lia).
          apply (w_chord_left lg p phi y LG HP (IZR lo) jm); try lra.
        - destruct (Nat.ltb k f); [|lra]. apply Rmult_le_pos; [lra|apply WP]. }
      assert (P' : forall k, 0 <= T' k) by (intros k; unfold T'; destruct (Nat.ltb k f); [apply WP|lra]).
      pose proof (block_bound T' m' q P' ltac:(lra) B' (l - 1)) as BB.
      replace (m' + (l - 1))%nat with f in BB by (unfold m'; lia).
      assert (R1 : rsum f T' = rsum (l - 1) (fun k => W (S k)) + rsum m' (fun k => W (l + k)%nat)).
      { rewrite rsum_rev. rewrite (rsum_ext _ _ (fun k => W (S k))).
        - replace f with ((l - 1) + m')%nat at 1 by (unfold m'; lia). rewrite rsum_app. f_equal. apply rsum_ext. intros i _. f_equal. lia.
        - intros i Hi. unfold T'. rewrite (proj2 (Nat.ltb_lt _ _)) by lia. f_equal. lia. }
      assert (R2 : rsum m' T' = rsum m' (fun k => W (l + k)%nat)).
      { rewrite rsum_rev. apply rsum_ext. intros i Hi. unfold T'. rewrite (proj2 (Nat.ltb_lt _ _)) by (unfold m' in *; lia). f_equal. unfold m' in *. lia. }
      rewrite R1, R2 in BB.
      assert (R3 : rsum m' (fun k => W (l + k)%nat) <= ds_sum lg p phi y l h).
      { rewrite SU. assert (FCn : (f <= c)%nat) by (unfold f, c; lia). replace (h + 1 - l)%nat with (m' + (h - f))%nat by (unfold m'; lia). rewrite rsum_app.
        pose proof (rsum_nonneg (h - f) (fun k => W (l + (m' + k))%nat) ltac:(intros; apply WP)). lra. }
      nra. }
  assert (UP : Series (fun k => T (m + k)%nat) * (1 - q) <= q * ds_sum lg p phi y l h) by (rewrite TS in ST; rewrite SUM; nra).
  rewrite TOT, TS. unfold cut. fold q. apply Rmult_le_reg_r with (1 - q); [lra|].
  replace (2 * q / (1 - q) * ds_sum lg p phi y l h * (1 - q)) with (2 * q * ds_sum lg p phi y l h) by (field; lra).
  rewrite SUM in *. nra.
Qed.
Print Assumptions C67_series.

Lemma cut_pos : 0 < cut.
Proof. pose proof exp37. unfold cut. apply Rdiv_lt_0_compat; lra. Qed.
Lemma unit_bound lg p phi mu y : is_lgamma lg -> 1 < p < 2 -> 0 < phi -> 0 < mu -> 0 <= y ->
  exists fuel0, forall fuel, (fuel0 <= fuel)%nat ->
    ln (tweedie_density lg p phi mu y) - cut <= tweedie_unit_ll (tw_series lg fuel) y mu p phi <= ln (tweedie_density lg p phi mu y).
Proof.
  intros LG HP HPHI HM HY. pose proof cut_pos as CP. unfold tweedie_density, tweedie_unit_ll.
  destruct (Req_EM_T y 0) as [E|E].
  - exists 0%nat. intros fuel _. rewrite ln_exp. unfold npow. destruct (Req_EM_T mu 0); [lra|lra].
  - assert (HY' : 0 < y) by lra.
    destruct (C67_series lg p phi y LG HP HPHI HY') as [lo [hi [f0 [tot [_ [HV [HS [HT HC]]]]]]]].
    exists f0. intros fuel Hf. unfold tw_series. rewrite (HV fuel Hf). rewrite (is_series_unique _ _ HS).
    set (sm := ds_sum lg p phi y lo hi) in *.
    rewrite ln_mult; [|apply Rdiv_lt_0_compat; [apply exp_pos|lra]|lra]. rewrite ln_div by (apply exp_pos || lra). rewrite ln_exp.
    assert (EE : Rpower mu (2 - p) = mu * Rpower mu (1 - p)).
    { replace (2 - p) with (1 + (1 - p)) by ring. rewrite Rpower_plus, Rpower_1 by lra. reflexivity. }
    rewrite EE. set (r := Rpower mu (1 - p)).
    replace ((r / (1 - p) * y - mu * r / (2 - p)) / phi) with ((y * r / (1 - p) - mu * r / (2 - p)) / phi) by (field; lra).
    assert (L1 : ln sm <= ln tot) by (destruct (Rle_lt_or_eq_dec _ _ (proj2 HT)) as [X|X]; [apply Rlt_le, ln_increasing; lra|rewrite X; lra]).
    assert (L2 : ln tot <= ln sm + cut).
    { assert (Q : tot <= sm * exp cut).
      { pose proof (exp_ineq1_le cut). nra. }
      apply Rle_trans with (ln (sm * exp cut)).
      - destruct (Rle_lt_or_eq_dec _ _ Q) as [X|X]; [apply Rlt_le, ln_increasing; lra|rewrite X; lra].
      - rewrite ln_mult, ln_exp by (apply exp_pos || lra). lra. }
    lra.
Qed.
(** The log-likelihood of glum is the weighted log of the Tweedie density, up to [cut] per unit of weight. *)
Theorem C67_loglik : forall lg p phi l, is_lgamma lg -> 1 < p < 2 -> 0 < phi ->
  (forall o, In o l -> 0 < omu o /\ 0 <= oy o /\ 0 <= ow o) ->
  exists fuel0, forall fuel, (fuel0 <= fuel)%nat -> exists ll,
    log_likelihood lg (tw_series lg fuel) (TweedieF p) phi l = Some ll /\
    lsumf (fun o => ow o * ln (tweedie_density lg p phi (omu o) (oy o))) l - cut * lsumf ow l <= ll
    <= lsumf (fun o => ow o * ln (tweedie_density lg p phi (omu o) (oy o))) l.
Proof.
  intros lg p phi l LG HP HPHI Hl.
  assert (K : exists fuel0, forall fuel, (fuel0 <= fuel)%nat ->
    lsumf (fun o => ow o * ln (tweedie_density lg p phi (omu o) (oy o))) l - cut * lsumf ow l <= tweedie_ll (tw_series lg fuel) p phi l
    <= lsumf (fun o => ow o * ln (tweedie_density lg p phi (omu o) (oy o))) l).
  { induction l as [|o l IH].
    - exists 0%nat. intros fuel _. unfold tweedie_ll. rewrite !lsumf_nil. lra.
    - destruct IH as [f1 H1]; [intros; apply Hl; right; assumption|].
      destruct (Hl o (or_introl eq_refl)) as [M [Y Wt]].
      destruct (unit_bound lg p phi (omu o) (oy o) LG HP HPHI M Y) as [f2 H2].
      exists (Nat.max f1 f2). intros fuel Hf. specialize (H1 fuel ltac:(lia)). specialize (H2 fuel ltac:(lia)).
      unfold tweedie_ll in *. rewrite !lsumf_cons.
      assert (ow o * (ln (tweedie_density lg p phi (omu o) (oy o)) - cut) <= ow o * tweedie_unit_ll (tw_series lg fuel) (oy o) (omu o) p phi) by (apply Rmult_le_compat_l; lra).
      assert (ow o * tweedie_unit_ll (tw_series lg fuel) (oy o) (omu o) p phi <= ow o * ln (tweedie_density lg p phi (omu o) (oy o))) by (apply Rmult_le_compat_l; lra).
      lra. }
  destruct K as [f0 K]. exists f0. intros fuel Hf. exists (tweedie_ll (tw_series lg fuel) p phi l). split; [|apply K; exact Hf].
  unfold log_likelihood. destruct (Req_EM_T p 0); [lra|]. destruct (Req_EM_T p 1); [lra|]. destruct (Req_EM_T p 2); [lra|]. destruct (Rlt_dec p 2); [reflexivity|lra].
Qed.
Print Assumptions C67_loglik.

(** the contract of log-gamma is met (by the classical product), and a data set with a zero *)
Example C67_nonvacuous : is_lgamma lgam /\ forall o, In o [mkobs 0 1 2; mkobs (7/2) (1/2) 3] -> 0 < omu o /\ 0 <= oy o /\ 0 <= ow o.
Proof. split; [exact lgam_spec|]. intros o [<-|[<-|[]]]; cbn; lra. Qed.
(** the error bound is small: at most 2^-50 *)
Example C67_cut_small : cut <= / 2 ^ 50.
Proof.
  assert (E0 : forall n, exp (1 / 32) ^ n = exp (INR n * (1 / 32))).
  { induction n as [|n IH]; [cbn; rewrite Rmult_0_l, exp_0; reflexivity|]. rewrite S_INR. cbn [pow]. rewrite IH, <- exp_plus. f_equal. ring. }
  assert (E1 : 2.67 <= exp 1).
  { replace 1 with (INR 32 * (1 / 32)) by (cbn; field). rewrite <- E0. apply Rle_trans with ((33 / 32) ^ 32); [lra|].
    apply pow_incr. pose proof (exp_ineq1_le (1 / 32)). lra. }
  assert (E2 : forall n, exp 1 ^ n = exp (INR n)).
  { induction n as [|n IH]; [cbn; rewrite exp_0; reflexivity|]. rewrite S_INR. cbn [pow]. rewrite IH, <- exp_plus. f_equal. ring. }
  assert (E3 : 2 ^ 52 <= exp 37).
  { replace 37 with (INR 37) by (rewrite INR_IZR_INZ; reflexivity). rewrite <- E2. apply Rle_trans with (2.67 ^ 37); [lra|]. apply pow_incr. lra. }
  assert (E : exp (-37) <= / 2 ^ 52) by (replace (-37) with (- (37)) by ring; rewrite exp_Ropp; apply Rinv_le_contravar; [apply pow_lt; lra|exact E3]).
  pose proof (exp_pos (-37)). unfold cut. apply Rmult_le_reg_r with (1 - exp (-37)); [lra|].
  unfold Rdiv. rewrite Rmult_assoc, Rinv_l by lra. lra.
Qed.
