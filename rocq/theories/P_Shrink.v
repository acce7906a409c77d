(** C101: penalties shrink; large penalties leave only the intercept. *)
From Coq Require Import List Lia Lra Arith. Import ListNotations.
From Verif Require Import Base M_Link M_Dist M_Std M_Valid M_Fit L_KKT L_Std L_Solver3 S_Dist S_Std S_Fit S_FitAll L_Dist L_Score L_FitAll L_Gap L_Fit P_Dist P_Score P_FitAll P_Train P_Order.
From Verif Require Import M_Solver S_Solver.
Local Open Scope R_scope.

Lemma half_dev_nonneg u b0 b : user_ok u -> convex_pair (u_fam u) (u_link u) -> 0 <= user_half_dev u b0 b.
Proof.
  intros (F & Y & W & _) Hc. unfold user_half_dev. apply Rmult_le_pos; [lra|]. apply C08_deviance_nonneg; [exact F|].
  intros o Ho. apply in_map_iff in Ho. destruct Ho as [i [<- Hi]]. apply in_seq in Hi. cbn [oy ow omu]. split; [split|].
  - apply Y. lia.
  - apply safe_mean_range. destruct (u_fam u), (u_link u); cbn in *; try exact Hc; try exact I; tauto.
  - apply W. lia.
Qed.
Lemma alpha_l2 u x d : user_l2 (at_alpha u x) (pen_scale (at_alpha u x)) d = x * user_l2 u (pen_scale u) d.
Proof.
  unfold user_l2. cbn [at_alpha u_p]. change (pen_scale (at_alpha u x)) with (pen_scale u). rewrite <- rsum_scal. apply rsum_ext. intros i _.
  rewrite <- rsum_scal. apply rsum_ext. intros j _. cbn [at_alpha u_P2]. destruct (u_P2 u) as [v|M]; cbn; [destruct (Nat.eqb i j); ring|ring].
Qed.
Lemma alpha_l1 u x b : rsum (u_p (at_alpha u x)) (fun j => u_P1 (at_alpha u x) j * Rabs (pen_scale (at_alpha u x) j * b j))
  = x * rsum (u_p u) (fun j => u_P1 u j * Rabs (pen_scale u j * b j)).
Proof. cbn [at_alpha u_p u_P1]. change (pen_scale (at_alpha u x)) with (pen_scale u). rewrite <- rsum_scal. apply rsum_ext. intros; ring. Qed.

(** Every silent fit pays for its penalty: the L2 form plus the L1 term is at most the half deviance gained over any model
    with zero coefficients, up to the tolerance. *)
Theorem C101_penalty_bound : forall s u se q l guess a b0 b sl c D, user_ok u -> 0 <= se_approx se -> se_stol se = None ->
  convex_pair (u_fam u) (u_link u) -> libs_sound sl l -> start_ok u a -> accepts s u q -> s <> SMono ->
  (s = SLbfgs \/ s = STrust -> unclipped u b0 b) ->
  fit_with s u se q l guess a = Some (b0, b, false, false) ->
  admissible u q (fun _ => 0) -> (u_ic u = false -> c = 0) -> 0 <= D -> std_close u D b0 b c (fun _ => 0) ->
  user_l2 u (pen_scale u) b + rsum (u_p u) (fun j => u_P1 u j * Rabs (pen_scale u j * b j))
  <= user_half_dev u c (fun _ => 0) - user_half_dev u b0 b + fit_tol s u se * D + match s, q with STrust, Some _ => sl | _, _ => 0 end.
Proof.
  intros s u se q l guess a b0 b sl c D Hok HC Hst Hc Hl Ha Hacc Hs Hu E F I0 HD HX.
  destruct (C70_silent_near_optimal s u se q l guess a b0 b sl Hok HC Hst Hc Hl Ha Hacc Hs Hu E) as [[_ N] _].
  specialize (N c (fun _ => 0) D F I0 HD HX). rewrite !obj_split, pen_zero in N.
  rewrite (user_l2_sym u (pen_scale u) b (fun j => 0 - b j)) in N by (intros; ring).
  pose proof (pred_dev_nonneg u b0 b c (fun _ => 0) Hok Hc) as P. unfold user_pen in N. lra.
Qed.
Print Assumptions C101_penalty_bound.

Lemma quad_root x A B : 0 <= A -> 0 <= B -> x ^ 2 <= A + B * x -> x <= B + sqrt A.
Proof.
  intros HA HB H. pose proof (sqrt_pos A) as P. pose proof (sqrt_def A HA) as SA.
  destruct (Rle_lt_dec x (B + sqrt A)) as [L|L]; [exact L|]. exfalso.
  assert (X : sqrt A * sqrt A < (x - B) * x) by (apply Rmult_le_0_lt_compat; lra). rewrite SA in X. nra.
Qed.
(** C101_penalty_bound with the largest coefficient as the distance *)
Lemma shrink_max s u se q l guess a b0 b sl c K alpha S0 k :
  let v := at_alpha u alpha in let tol := fit_tol s v se in
  user_ok v -> 0 <= se_approx se -> se_stol se = None -> 0 <= se_gtol se ->
  convex_pair (u_fam u) (u_link u) -> libs_sound sl l -> start_ok u a -> accepts s v q -> s <> SMono ->
  (s = SLbfgs \/ s = STrust -> unclipped u b0 b) ->
  fit_with s v se q l guess a = Some (b0, b, false, false) ->
  admissible u q (fun _ => 0) -> 0 <= K -> (u_ic u = false -> c = 0) ->
  (u_ic u = true -> Rabs (b0 + rsum (u_p u) (fun j => u_means u j * b j) - c) <= K) ->
  0 <= sl -> (forall j, (j < u_p u)%nat -> col_scale u j <= S0) ->
  (k < u_p u)%nat -> (forall j, (j < u_p u)%nat -> Rabs (b j) <= Rabs (b k)) ->
  0 <= tol /\ 0 <= S0 /\
  alpha * (user_l2 u (pen_scale u) b + rsum (u_p u) (fun j => u_P1 u j * Rabs (pen_scale u j * b j)))
  <= user_half_dev u c (fun _ => 0) + tol * K + sl + tol * S0 * Rabs (b k).
Proof.
  intros v tol Hok HC Hst HG Hc Hl Ha Hacc Hs Hu E F HK I0 HI Hsl HS Hk HM.
  assert (SP : forall j, 0 < col_scale u j) by (intros i; rewrite col_scale_inv; apply Rinv_0_lt_compat, inv_pos).
  assert (P0 : 0 <= S0) by (specialize (HS k Hk); specialize (SP k); lra).
  assert (T0 : 0 <= tol).
  { unfold tol, fit_tol. destruct s; try lra; (apply Rmult_le_pos; [exact HG|apply pos_INR]). }
  split; [exact T0|]. split; [exact P0|].
  pose proof (Rmult_le_pos S0 (Rabs (b k)) P0 (Rabs_pos _)) as SK.
  pose proof (C101_penalty_bound s v se q l guess a b0 b sl c (K + S0 * Rabs (b k)) Hok HC Hst Hc Hl Ha Hacc Hs Hu E F I0 ltac:(lra)) as B.
  unfold v in B. rewrite alpha_l2, alpha_l1 in B. fold v in B. fold tol in B.
  assert (CL : std_close v (K + S0 * Rabs (b k)) b0 b c (fun _ => 0)).
  { split.
    - intros IC. change (u_p v) with (u_p u). change (u_means v) with (u_means u). rewrite <- Rabs_Ropp.
      replace (- (c - b0 + rsum (u_p u) (fun j => u_means u j * (0 - b j)))) with (b0 + rsum (u_p u) (fun j => u_means u j * b j) - c).
      + specialize (HI IC). lra.
      + rewrite (rsum_ext (u_p u) (fun j => u_means u j * (0 - b j)) (fun j => (-1) * (u_means u j * b j))) by (intros; ring). rewrite rsum_scal. ring.
    - intros j Hj. change (u_p v) with (u_p u) in Hj. change (col_scale v j) with (col_scale u j). rewrite Rabs_minus_sym, Rminus_0_r.
      apply Rle_trans with (S0 * Rabs (b k)); [|lra].
      apply Rmult_le_compat; [left; apply SP|apply Rabs_pos|apply HS, Hj|apply HM, Hj]. }
  specialize (B CL). change (user_half_dev v) with (user_half_dev u) in B.
  pose proof (half_dev_nonneg v b0 b Hok Hc) as N. change (user_half_dev v) with (user_half_dev u) in N.
  assert (X : match s, q with STrust, Some _ => sl | _, _ => 0 end <= sl) by (destruct s, q; lra). lra.
Qed.

(** The rates, for the penalties multiplied by alpha; K bounds the distance of the intercepts (of the centred columns) and is
    not needed without an intercept. *)
Theorem C101_l2_rate : forall s u se q l guess a b0 b sl c K alpha m S0,
  let v := at_alpha u alpha in let tol := fit_tol s v se in
  user_ok v -> 0 <= se_approx se -> se_stol se = None -> 0 <= se_gtol se ->
  convex_pair (u_fam u) (u_link u) -> libs_sound sl l -> start_ok u a -> accepts s v q -> s <> SMono ->
  (s = SLbfgs \/ s = STrust -> unclipped u b0 b) ->
  fit_with s v se q l guess a = Some (b0, b, false, false) ->
  admissible u q (fun _ => 0) -> 0 <= K -> (u_ic u = false -> c = 0) ->
  (u_ic u = true -> Rabs (b0 + rsum (u_p u) (fun j => u_means u j * b j) - c) <= K) ->
  0 <= sl -> (forall j, (j < u_p u)%nat -> col_scale u j <= S0) ->
  0 < alpha -> 0 < m -> (forall d, m * rsum (u_p u) (fun j => d j ^ 2) <= user_l2 u (pen_scale u) d) ->
  forall j, (j < u_p u)%nat ->
    Rabs (b j) <= tol * S0 / (alpha * m) + sqrt ((user_half_dev u c (fun _ => 0) + tol * K + sl) / (alpha * m)).
Proof.
  intros s u se q l guess a b0 b sl c K alpha m S0 v tol Hok HC Hst HG Hc Hl Ha Hacc Hs Hu E F HK I0 HI Hsl HS Hal Hm HL j Hj.
  destruct (argmax (u_p u) (fun j => Rabs (b j)) ltac:(lia)) as [k [Hk HM]]. cbv beta in HM.
  destruct (shrink_max s u se q l guess a b0 b sl c K alpha S0 k Hok HC Hst HG Hc Hl Ha Hacc Hs Hu E F HK I0 HI Hsl HS Hk HM) as (T0 & P0 & B).
  fold v in T0, B. fold tol in T0, B. eapply Rle_trans; [apply HM, Hj|].
  assert (AM : 0 < alpha * m) by (apply Rmult_lt_0_compat; assumption).
  assert (H0 : 0 <= user_half_dev u c (fun _ => 0)) by (apply (half_dev_nonneg v c (fun _ => 0) Hok Hc)).
  pose proof (Rmult_le_pos _ _ T0 HK) as TK. pose proof (Rmult_le_pos _ _ T0 P0) as TS.
  apply quad_root.
  - apply Rmult_le_pos; [lra|]. left. apply Rinv_0_lt_compat, AM.
  - apply Rmult_le_pos; [exact TS|]. left. apply Rinv_0_lt_compat, AM.
  - apply Rmult_le_reg_l with (alpha * m); [exact AM|].
    replace (alpha * m * ((user_half_dev u c (fun _ => 0) + tol * K + sl) / (alpha * m) + tol * S0 / (alpha * m) * Rabs (b k)))
      with (user_half_dev u c (fun _ => 0) + tol * K + sl + tol * S0 * Rabs (b k)) by (field; lra).
    eapply Rle_trans; [|exact B]. rewrite Rmult_assoc. apply Rmult_le_compat_l; [lra|]. rewrite pow2_abs.
    pose proof (rsum_ge_one (u_p u) (fun j => b j ^ 2) k (fun i _ => pow2_ge_0 (b i)) Hk) as G. cbv beta in G.
    specialize (HL b). pose proof (Rmult_le_compat_l m _ _ (Rlt_le _ _ Hm) G).
    assert (0 <= rsum (u_p u) (fun j => u_P1 u j * Rabs (pen_scale u j * b j))).
    { apply rsum_nonneg. intros i _. destruct Hok as [_ [_ [_ [P1 _]]]]. specialize (P1 i). cbn [v at_alpha u_P1] in P1.
      apply Rmult_le_pos; [|apply Rabs_pos]. apply Rmult_le_reg_l with alpha; lra. }
    lra.
Qed.
Print Assumptions C101_l2_rate.

Theorem C101_l1_rate : forall s u se q l guess a b0 b sl c K alpha m S0,
  let v := at_alpha u alpha in let tol := fit_tol s v se in
  user_ok v -> 0 <= se_approx se -> se_stol se = None -> 0 <= se_gtol se ->
  convex_pair (u_fam u) (u_link u) -> libs_sound sl l -> start_ok u a -> accepts s v q -> s <> SMono ->
  (s = SLbfgs \/ s = STrust -> unclipped u b0 b) ->
  fit_with s v se q l guess a = Some (b0, b, false, false) ->
  admissible u q (fun _ => 0) -> 0 <= K -> (u_ic u = false -> c = 0) ->
  (u_ic u = true -> Rabs (b0 + rsum (u_p u) (fun j => u_means u j * b j) - c) <= K) ->
  0 <= sl -> (forall j, (j < u_p u)%nat -> col_scale u j <= S0) ->
  0 < alpha -> (forall j, (j < u_p u)%nat -> m <= u_P1 u j * pen_scale u j) -> tol * S0 < alpha * m ->
  forall j, (j < u_p u)%nat ->
    Rabs (b j) <= (user_half_dev u c (fun _ => 0) + tol * K + sl) / (alpha * m - tol * S0).
Proof.
  intros s u se q l guess a b0 b sl c K alpha m S0 v tol Hok HC Hst HG Hc Hl Ha Hacc Hs Hu E F HK I0 HI Hsl HS Hal HL AM j Hj.
  destruct (argmax (u_p u) (fun j => Rabs (b j)) ltac:(lia)) as [k [Hk HM]]. cbv beta in HM.
  destruct (shrink_max s u se q l guess a b0 b sl c K alpha S0 k Hok HC Hst HG Hc Hl Ha Hacc Hs Hu E F HK I0 HI Hsl HS Hk HM) as (T0 & P0 & B).
  fold v in T0, B. fold tol in T0, B. eapply Rle_trans; [apply HM, Hj|].
  apply Rmult_le_reg_r with (alpha * m - tol * S0); [lra|]. unfold Rdiv. rewrite Rmult_assoc, Rinv_l, Rmult_1_r by lra.
  assert (SP : forall j, 0 < pen_scale u j).
  { intros i. unfold pen_scale. destruct (u_scale u); [rewrite col_scale_inv; apply Rinv_0_lt_compat, inv_pos|lra]. }
  assert (P1 : forall i, 0 <= u_P1 u i).
  { intros i. destruct Hok as [_ [_ [_ [P1 _]]]]. specialize (P1 i). cbn [v at_alpha u_P1] in P1. apply Rmult_le_reg_l with alpha; lra. }
  pose proof (rsum_ge_one (u_p u) (fun j => u_P1 u j * Rabs (pen_scale u j * b j)) k (fun i _ => Rmult_le_pos _ _ (P1 i) (Rabs_pos _)) Hk) as G. cbv beta in G.
  rewrite Rabs_mult, (Rabs_pos_eq (pen_scale u k)) in G by (left; apply SP).
  assert (G2 : m * Rabs (b k) <= u_P1 u k * (pen_scale u k * Rabs (b k))).
  { rewrite <- Rmult_assoc. apply Rmult_le_compat_r; [apply Rabs_pos|apply HL, Hk]. }
  assert (L2 : 0 <= user_l2 u (pen_scale u) b).
  { destruct Hok as [_ [_ [_ [_ [_ HP]]]]]. specialize (HP (fun j => pen_scale u j * b j)).
    change (0 <= user_l2 v (pen_scale v) b) in HP. unfold v in HP. rewrite alpha_l2 in HP. apply Rmult_le_reg_l with alpha; lra. }
  assert (G3 : alpha * (m * Rabs (b k)) <= alpha * (user_l2 u (pen_scale u) b + rsum (u_p u) (fun j => u_P1 u j * Rabs (pen_scale u j * b j)))).
  { apply Rmult_le_compat_l; lra. }
  lra.
Qed.
Print Assumptions C101_l1_rate.

(** Every column penalised, by L1 or by a definite L2 form: as alpha grows all coefficients of all silent fits tend to zero. *)
Theorem C101_large_alpha : forall u c K T sl eps, 0 < eps -> 0 <= sl -> 0 <= K -> 0 <= T ->
  convex_pair (u_fam u) (u_link u) -> (u_ic u = false -> c = 0) ->
  (exists m, 0 < m /\ ((forall d, m * rsum (u_p u) (fun j => d j ^ 2) <= user_l2 u (pen_scale u) d) \/
                       (forall j, (j < u_p u)%nat -> m <= u_P1 u j * pen_scale u j))) ->
  exists A, 0 < A /\ forall alpha s se q l guess a b0 b, A <= alpha ->
    user_ok (at_alpha u alpha) -> 0 <= se_approx se -> se_stol se = None -> 0 <= se_gtol se -> fit_tol s (at_alpha u alpha) se <= T ->
    libs_sound sl l -> start_ok u a -> accepts s (at_alpha u alpha) q -> s <> SMono ->
    (s = SLbfgs \/ s = STrust -> unclipped u b0 b) ->
    fit_with s (at_alpha u alpha) se q l guess a = Some (b0, b, false, false) ->
    admissible u q (fun _ => 0) ->
    (u_ic u = true -> Rabs (b0 + rsum (u_p u) (fun j => u_means u j * b j) - c) <= K) ->
    forall j, (j < u_p u)%nat -> Rabs (b j) <= eps.
Proof.
  intros u c K T sl eps He Hsl HK HT Hc I0 [m [Hm HP]].
  set (S0 := rsum (u_p u) (col_scale u)). set (H := Rabs (user_half_dev u c (fun _ => 0)) + T * K + sl).
  assert (SP : forall j, 0 < col_scale u j) by (intros i; rewrite col_scale_inv; apply Rinv_0_lt_compat, inv_pos).
  assert (P0 : 0 <= S0) by (apply rsum_nonneg; intros i _; left; apply SP).
  assert (HS : forall j, (j < u_p u)%nat -> col_scale u j <= S0).
  { intros j Hj. apply (rsum_ge_one (u_p u) (col_scale u) j); [intros i _; left; apply SP|exact Hj]. }
  pose proof (Rmult_le_pos _ _ HT HK) as TK. pose proof (Rmult_le_pos _ _ HT P0) as TS.
  assert (H0 : 0 <= H) by (unfold H; pose proof (Rabs_pos (user_half_dev u c (fun _ => 0))); lra).
  set (X := 2 * (T * S0) / eps). set (Y := 4 * H / eps ^ 2). set (Z := H / eps).
  assert (E2 : 0 < eps ^ 2) by (apply pow_lt; exact He).
  assert (PX : 0 <= X) by (apply Rmult_le_pos; [lra|left; apply Rinv_0_lt_compat; exact He]).
  assert (PY : 0 <= Y) by (apply Rmult_le_pos; [lra|left; apply Rinv_0_lt_compat; exact E2]).
  assert (PZ : 0 <= Z) by (apply Rmult_le_pos; [lra|left; apply Rinv_0_lt_compat; exact He]).
  exists ((X + Y + Z + T * S0 + 1) / m). split; [apply Rdiv_lt_0_compat; lra|].
  intros alpha s se q l guess a b0 b HA Hok HC Hst HG Htol Hl Ha Hacc Hs Hu E F HI j Hj.
  assert (AM : X + Y + Z + T * S0 + 1 <= alpha * m).
  { apply (Rmult_le_compat_r m) in HA; [|lra]. unfold Rdiv in HA. rewrite Rmult_assoc, Rinv_l, Rmult_1_r in HA by lra. exact HA. }
  assert (Hal : 0 < alpha) by (apply Rmult_lt_reg_r with m; lra).
  assert (T0 : 0 <= fit_tol s (at_alpha u alpha) se).
  { unfold fit_tol. destruct s; try lra; (apply Rmult_le_pos; [exact HG|apply pos_INR]). }
  assert (HH : user_half_dev u c (fun _ => 0) + fit_tol s (at_alpha u alpha) se * K + sl <= H).
  { unfold H. pose proof (Rle_abs (user_half_dev u c (fun _ => 0))). pose proof (Rmult_le_compat_r K _ _ HK Htol). lra. }
  assert (TT : fit_tol s (at_alpha u alpha) se * S0 <= T * S0) by (apply Rmult_le_compat_r; assumption).
  assert (HN : 0 <= user_half_dev u c (fun _ => 0) + fit_tol s (at_alpha u alpha) se * K + sl).
  { pose proof (half_dev_nonneg (at_alpha u alpha) c (fun _ => 0) Hok Hc : 0 <= user_half_dev u c (fun _ => 0)). pose proof (Rmult_le_pos _ _ T0 HK). lra. }
  assert (QX : T * S0 <= eps / 2 * (alpha * m)).
  { replace (T * S0) with (eps / 2 * X) by (unfold X; field; lra). apply Rmult_le_compat_l; lra. }
  assert (QY : H <= (eps / 2) ^ 2 * (alpha * m)).
  { replace H with ((eps / 2) ^ 2 * Y) by (unfold Y; field; lra). apply Rmult_le_compat_l; [apply pow2_ge_0|lra]. }
  assert (QZ : H <= eps * (alpha * m - T * S0)).
  { replace H with (eps * Z) by (unfold Z; field; lra). apply Rmult_le_compat_l; lra. }
  destruct HP as [HL|HL].
  - pose proof (C101_l2_rate s u se q l guess a b0 b sl c K alpha m S0 Hok HC Hst HG Hc Hl Ha Hacc Hs Hu E F HK I0 HI Hsl HS Hal Hm HL j Hj) as B.
    cbv zeta in B.
    set (tol := fit_tol s (at_alpha u alpha) se) in *.
    assert (B1 : tol * S0 / (alpha * m) <= eps / 2).
    { apply Rmult_le_reg_r with (alpha * m); [lra|]. unfold Rdiv at 1. rewrite Rmult_assoc, Rinv_l, Rmult_1_r by lra. lra. }
    assert (B2 : sqrt ((user_half_dev u c (fun _ => 0) + tol * K + sl) / (alpha * m)) <= eps / 2).
    { rewrite <- (sqrt_pow2 (eps / 2)) by lra. apply sqrt_le_1_alt. apply Rmult_le_reg_r with (alpha * m); [lra|].
      unfold Rdiv at 1. rewrite Rmult_assoc, Rinv_l, Rmult_1_r by lra. lra. }
    lra.
  - pose proof (C101_l1_rate s u se q l guess a b0 b sl c K alpha m S0 Hok HC Hst HG Hc Hl Ha Hacc Hs Hu E F HK I0 HI Hsl HS Hal HL) as B.
    cbv zeta in B. set (tol := fit_tol s (at_alpha u alpha) se) in *. specialize (B ltac:(lra) j Hj).
    eapply Rle_trans; [exact B|]. apply Rmult_le_reg_r with (alpha * m - tol * S0); [lra|].
    unfold Rdiv. rewrite Rmult_assoc, Rinv_l, Rmult_1_r by lra.
    pose proof (Rmult_le_compat_l eps (alpha * m - T * S0) (alpha * m - tol * S0) (Rlt_le _ _ He) ltac:(lra)). lra.
Qed.
Print Assumptions C101_large_alpha.

(** Ridge regression on three rows without intercept: the hypotheses hold for every alpha > 0. *)
Definition ex101_u : user :=
  mkUser 3 1 (fun i _ => INR i) (fun i => match i with 0%nat => 1 | 1%nat => 2 | _ => 5 end) (fun _ => / 3) (fun _ => 0) false NormalF IdentityL
    (fun _ => 0) (P2diag (fun _ => / 2)) (fun _ => None) (fun _ => None) false.
Example ex101_nonvacuous : forall alpha, 0 < alpha -> exists b,
  user_ok (at_alpha ex101_u alpha) /\ convex_pair (u_fam ex101_u) (u_link ex101_u) /\ libs_sound 0 exact_libs /\ start_ok ex101_u StartNone /\
  accepts SClosed (at_alpha ex101_u alpha) None /\ fit_tol SClosed (at_alpha ex101_u alpha) ex70_se <= 0 /\
  fit_with SClosed (at_alpha ex101_u alpha) ex70_se None exact_libs 0 StartNone = Some (0, b, false, false) /\
  admissible ex101_u None (fun _ => 0) /\
  forall d, / 2 * rsum (u_p ex101_u) (fun j => d j ^ 2) <= user_l2 ex101_u (pen_scale ex101_u) d.
Proof.
  intros alpha Hal. set (v := at_alpha ex101_u alpha).
  assert (Hok : user_ok v).
  { split; [exact I|]. split; [intros; exact I|]. split; [intros; simpl; lra|]. split; [intros; simpl; lra|]. split.
    - intros i j _ _. cbn. rewrite (Nat.eqb_sym j i). destruct (Nat.eqb i j); reflexivity.
    - intros x. simpl. pose proof (Rle_0_sqr (x 0%nat)) as Q. unfold Rsqr in Q. nra. }
  assert (Hst : start_ok ex101_u StartNone) by (left; split; [reflexivity|]; intros j _; split; discriminate).
  assert (Hac : accepts SClosed v None).
  { split; [intros _; split; [intros j _; cbn; ring|intros j _; split; reflexivity]|congruence]. }
  assert (R0 : exists b0 b, fit_with SClosed v ex70_se None exact_libs 0 StartNone = Some (b0, b, false, false)).
  { unfold fit_with, solve. cbv zeta. change (se_has_bounds ex70_se) with false.
    assert (X : (normal_identity v && forallb (fun j => Reqb (pb_P1 (std_problem v (solve_settings SClosed v ex70_se)) j) 0) (seq 0 (u_p v)) && negb false && true)%bool = true).
    { unfold normal_identity. cbn [v at_alpha ex101_u u_fam u_link andb negb]. rewrite !Bool.andb_true_r. apply forallb_forall. intros j Hj.
      apply Reqb_true. change (std_P1 (u_scale v) (u_P1 v) (u_stds v) j = 0). unfold std_P1. cbn [v at_alpha ex101_u u_scale u_P1]. ring. }
    rewrite X. destruct (user_result v _) as [b0 b]. exists b0, b. reflexivity. }
  destruct R0 as [b0 [b E]]. exists b.
  assert (Z : b0 = 0).
  { destruct (C70_silent_near_optimal SClosed v ex70_se None exact_libs 0 StartNone b0 b 0
      Hok (Rle_refl 0) eq_refl I (exact_libs_sound 0 (Rle_refl 0)) Hst Hac
      ltac:(discriminate) ltac:(intros [H|H]; discriminate) E) as [[A _] _]. apply A. reflexivity. }
  subst b0. split; [exact Hok|]. split; [exact I|]. split; [apply exact_libs_sound; lra|]. split; [exact Hst|]. split; [exact Hac|].
  split; [cbn; lra|]. split; [exact E|]. split; [split; [intros j _; split; discriminate|exact I]|].
  intros d. unfold user_l2. cbn. lra.
Qed.
