(** Theorems C62-C64: score equations, agreement of fits, the trade-off along alphas. *)
From Verif Require Import M_Std S_Std L_Link L_Dist L_Dist2 L_Dist4 L_CD L_KKT L_Hess L_Solver L_Solver2 L_Solver3 L_Obj L_Std L_Fit L_Rows P_Solver P_Obj P_Std P_Fit L_Score.
From Verif Require Import M_Solver S_Solver S_Fit.
Local Open Scope R_scope.

Lemma fit_rows_cd u se seed ho rows a res : fit_rows u se seed ho rows a = Some res ->
  exists g, fit_cd (with_rows u rows) se seed g a = Some res.
Proof.
  unfold fit_rows. intros E. destruct a; [eauto| |eauto]. destruct (u_ic u); [|eauto].
  destruct (guess_intercept _ _ _ _); [eauto|discriminate].
Qed.
Lemma wtot_lsum rows : wtot rows = lsum (map r_w rows).
Proof. unfold wtot. rewrite lsum_lsumf, lsumf_map. reflexivity. Qed.
Lemma rows_sum u rows b0 b (F : R -> R -> (nat -> R) -> R) : wtot rows <> 0 ->
  rsum (u_n (with_rows u rows)) (fun i => u_w (with_rows u rows) i * F (u_y (with_rows u rows) i) (user_eta (with_rows u rows) b0 b i) (u_X (with_rows u rows) i))
  = lsum (map (fun r => r_w r * F (r_y r) (row_eta (u_p u) b0 b r) (r_x r)) rows) / lsum (map r_w rows).
Proof.
  intros W. pose proof (sum_rows u rows (fun x y off => F y (b0 + rsum (u_p u) (fun j => x j * b j) + off) x)) as Q.
  unfold user_eta. cbn [with_rows u_n u_p u_X u_y u_off] in *. etransitivity; [exact Q|].
  unfold ravg, wtot. rewrite !lsum_lsumf, !lsumf_map. reflexivity.
Qed.
Lemma div_bound s W g : 0 < W -> Rabs (s / W) <= g -> Rabs s <= g * W.
Proof.
  intros HW H. unfold Rdiv in H. rewrite Rabs_mult, (Rabs_right (/ W)) in H by (left; apply Rinv_0_lt_compat, HW).
  apply Rmult_le_reg_r with (/ W); [apply Rinv_0_lt_compat, HW|]. rewrite Rmult_assoc, Rinv_r by lra. lra.
Qed.
Lemma div_bound_lt s W g : 0 < W -> Rabs (s / W) < g -> Rabs s < g * W.
Proof.
  intros HW H. unfold Rdiv in H. rewrite Rabs_mult, (Rabs_right (/ W)) in H by (left; apply Rinv_0_lt_compat, HW).
  apply Rmult_lt_reg_r with (/ W); [apply Rinv_0_lt_compat, HW|]. rewrite Rmult_assoc, Rinv_r by lra. lra.
Qed.

(** C62: a fit with intercept that returned without a convergence warning (gradient criterion) satisfies
    the first likelihood equation up to gradient_tol times the total weight; for the canonical pairs
    (and with raw, not normalised, weights) total predicted equals total observed: *)
Theorem C62_balance : forall u se seed ho rows a b0 b, user_ok (with_rows u rows) -> 0 < lsum (map r_w rows) ->
  0 <= se_approx se -> se_stol se = None -> u_ic u = true -> balanced_pair (u_fam u) (u_link u) ->
  fit_rows u se seed ho rows a = Some (b0, b, false) ->
  Rabs (lsum (map (fun r => r_w r * (r_y r - mean_at (u_link u) (row_eta (u_p u) b0 b r))) rows)) < se_gtol se * lsum (map r_w rows).
Proof.
  intros u se seed ho rows a b0 b Hok HW HC Hst Hic Hb E.
  assert (Hc : convex_pair (u_fam u) (u_link u)).
  { unfold convex_pair. unfold balanced_pair in Hb. destruct (u_fam u), (u_link u); try exact I; try (exfalso; exact Hb); lra. }
  destruct (fit_rows_cd _ _ _ _ _ _ _ E) as [g Eg].
  pose proof (silent_intercept (with_rows u rows) se seed g a b0 b Hok HC Hst Hic Hc Eg) as Q.
  assert (HW' : wtot rows <> 0) by (rewrite wtot_lsum; lra).
  pose proof (rows_sum u rows b0 b (fun y eta _ => residual (u_fam u) (u_link u) y eta) HW') as X. cbv beta in X.
  change (u_fam (with_rows u rows)) with (u_fam u) in Q. change (u_link (with_rows u rows)) with (u_link u) in Q.
  rewrite X in Q. apply div_bound_lt in Q; [|exact HW].
  assert (M : map (fun r => r_w r * residual (u_fam u) (u_link u) (r_y r) (row_eta (u_p u) b0 b r)) rows
            = map (fun r => r_w r * (r_y r - mean_at (u_link u) (row_eta (u_p u) b0 b r))) rows); [|rewrite M in Q; exact Q].
  apply map_ext. intros r. f_equal. unfold balanced_pair in Hb. unfold residual.
  destruct (u_fam u) as [p| | | | | | |th], (u_link u); try reflexivity; try (exfalso; exact Hb).
  rewrite Hb. replace ((1 - 1) * row_eta (u_p u) b0 b r) with 0 by ring. rewrite exp_0. cbn. ring.
Qed.
Print Assumptions C62_balance.

(** the same for every convex pair, with the residuals of its likelihood equation *)
Theorem C62_intercept_equation : forall u se seed ho rows a b0 b, user_ok (with_rows u rows) -> 0 < lsum (map r_w rows) ->
  0 <= se_approx se -> se_stol se = None -> u_ic u = true -> convex_pair (u_fam u) (u_link u) ->
  fit_rows u se seed ho rows a = Some (b0, b, false) ->
  Rabs (lsum (map (fun r => r_w r * residual (u_fam u) (u_link u) (r_y r) (row_eta (u_p u) b0 b r)) rows)) < se_gtol se * lsum (map r_w rows).
Proof.
  intros u se seed ho rows a b0 b Hok HW HC Hst Hic Hc E.
  destruct (fit_rows_cd _ _ _ _ _ _ _ E) as [g Eg].
  pose proof (silent_intercept (with_rows u rows) se seed g a b0 b Hok HC Hst Hic Hc Eg) as Q.
  assert (HW' : wtot rows <> 0) by (rewrite wtot_lsum; lra).
  pose proof (rows_sum u rows b0 b (fun y eta _ => residual (u_fam u) (u_link u) y eta) HW') as X. cbv beta in X.
  change (u_fam (with_rows u rows)) with (u_fam u) in Q. change (u_link (with_rows u rows)) with (u_link u) in Q.
  rewrite X in Q. apply div_bound_lt in Q; [exact Q|exact HW].
Qed.
Print Assumptions C62_intercept_equation.

(** and, for a column that is neither penalised nor bounded, its own likelihood equation *)
Theorem C62_column_equation : forall u se seed ho rows a b0 b j, user_ok (with_rows u rows) -> 0 < lsum (map r_w rows) ->
  0 <= se_approx se -> se_stol se = None -> convex_pair (u_fam u) (u_link u) -> (j < u_p u)%nat -> free_column u j ->
  fit_rows u se seed ho rows a = Some (b0, b, false) ->
  Rabs (lsum (map (fun r => r_w r * (residual (u_fam u) (u_link u) (r_y r) (row_eta (u_p u) b0 b r) * r_x r j)) rows))
  <= se_gtol se * Rmax (col_scale (with_rows u rows) j) (Rabs (u_means (with_rows u rows) j)) * lsum (map r_w rows).
Proof.
  intros u se seed ho rows a b0 b j Hok HW HC Hst Hc Hj HF E.
  destruct (fit_rows_cd _ _ _ _ _ _ _ E) as [g Eg].
  pose proof (silent_column (with_rows u rows) se seed g a b0 b j Hok HC Hst Hc Hj HF Eg) as Q.
  assert (HW' : wtot rows <> 0) by (rewrite wtot_lsum; lra).
  pose proof (rows_sum u rows b0 b (fun y eta x => residual (u_fam u) (u_link u) y eta * x j) HW') as X. cbv beta in X.
  rewrite (rsum_ext _ _ (fun i => u_w (with_rows u rows) i * (residual (u_fam u) (u_link u) (u_y (with_rows u rows) i) (user_eta (with_rows u rows) b0 b i) * u_X (with_rows u rows) i j))) in Q
    by (intros; cbn [with_rows u_fam u_link]; ring).
  rewrite X in Q. apply div_bound in Q; [exact Q|exact HW].
Qed.
Print Assumptions C62_column_equation.

(** In particular every level of an unpenalised categorical (0/1 column) is balanced. *)
Theorem C62_level_balance : forall u se seed ho rows a b0 b j, user_ok (with_rows u rows) -> 0 < lsum (map r_w rows) ->
  0 <= se_approx se -> se_stol se = None -> balanced_pair (u_fam u) (u_link u) -> (j < u_p u)%nat -> free_column u j ->
  (forall r, In r rows -> r_x r j = 0 \/ r_x r j = 1) ->
  fit_rows u se seed ho rows a = Some (b0, b, false) ->
  Rabs (lsum (map (fun r => r_w r * (r_y r - mean_at (u_link u) (row_eta (u_p u) b0 b r))) (filter (fun r => Reqb (r_x r j) 1) rows)))
  <= se_gtol se * lsum (map r_w rows).
Proof.
  intros u se seed ho rows a b0 b j Hok HW HC Hst Hb Hj HF H01 E.
  assert (Hc : convex_pair (u_fam u) (u_link u)).
  { unfold convex_pair. unfold balanced_pair in Hb. destruct (u_fam u), (u_link u); try exact I; try (exfalso; exact Hb); lra. }
  pose proof (C62_column_equation u se seed ho rows a b0 b j Hok HW HC Hst Hc Hj HF E) as Q.
  assert (HW' : wtot rows <> 0) by (rewrite wtot_lsum; lra).
  set (u' := with_rows u rows) in *.
  assert (W1 : rsum (u_n u') (u_w u') = 1).
  { rewrite (rsum_ext _ _ (fun i => u_w u' i * 1)) by (intros; ring).
    unfold u'. rewrite (rows_sum u rows 0 (fun _ => 0) (fun _ _ _ => 1) HW').
    replace (map (fun r => r_w r * 1) rows) with (map r_w rows) by (apply map_ext; intros; ring). field. lra. }
  assert (W0 : forall i, (i < u_n u')%nat -> 0 <= u_w u' i) by apply Hok.
  assert (X01 : forall i, (i < u_n u')%nat -> 0 <= u_X u' i j <= 1).
  { intros i Hi. cbn. destruct (H01 (nth i rows row0) (nth_In _ _ Hi)) as [-> | ->]; lra. }
  assert (M01 : 0 <= wmean (u_n u') (u_w u') (fun i => u_X u' i j) <= 1).
  { unfold wmean. split.
    - apply rsum_nonneg. intros i Hi. apply Rmult_le_pos; [apply W0, Hi|apply X01, Hi].
    - rewrite <- W1. apply rsum_le. intros i Hi. rewrite <- (Rmult_1_r (u_w u' i)) at 2. apply Rmult_le_compat_l; [apply W0, Hi|apply X01, Hi]. }
  assert (S1 : col_scale u' j <= 1).
  { unfold col_scale. destruct (Rltb _ _); [lra|]. unfold u_stds, col_stds. rewrite <- sqrt_1. apply sqrt_le_1_alt.
    rewrite <- W1. apply rsum_le. intros i Hi. rewrite <- (Rmult_1_r (u_w u' i)) at 2. apply Rmult_le_compat_l; [apply W0, Hi|].
    specialize (X01 i Hi). set (x := u_X u' i j) in *. set (m := wmean _ _ _) in *. nra. }
  assert (S2 : Rabs (u_means u' j) <= 1).
  { unfold u_means, col_means. destruct (u_ic u'); [rewrite Rabs_right; lra|rewrite Rabs_R0; lra]. }
  assert (GT : 0 <= se_gtol se).
  { destruct (fit_rows_cd _ _ _ _ _ _ _ E) as [g Eg]. destruct (silent_state u' se seed g a b0 b Hok HC Hst Eg) as [v [_ [T _]]]. cbv zeta in T.
    apply Rlt_le. eapply Rle_lt_trans; [|exact T]. apply rsum_nonneg. intros; apply entry_nonneg. }
  assert (MX : Rmax (col_scale u' j) (Rabs (u_means u' j)) <= 1) by (apply Rmax_lub; assumption).
  replace (lsum (map (fun r => r_w r * (r_y r - mean_at (u_link u) (row_eta (u_p u) b0 b r))) (filter (fun r => Reqb (r_x r j) 1) rows)))
    with (lsum (map (fun r => r_w r * (residual (u_fam u) (u_link u) (r_y r) (row_eta (u_p u) b0 b r) * r_x r j)) rows)).
  - eapply Rle_trans; [exact Q|]. apply Rmult_le_compat_r; [lra|]. rewrite <- (Rmult_1_r (se_gtol se)) at 2. apply Rmult_le_compat_l; [exact GT|exact MX].
  - clear - H01 Hb. induction rows as [|r rows IH]; [reflexivity|]. cbn [map filter].
    assert (LC : forall x l, lsum (x :: l) = x + lsum l) by reflexivity.
    rewrite LC, (IH (fun r' Hr => H01 r' (or_intror Hr))).
    assert (R : residual (u_fam u) (u_link u) (r_y r) (row_eta (u_p u) b0 b r) = r_y r - mean_at (u_link u) (row_eta (u_p u) b0 b r)).
    { unfold balanced_pair in Hb. unfold residual. destruct (u_fam u) as [p| | | | | | |th], (u_link u); try reflexivity; try (exfalso; exact Hb).
      rewrite Hb. replace ((1 - 1) * row_eta (u_p u) b0 b r) with 0 by ring. rewrite exp_0. cbn. ring. }
    rewrite R. destruct (H01 r (or_introl eq_refl)) as [E|E]; rewrite E.
    + rewrite (proj2 (Reqb_false 0 1)) by lra. ring.
    + rewrite (proj2 (Reqb_true 1 1)) by lra. cbn [map]. rewrite LC. ring.
Qed.
Print Assumptions C62_level_balance.

(** Four policies in two tariff cells, Poisson with log link and no penalty, default start: the fit returns
    without a warning and all hypotheses above hold. *)
Definition ex62_u : user :=
  mkUser 0 1 (fun _ _ => 0) (fun _ => 0) (fun _ => 0) (fun _ => 0) true PoissonF LogL (fun _ => 0) (P2diag (fun _ => 0)) (fun _ => None) (fun _ => None) false.
Definition ex62_rows : list row :=
  [mkRow (fun _ => 0) 1 2 0; mkRow (fun _ => 0) 3 2 0; mkRow (fun _ => 1) 1 2 0; mkRow (fun _ => 1) 3 2 0].
Definition ex62_se : settings := mkSettings 10 100 (1 / 10000) None 0 None false false 1000000 0.
Lemma ex62_w i : (i < 4)%nat -> u_w (with_rows ex62_u ex62_rows) i = / 4.
Proof. intros Hi. destruct i as [|[|[|[|]]]]; try lia; cbn; field. Qed.
Lemma ex62_ok : user_ok (with_rows ex62_u ex62_rows).
Proof.
  split; [exact I|]. split; [|split; [|split; [intros; cbn; lra|split]]].
  - intros i Hi. cbn in Hi. destruct i as [|[|[|[|]]]]; try lia; cbn; lra.
  - intros i Hi. rewrite ex62_w by exact Hi. lra.
  - intros i j Hi Hj. cbn in Hi, Hj. replace i with j by lia. reflexivity.
  - intros v. cbn. lra.
Qed.
Example C62_nonvacuous : forall seed, exists b0 b,
  fit_rows ex62_u ex62_se seed false ex62_rows StartNone = Some (b0, b, false) /\
  user_ok (with_rows ex62_u ex62_rows) /\ 0 < lsum (map r_w ex62_rows) /\ balanced_pair (u_fam ex62_u) (u_link ex62_u) /\
  free_column ex62_u 0 /\ (forall r, In r ex62_rows -> r_x r 0%nat = 0 \/ r_x r 0%nat = 1) /\ b0 = ln 2.
Proof.
  intros seed.
  assert (F : free_column ex62_u 0) by (split; [reflexivity|]; split; [intros l _; cbn; destruct l; reflexivity|]; split; reflexivity).
  set (u' := with_rows ex62_u ex62_rows).
  set (v := get_start_coef (u_p u') (u_ic u') (u_means u') (u_stds u') (ln 2) (u_lb u') (u_ub u') StartNone).
  assert (V0 : v 0%nat = ln 2) by reflexivity. assert (V1 : v 1%nat = 0) by reflexivity.
  assert (B1 : forall j, snd (user_result u' v) j = v (S j) * one_over (u_stds u' j)) by (intros; apply result_coef).
  assert (B0 : fst (user_result u' v) = ln 2).
  { unfold user_result, unpack, unstandardize. cbn [with_rows u_ic ex62_u fst u']. cbn [rsum u_p with_rows ex62_u u'].
    change (v 1%nat) with 0. change (v 0%nat) with (ln 2). ring. }
  assert (ETA : forall i, (i < 4)%nat -> user_eta u' (fst (user_result u' v)) (snd (user_result u' v)) i = ln 2).
  { intros i Hi. unfold user_eta. rewrite B0. change (u_p u') with 1%nat. cbn [rsum]. rewrite B1, V1.
    destruct i as [|[|[|[|]]]]; try lia; cbn; ring. }
  assert (RES : forall i, (i < 4)%nat -> residual (u_fam u') (u_link u') (u_y u' i) (ln 2) = u_y u' i - 2).
  { intros i Hi. cbn. rewrite exp_ln by lra. reflexivity. }
  assert (T : fit_cd u' ex62_se seed (ln 2) StartNone = Some (user_result u' v, false)).
  { apply fit_at_start; [apply ex62_ok|cbn; lra|]. cbv zeta. fold v.
    change (nc (std_problem u' ex62_se)) with 2%nat. cbn [rsum].
    unfold entry. cbn [std_problem pb_ic u' with_rows ex62_u u_ic ioff Nat.ltb Nat.leb Nat.sub pb_P1 pb_lb pb_ub u_P1 u_lb u_ub u_scale].
    fold u'.
    replace (std_P1 false (fun _ => 0) (u_stds u') 0%nat) with 0 by (unfold std_P1; ring).
    change (std_bounds (fun _ => None) (u_stds u') 0%nat) with (@None R).
    rewrite subgrad_free.
    rewrite (score_intercept u' ex62_se v eq_refl I).
    change 1%nat with (ioff (u_ic u') + 0)%nat at 1. rewrite (score_column u' ex62_se v 0 Nat.lt_0_1 (proj1 (proj2 F)) I).
    change (u_n u') with 4%nat.
    rewrite (rsum_ext 4 _ (fun i => / 4 * (u_y u' i - 2))) by (intros i Hi; unfold u' at 1; rewrite ex62_w, ETA, RES by exact Hi; reflexivity).
    rewrite (rsum_ext 4 (fun i => u_w u' i * _ * _) (fun i => / 4 * (u_y u' i - 2) * ((u_X u' i 0 - u_means u' 0) * one_over (u_stds u' 0))))
      by (intros i Hi; unfold u' at 1; rewrite ex62_w, ETA, RES by exact Hi; reflexivity).
    set (m := u_means u' 0). set (o := one_over _). cbn [rsum u' with_rows u_y u_X ex62_rows nth r_y r_x].
    match goal with |- 0 + Rabs ?x + Rabs ?y < _ => replace x with 0 by field; replace y with 0 by field end.
    rewrite Rabs_R0. cbn. lra. }
  exists (fst (user_result u' v)), (snd (user_result u' v)).
  split; [|split; [apply ex62_ok|split; [cbn; lra|split; [exact I|split; [exact F|split; [|exact B0]]]]]].
  - unfold fit_rows. fold u'. change (u_ic ex62_u) with true. cbv iota beta.
    assert (G : guess_intercept PoissonF LogL false (map (fun i => mkgrow (u_y u' i) (u_w u' i) (u_off u' i)) (seq 0 (u_n u'))) = Some (ln 2)).
    { unfold guess_intercept. assert (A : all_equal (map (fun i => mkgrow (u_y u' i) (u_w u' i) (u_off u' i)) (seq 0 (u_n u'))) = false).
      { cbn. rewrite (proj2 (Reqb_false 3 1)) by lra. reflexivity. }
      rewrite A. cbn [andb]. do 2 f_equal. unfold gavg. change (u_n u') with 4%nat. cbn [seq map]. unfold u' at 2 4 6 8 10 12 14 16. 
      repeat rewrite lsumf_cons. rewrite !lsumf_nil. cbn [g_y g_w]. rewrite !ex62_w by lia. cbn. field. }
    change (u_fam ex62_u) with PoissonF. change (u_link ex62_u) with LogL. rewrite G, T. destruct (user_result u' v); reflexivity.
  - intros r [<-|[<-|[<-|[<-|[]]]]]; cbn; lra.
Qed.

(** C63: two fits of the same convex problem that returned without a warning agree, whatever their starts,
    seeds and settings: in the objective, and in the coefficients as far as the L2 penalty determines them. *)
Lemma std_close_sym u D b0 b b0' b' : std_close u D b0 b b0' b' -> std_close u D b0' b' b0 b.
Proof.
  intros [A B]. split.
  - intros H. specialize (A H). rewrite <- Rabs_Ropp.
    replace (- (b0 - b0' + rsum (u_p u) (fun j => u_means u j * (b j - b' j)))) with (b0' - b0 + rsum (u_p u) (fun j => u_means u j * (b' j - b j))); [exact A|].
    rewrite (rsum_ext _ (fun j => u_means u j * (b j - b' j)) (fun j => - (u_means u j * (b' j - b j)))) by (intros; ring). rewrite rsum_opp. ring.
  - intros j Hj. rewrite Rabs_minus_sym. apply B, Hj.
Qed.
Lemma user_l2_sym u k d d' : (forall j, d' j = - d j) -> user_l2 u k d' = user_l2 u k d.
Proof. intros H. unfold user_l2. apply rsum_ext. intros i _. apply rsum_ext. intros j _. rewrite !H. ring. Qed.
Theorem C63_fits_agree : forall u se1 se2 seed1 seed2 g1 g2 a1 a2 b0 b b0' b' D, user_ok u ->
  0 <= se_approx se1 -> 0 <= se_approx se2 -> seeds_ok seed1 -> seeds_ok seed2 -> se_stol se1 = None -> se_stol se2 = None ->
  convex_pair (u_fam u) (u_link u) -> start_ok u a1 -> start_ok u a2 ->
  fit_cd u se1 seed1 g1 a1 = Some (b0, b, false) -> fit_cd u se2 seed2 g2 a2 = Some (b0', b', false) ->
  0 <= D -> std_close u D b0 b b0' b' ->
  user_l2 u (pen_scale u) (fun j => b' j - b j) <= (se_gtol se1 + se_gtol se2) * D /\
  user_obj u (pen_scale u) b0 b <= user_obj u (pen_scale u) b0' b' + se_gtol se1 * D /\
  user_obj u (pen_scale u) b0' b' <= user_obj u (pen_scale u) b0 b + se_gtol se2 * D.
Proof.
  intros u se1 se2 seed1 seed2 g1 g2 a1 a2 b0 b b0' b' D Hok C1 C2 S1 S2 T1 T2 Hc A1 A2 E1 E2 HD HX.
  destruct (silent_margin u se1 seed1 g1 a1 b0 b Hok C1 S1 T1 Hc A1 E1) as [F1 [I1 M1]].
  destruct (silent_margin u se2 seed2 g2 a2 b0' b' Hok C2 S2 T2 Hc A2 E2) as [F2 [I2 M2]].
  specialize (M1 b0' b' D F2 I2 HD HX). specialize (M2 b0 b D F1 I1 HD (std_close_sym _ _ _ _ _ _ HX)).
  rewrite (user_l2_sym u (pen_scale u) (fun j => b' j - b j) (fun j => b j - b' j)) in M2 by (intros; ring).
  assert (P : 0 <= user_l2 u (pen_scale u) (fun j => b' j - b j)).
  { destruct Hok as [_ [_ [_ [_ [_ HP]]]]]. apply (HP (fun j => pen_scale u j * (b' j - b j))). }
  lra.
Qed.
Print Assumptions C63_fits_agree.

(** Without intercept and with an L2 penalty of at least m on every coefficient the coefficients agree up
    to (gradient_tol + gradient_tol) * (largest column scale) / m. *)
Lemma argmax n (f : nat -> R) : (0 < n)%nat -> exists k, (k < n)%nat /\ forall i, (i < n)%nat -> f i <= f k.
Proof.
  induction n as [|n IH]; [lia|]. intros _. destruct n as [|n].
  - exists 0%nat. split; [lia|]. intros i Hi. replace i with 0%nat by lia. lra.
  - destruct (IH ltac:(lia)) as [k [Hk H]]. destruct (Rle_dec (f (S n)) (f k)) as [L|L].
    + exists k. split; [lia|]. intros i Hi. destruct (Nat.eq_dec i (S n)) as [->|]; [exact L|apply H; lia].
    + exists (S n). split; [lia|]. intros i Hi. destruct (Nat.eq_dec i (S n)) as [->|]; [lra|]. specialize (H i ltac:(lia)). lra.
Qed.
Theorem C63_coefficients_agree : forall u se1 se2 seed1 seed2 g1 g2 a1 a2 b0 b b0' b' m s, user_ok u ->
  0 <= se_approx se1 -> 0 <= se_approx se2 -> seeds_ok seed1 -> seeds_ok seed2 -> se_stol se1 = None -> se_stol se2 = None ->
  convex_pair (u_fam u) (u_link u) -> start_ok u a1 -> start_ok u a2 ->
  fit_cd u se1 seed1 g1 a1 = Some (b0, b, false) -> fit_cd u se2 seed2 g2 a2 = Some (b0', b', false) ->
  u_ic u = false -> 0 < m -> (forall d, m * rsum (u_p u) (fun j => d j ^ 2) <= user_l2 u (pen_scale u) d) ->
  (forall j, (j < u_p u)%nat -> col_scale u j <= s) ->
  forall j, (j < u_p u)%nat -> Rabs (b' j - b j) <= (se_gtol se1 + se_gtol se2) * s / m.
Proof.
  intros u se1 se2 seed1 seed2 g1 g2 a1 a2 b0 b b0' b' m s Hok C1 C2 S1 S2 T1 T2 Hc A1 A2 E1 E2 Hic Hm HL HS j Hj.
  destruct (argmax (u_p u) (fun j => Rabs (b' j - b j)) ltac:(lia)) as [k [Hk HK]].
  set (dk := Rabs (b' k - b k)) in *.
  assert (D0 : 0 <= dk) by apply Rabs_pos.
  assert (SP : forall j, 0 < col_scale u j) by (intros i; rewrite col_scale_inv; apply Rinv_0_lt_compat, inv_pos).
  assert (S0 : 0 <= s) by (specialize (HS j Hj); specialize (SP j); lra).
  destruct (C63_fits_agree u se1 se2 seed1 seed2 g1 g2 a1 a2 b0 b b0' b' (s * dk) Hok C1 C2 S1 S2 T1 T2 Hc A1 A2 E1 E2) as [L _].
  - apply Rmult_le_pos; assumption.
  - split; [congruence|]. intros i Hi. apply Rmult_le_compat; [left; apply SP|apply Rabs_pos|apply HS, Hi|apply HK, Hi].
  - specialize (HL (fun j => b' j - b j)).
    assert (Q : dk ^ 2 <= rsum (u_p u) (fun j => (b' j - b j) ^ 2)).
    { unfold dk. rewrite pow2_abs. apply (rsum_ge_one (u_p u) (fun j => (b' j - b j) ^ 2) k); [intros; apply pow2_ge_0|exact Hk]. }
    eapply Rle_trans; [apply HK, Hj|].
    apply Rmult_le_reg_r with m; [exact Hm|]. unfold Rdiv. rewrite Rmult_assoc, Rinv_l, Rmult_1_r by lra.
    destruct (Req_dec dk 0) as [Z|Z].
    + rewrite Z, Rmult_0_l. apply Rmult_le_pos; [|exact S0].
      assert (0 <= se_gtol se1) by (destruct (silent_state u se1 seed1 g1 a1 b0 b Hok C1 T1 E1) as [v [_ [T _]]]; cbv zeta in T; apply Rlt_le; eapply Rle_lt_trans; [|exact T]; apply rsum_nonneg; intros; apply entry_nonneg).
      assert (0 <= se_gtol se2) by (destruct (silent_state u se2 seed2 g2 a2 b0' b' Hok C2 T2 E2) as [v [_ [T _]]]; cbv zeta in T; apply Rlt_le; eapply Rle_lt_trans; [|exact T]; apply rsum_nonneg; intros; apply entry_nonneg).
      lra.
    + apply Rmult_le_reg_r with dk; [lra|]. nra.
Qed.
Print Assumptions C63_coefficients_agree.

(** C64: of two fits that returned without a warning, the one with the larger alpha has the smaller penalty
    and the larger training deviance, up to the tolerance. *)
Theorem C64_tradeoff : forall u al al' se seed seed' g g' a a' b0 b b0' b' D, user_ok (at_alpha u al) -> user_ok (at_alpha u al') ->
  0 <= al < al' -> 0 <= se_approx se -> seeds_ok seed -> seeds_ok seed' -> se_stol se = None ->
  convex_pair (u_fam u) (u_link u) -> start_ok u a -> start_ok u a' ->
  fit_cd (at_alpha u al) se seed g a = Some (b0, b, false) -> fit_cd (at_alpha u al') se seed' g' a' = Some (b0', b', false) ->
  0 <= D -> std_close u D b0 b b0' b' ->
  (al' - al) * (user_pen u (pen_scale u) b' - user_pen u (pen_scale u) b) <= 2 * se_gtol se * D /\
  user_half_dev u b0 b <= user_half_dev u b0' b' + se_gtol se * D * (1 + 2 * al / (al' - al)).
Proof.
  intros u al al' se seed seed' g g' a a' b0 b b0' b' D Ok Ok' Hal C S1 S2 T Hc A A' E E' HD HX.
  destruct (silent_margin (at_alpha u al) se seed g a b0 b Ok C S1 T Hc A E) as [F1 [I1 M1]].
  destruct (silent_margin (at_alpha u al') se seed' g' a' b0' b' Ok' C S2 T Hc A' E') as [F2 [I2 M2]].
  specialize (M1 b0' b' D F2 I2 HD HX). specialize (M2 b0 b D F1 I1 HD (std_close_sym _ _ _ _ _ _ HX)).
  assert (P : forall al, user_ok (at_alpha u al) -> forall d, 0 <= user_l2 (at_alpha u al) (pen_scale (at_alpha u al)) d).
  { intros x Hok d. destruct Hok as [_ [_ [_ [_ [_ HP]]]]]. apply (HP (fun j => pen_scale (at_alpha u x) j * d j)). }
  pose proof (P _ Ok (fun j => b' j - b j)) as P1. pose proof (P _ Ok' (fun j => b j - b' j)) as P2.
  assert (O : forall x c0 c, user_obj (at_alpha u x) (pen_scale (at_alpha u x)) c0 c = user_half_dev u c0 c + x * user_pen u (pen_scale u) c).
  { intros x c0 c. unfold user_obj, user_half_dev, user_pen, user_l2. cbn [at_alpha u_fam u_link u_y u_w u_n u_p u_P1].
    change (pen_scale (at_alpha u x)) with (pen_scale u).
    rewrite Rplus_assoc. f_equal. rewrite Rmult_plus_distr_l. f_equal.
    - rewrite (Rmult_comm x), Rmult_assoc. f_equal. rewrite <- rsum_scal_r. apply rsum_ext. intros i _. rewrite <- rsum_scal_r. apply rsum_ext. intros j _.
      cbn [at_alpha u_P2]. destruct (u_P2 u) as [v|M]; cbn; [destruct (Nat.eqb i j); ring|ring].
    - rewrite <- rsum_scal. apply rsum_ext. intros j _. ring. }
  rewrite !O in M1, M2.
  set (d1 := user_half_dev u b0 b) in *. set (d2 := user_half_dev u b0' b') in *.
  set (p1 := user_pen u (pen_scale u) b) in *. set (p2 := user_pen u (pen_scale u) b') in *. set (t := se_gtol se * D) in *.
  assert (K : (al' - al) * (p2 - p1) <= 2 * se_gtol se * D) by (replace (2 * se_gtol se * D) with (t + t) by (unfold t; ring); lra).
  split; [exact K|].
  assert (K2 : al * (p2 - p1) <= t * (2 * al / (al' - al))).
  { apply Rmult_le_reg_r with (al' - al); [lra|].
    replace (t * (2 * al / (al' - al)) * (al' - al)) with (al * (2 * se_gtol se * D)) by (unfold t; field; lra).
    replace (al * (p2 - p1) * (al' - al)) with (al * ((al' - al) * (p2 - p1))) by ring. apply Rmult_le_compat_l; lra. }
  lra.
Qed.
Print Assumptions C64_tradeoff.

(** Non-vacuity of C63 and C64: lasso fits of the four policies at any two alphas, from any seeds, return
    without a warning. *)
Definition ex64_u : user :=
  mkUser 0 1 (fun _ _ => 0) (fun _ => 0) (fun _ => 0) (fun _ => 0) true PoissonF LogL (fun _ => 1) (P2diag (fun _ => 0)) (fun _ => None) (fun _ => None) false.
Example C64_nonvacuous : forall al seed, 0 <= al ->
  let u := with_rows ex64_u ex62_rows in
  user_ok (at_alpha u al) /\ start_ok u StartNone /\ convex_pair (u_fam u) (u_link u) /\
  exists b0 b, fit_cd (at_alpha u al) ex62_se seed (ln 2) StartNone = Some (b0, b, false) /\ b 0%nat = 0.
Proof.
  intros al seed Hal u'. set (ua := at_alpha u' al).
  assert (WW : forall i, (i < 4)%nat -> u_w ua i = / 4) by (intros i Hi; apply (ex62_w i Hi)).
  assert (Hok : user_ok ua).
  { split; [exact I|]. split; [|split; [|split; [intros; cbn; lra|split]]].
    - intros i Hi. cbn in Hi. destruct i as [|[|[|[|]]]]; try lia; cbn; lra.
    - intros i Hi. rewrite WW by exact Hi. lra.
    - intros i j Hi Hj. cbn in Hi, Hj. replace i with j by lia. reflexivity.
    - intros v. cbn. rewrite !Rmult_0_r, Rmult_0_l. lra. }
  split; [exact Hok|]. split; [left; split; [reflexivity|]; intros j _; split; intros x Hx; discriminate Hx|]. split; [exact I|].
  set (v := get_start_coef (u_p ua) (u_ic ua) (u_means ua) (u_stds ua) (ln 2) (u_lb ua) (u_ub ua) StartNone).
  assert (V1 : v 1%nat = 0) by reflexivity.
  assert (B1 : forall j, snd (user_result ua v) j = v (S j) * one_over (u_stds ua j)) by (intros; apply result_coef).
  assert (B0 : fst (user_result ua v) = ln 2).
  { unfold user_result, unpack, unstandardize. cbn [fst ua u' at_alpha with_rows ex64_u u_ic u_p rsum].
    change (v 1%nat) with 0. change (v 0%nat) with (ln 2). ring. }
  assert (ETA : forall i, (i < 4)%nat -> user_eta ua (fst (user_result ua v)) (snd (user_result ua v)) i = ln 2).
  { intros i Hi. unfold user_eta. rewrite B0. change (u_p ua) with 1%nat. cbn [rsum]. rewrite B1, V1.
    destruct i as [|[|[|[|]]]]; try lia; cbn; ring. }
  assert (RES : forall i, (i < 4)%nat -> residual (u_fam ua) (u_link ua) (u_y ua i) (ln 2) = u_y ua i - 2).
  { intros i Hi. cbn. rewrite exp_ln by lra. reflexivity. }
  assert (F2 : forall l, (l < u_p ua)%nat -> p2_entry (u_P2 ua) l 0%nat = 0) by (intros l _; cbn; destruct l; cbn; ring).
  assert (T : fit_cd ua ex62_se seed (ln 2) StartNone = Some (user_result ua v, false)).
  { apply fit_at_start; [exact Hok|cbn; lra|]. cbv zeta. fold v.
    change (nc (std_problem ua ex62_se)) with 2%nat. cbn [rsum]. unfold entry.
    change (pb_ic (std_problem ua ex62_se)) with true. cbn [ioff Nat.ltb Nat.leb Nat.sub].
    change (pb_lb (std_problem ua ex62_se) 0%nat) with (@None R). change (pb_ub (std_problem ua ex62_se) 0%nat) with (@None R).
    rewrite (score_intercept ua ex62_se v eq_refl I).
    change 1%nat with (ioff (u_ic ua) + 0)%nat at 2. rewrite (score_column ua ex62_se v 0 Nat.lt_0_1 F2 I).
    change (u_n ua) with 4%nat.
    rewrite (rsum_ext 4 _ (fun i => / 4 * (u_y ua i - 2))) by (intros i Hi; rewrite WW, ETA, RES by exact Hi; reflexivity).
    rewrite (rsum_ext 4 (fun i => u_w ua i * _ * _) (fun i => / 4 * (u_y ua i - 2) * ((u_X ua i 0 - u_means ua 0) * one_over (u_stds ua 0))))
      by (intros i Hi; rewrite WW, ETA, RES by exact Hi; reflexivity).
    set (m := u_means ua 0). set (o := one_over _). cbn [rsum ua u' at_alpha with_rows u_y u_X ex62_rows nth r_y r_x]. rewrite V1.
    match goal with |- 0 + Rabs ?x + Rabs (subgrad_term 0 ?y ?q None None) < _ => replace x with 0 by field; replace y with 0 by field; set (q1 := q) end.
    unfold subgrad_term, fsign. rewrite (proj2 (Reqb_true 0 0)) by reflexivity. rewrite Rmult_0_l. cbn. rewrite Rabs_R0. lra. }
  exists (fst (user_result ua v)), (snd (user_result ua v)). split.
  - rewrite T. destruct (user_result ua v); reflexivity.
  - rewrite B1, V1. ring.
Qed.
