(** Theorems C40, continued: where the largest alpha of the automatic grid is too small (findings F7, F35). *)
From Verif Require Import M_Path S_Path L_Link L_Dist L_Dist2 L_Std L_Fit L_Path P_Fit.
From Verif Require Import M_Solver S_Solver.
Local Open Scope R_scope.

(** an unpenalised constant column and a penalised one, without intercept *)
Definition ex40_u : user :=
  mkUser 2 2 (fun i j => match j with O => 1 | _ => match i with O => 1 | _ => 0 end end)
         (fun i => match i with O => 1 | _ => 5 end) (fun _ => / 2) (fun _ => 0) false NormalF IdentityL
         (fun j => match j with O => 0 | _ => 1 end) (P2diag (fun _ => 0)) (fun _ => None) (fun _ => None) false.
Lemma ex40_std : u_stds ex40_u 1%nat = / 2.
Proof.
  unfold u_stds, col_stds, wmean. simpl.
  match goal with |- sqrt ?x = _ => replace x with (/ 2 * / 2) by field end. apply sqrt_square. lra.
Qed.
Lemma ex40_amax : alpha_max (std_problem ex40_u ex57_se) = Some (/ 2).
Proof.
  unfold alpha_max, null_coef. change (pb_ic (std_problem ex40_u ex57_se)) with false. cbv iota.
  change (pb_p (std_problem ex40_u ex57_se)) with 2%nat. cbn [seq].
  assert (P0 : pb_P1 (std_problem ex40_u ex57_se) 0%nat = 0) by (cbn; unfold std_P1; cbn; ring).
  assert (P1 : pb_P1 (std_problem ex40_u ex57_se) 1%nat = 2).
  { change (1 * one_over (u_stds ex40_u 1%nat) = 2). rewrite ex40_std, ex57_inv. ring. }
  cbn [forallb filter]. rewrite P0, P1. rewrite (proj2 (Reqb_false 2 0)) by lra. rewrite andb_false_r. cbn [andb].
  rewrite (proj2 (Rltb_false 0 0)) by lra. rewrite (proj2 (Rltb_true 0 2)) by lra. cbn [map np_max fold_left]. rewrite P1.
  assert (F : feature_gradient (std_problem ex40_u ex57_se) (fun _ => 0) 1 = 1).
  { unfold feature_gradient, deviance_der. change (ioff (pb_ic (std_problem ex40_u ex57_se)) + 1)%nat with 1%nat. unfold xt_vec.
    change (Nat.ltb 1 (ioff (pb_ic (std_problem ex40_u ex57_se)))) with false. cbv iota. change (pb_n (std_problem ex40_u ex57_se)) with 2%nat.
    cbn [rsum]. change (1 - ioff (pb_ic (std_problem ex40_u ex57_se)))%nat with 1%nat.
    assert (X : forall i, pb_X (std_problem ex40_u ex57_se) i 1%nat = match i with O => 2 | _ => 0 end).
    { intros i. change (std_X (u_X ex40_u) (u_means ex40_u) (u_stds ex40_u) i 1%nat = match i with O => 2 | _ => 0 end). unfold std_X. rewrite ex40_std, ex57_inv.
      unfold u_means, col_means. cbn. destruct i; ring. }
    rewrite !X.
    assert (L : lin_pred (std_problem ex40_u ex57_se) (fun _ => 0) 0 + pb_off (std_problem ex40_u ex57_se) 0%nat = 0).
    { unfold lin_pred. rewrite rsum_zero; [cbn; ring|]. intros; ring. }
    rewrite L. unfold unit_deviance_derivative. cbn. unfold inverse1, inverse_derivative. cbn.
    match goal with |- Rabs ?x = 1 => replace x with 1 by field end. apply Rabs_R1. }
  rewrite F. rewrite (proj2 (Reqb_false (1 / 2) 0)) by lra. f_equal. lra.
Qed.

(** C40 (finding F35): with a column that is not L1-penalised, the largest alpha of the automatic grid,
    documented as the lowest alpha at which all L1-penalised coefficients are zero, is too small: here every
    solution at that alpha has a non-zero penalised coefficient. *)
Theorem C40_unpenalised_refuted : exists u se amax, user_ok u /\ rsum (u_n u) (u_w u) = 1 /\ convex_pair (u_fam u) (u_link u) /\
  (forall i, u_off u i = 0) /\ (forall j, u_lb u j = None /\ u_ub u j = None) /\ 0 < u_P1 u 1%nat /\
  alpha_max (std_problem u se) = Some amax /\
  forall b, user_optimal (with_alpha u amax) 0 b -> b 1%nat <> 0.
Proof.
  exists ex40_u, ex57_se, (/ 2). split.
  { split; [exact I|]. split; [intros; exact I|]. split; [intros; simpl; lra|]. split; [intros [|j]; simpl; lra|]. split.
    - intros i j Hi Hj. simpl. destruct (Nat.eqb_spec i j); destruct (Nat.eqb_spec j i); congruence.
    - intros v. simpl. destruct (Nat.eqb 0 1); lra. }
  split; [cbn; lra|]. split; [exact I|]. split; [intros; reflexivity|]. split; [intros; split; reflexivity|]. split; [cbn; lra|]. split; [exact ex40_amax|].
  intros b HO Z. specialize (HO 0 (fun j => match j with O => 4 | _ => -2 end)).
  assert (HF : user_feasible (with_alpha ex40_u (/ 2)) (fun j => match j with O => 4 | _ => -2 end)) by (intros j Hj; split; discriminate).
  specialize (HO HF (fun _ => eq_refl)). revert HO. unfold user_obj, user_eta. cbn. rewrite Z. unfold search_mean. cbn.
  replace (Rabs (1 * -2)) with 2 by (rewrite Rabs_left; lra). replace (1 * 0) with 0 by ring. rewrite Rabs_R0.
  pose proof (pow2_ge_0 (b 0%nat - 3)). intros HO. nra.
Qed.
Print Assumptions C40_unpenalised_refuted.

(** Poisson data with an offset *)
Definition ex40_o : user :=
  mkUser 2 1 (fun i _ => match i with O => 1 | _ => -1 end)
         (fun i => match i with O => 3 / 2 | _ => 1 / 2 end) (fun _ => / 2) (fun i => match i with O => ln (5 / 2) | _ => ln 2 end) true PoissonF LogL
         (fun j => 1) (P2diag (fun _ => 0)) (fun _ => None) (fun _ => None) false.
Lemma ex40_o_means j : u_means ex40_o j = 0.
Proof. unfold u_means, col_means, wmean. simpl. field. Qed.
Lemma ex40_o_std j : u_stds ex40_o j = 1.
Proof.
  unfold u_stds, col_stds, wmean. simpl.
  match goal with |- sqrt ?x = _ => replace x with (1 * 1) by field end. apply sqrt_square. lra.
Qed.
Lemma ex40_inv : one_over 1 = 1.
Proof.
  unfold one_over. rewrite (proj2 (Rltb_false _ _)); [field|]. rewrite Rabs_right by lra.
  unfold std_threshold. apply Rmult_le_reg_r with (2 ^ 26); [apply pow_lt; lra|]. unfold Rdiv. rewrite Rmult_assoc, Rinv_l; [|apply pow_nonzero; lra]. simpl. lra.
Qed.
Lemma ex40_o_amax : alpha_max (std_problem ex40_o ex57_se) = Some (/ 4).
Proof.
  unfold alpha_max, null_coef. change (pb_ic (std_problem ex40_o ex57_se)) with true. cbv iota.
  assert (G : guess_intercept (pb_fam (std_problem ex40_o ex57_se)) (pb_link (std_problem ex40_o ex57_se)) false (grows_of (std_problem ex40_o ex57_se)) = Some 0).
  { unfold guess_intercept, grows_of. cbn. rewrite (proj2 (Reqb_false (1 / 2) (3 / 2))) by lra. cbn. f_equal. unfold gavg, lsumf. cbn.
    match goal with |- ln ?x = 0 => replace x with 1 by field end. apply ln_1. }
  rewrite G. change (pb_p (std_problem ex40_o ex57_se)) with 1%nat. cbn [seq].
  assert (P0 : pb_P1 (std_problem ex40_o ex57_se) 0%nat = 1).
  { change (1 * one_over (u_stds ex40_o 0%nat) = 1). rewrite ex40_o_std, ex40_inv. ring. }
  cbn [forallb filter]. rewrite P0. rewrite (proj2 (Reqb_false 1 0)) by lra. cbn [andb]. rewrite (proj2 (Rltb_true 0 1)) by lra. cbn [map np_max fold_left]. rewrite P0.
  assert (F : feature_gradient (std_problem ex40_o ex57_se) (pack true 0 (fun _ => 0)) 0 = / 4).
  { unfold feature_gradient, deviance_der. change (ioff (pb_ic (std_problem ex40_o ex57_se)) + 0)%nat with 1%nat. unfold xt_vec.
    change (Nat.ltb 1 (ioff (pb_ic (std_problem ex40_o ex57_se)))) with false. cbv iota. change (pb_n (std_problem ex40_o ex57_se)) with 2%nat.
    cbn [rsum]. change (1 - ioff (pb_ic (std_problem ex40_o ex57_se)))%nat with 0%nat.
    assert (X : forall i, pb_X (std_problem ex40_o ex57_se) i 0%nat = match i with O => 1 | _ => -1 end).
    { intros i. change (std_X (u_X ex40_o) (u_means ex40_o) (u_stds ex40_o) i 0%nat = match i with O => 1 | _ => -1 end). unfold std_X. rewrite ex40_o_std, ex40_inv, ex40_o_means.
      cbn. destruct i; ring. }
    rewrite !X.
    assert (L : forall i, lin_pred (std_problem ex40_o ex57_se) (pack true 0 (fun _ => 0)) i + pb_off (std_problem ex40_o ex57_se) i = u_off ex40_o i).
    { intros i. unfold lin_pred. rewrite rsum_zero; [cbn; ring|]. intros; cbn; ring. }
    rewrite !L. unfold unit_deviance_derivative. cbn. rewrite !exp_ln by lra.
    match goal with |- Rabs ?x = / 4 => replace x with (/ 4) by field end. apply Rabs_right. lra. }
  rewrite F. rewrite (proj2 (Reqb_false (/ 4 / 1) 0)) by lra. f_equal. lra.
Qed.

(** C40 (finding F7): with an offset the intercept of the null model is guessed without it, and the largest
    alpha can be too small: here every solution at that alpha has a non-zero coefficient. *)
Theorem C40_offset_refuted : exists u se amax, user_ok u /\ rsum (u_n u) (u_w u) = 1 /\ convex_pair (u_fam u) (u_link u) /\
  u_ic u = true /\ (forall j, u_lb u j = None /\ u_ub u j = None) /\ (forall j, 0 < u_P1 u j) /\
  alpha_max (std_problem u se) = Some amax /\
  forall g b, user_optimal (with_alpha u amax) g b -> b 0%nat <> 0.
Proof.
  exists ex40_o, ex57_se, (/ 4). split.
  { split; [exact I|]. split; [intros [|i] _; simpl; lra|]. split; [intros; simpl; lra|]. split; [intros; simpl; lra|]. split.
    - intros i j Hi Hj. simpl in Hi, Hj. replace i with j by lia. reflexivity.
    - intros v. simpl. lra. }
  split; [cbn; lra|]. split; [exact I|]. split; [reflexivity|]. split; [intros; split; reflexivity|]. split; [intros; cbn; lra|]. split; [exact ex40_o_amax|].
  intros g b HO Z. specialize (HO (ln (4 / 9)) (fun j => ln (6 / 5))).
  assert (HF : user_feasible (with_alpha ex40_o (/ 4)) (fun j => ln (6 / 5))) by (intros j Hj; split; discriminate).
  specialize (HO HF ltac:(discriminate)). revert HO. unfold user_obj, user_eta. cbn. rewrite Z. unfold search_mean. cbn. unfold poisson_deviance, lsumf. cbn.
  destruct (Rlt_dec 0 (3 / 2)) as [_|]; [|lra]. destruct (Rlt_dec 0 (1 / 2)) as [_|]; [|lra]. rewrite !ln_exp.
  assert (T1 : / 6 <= ln (6 / 5)).
  { pose proof (exp_ineq1_le (- ln (6 / 5))) as Q. rewrite exp_Ropp, exp_ln in Q by lra. lra. }
  assert (E1 : exp (g + (0 + 1 * 0) + ln (5 / 2)) = 5 / 2 * exp g) by (replace (g + (0 + 1 * 0) + ln (5 / 2)) with (g + ln (5 / 2)) by ring; rewrite exp_plus, exp_ln by lra; ring).
  assert (E2 : exp (g + (0 + -1 * 0) + ln 2) = 2 * exp g) by (replace (g + (0 + -1 * 0) + ln 2) with (g + ln 2) by ring; rewrite exp_plus, exp_ln by lra; ring).
  assert (E3 : exp (ln (4 / 9) + (0 + 1 * ln (6 / 5)) + ln (5 / 2)) = 4 / 3).
  { replace (ln (4 / 9) + (0 + 1 * ln (6 / 5)) + ln (5 / 2)) with (ln (4 / 9) + ln (6 / 5) + ln (5 / 2)) by ring. rewrite !exp_plus, !exp_ln by lra. field. }
  assert (E4 : exp (ln (4 / 9) + (0 + -1 * ln (6 / 5)) + ln 2) = 20 / 27).
  { replace (ln (4 / 9) + (0 + -1 * ln (6 / 5)) + ln 2) with (ln (4 / 9) + - ln (6 / 5) + ln 2) by ring. rewrite !exp_plus, exp_Ropp, !exp_ln by lra. field. }
  assert (E5 : 1 + (g - ln (4 / 9)) <= 9 / 4 * exp g).
  { pose proof (exp_ineq1_le (g - ln (4 / 9))) as Q. unfold Rminus in Q at 2. rewrite exp_plus, exp_Ropp, exp_ln in Q by lra. lra. }
  rewrite E1, E2, E3, E4. replace (1 * 0) with 0 by ring. replace (1 * ln (6 / 5)) with (ln (6 / 5)) by ring. rewrite Rabs_R0, (Rabs_right (ln (6 / 5))) by lra. lra.
Qed.
Print Assumptions C40_offset_refuted.
