(** Theorem C72: the Gaussian identity model and its single IRLS iteration. *)
From Coq Require Import String List. Import ListNotations.
From Verif Require Import Base M_Std S_Std S_Fit M_Valid M_Fit S_FitAll.
From Verif Require Import M_Lin L_Lin L_Lstsq L_Link L_Dist L_Dist4 L_CD L_KKT L_Hess L_Solver L_Solver2 L_Solver3 L_Obj L_LS L_Mono L_Std L_Fit L_Score L_Gap L_FitAll P_Solver P_Obj P_Std P_LS P_Fit P_Score P_FitAll.
From Verif Require Import M_Solver S_Solver.
Local Open Scope R_scope.

Section Gaussian.
Variables (pb : problem) (P2 : P2t).
Hypotheses (Ef : pb_fam pb = NormalF) (El : pb_link pb = IdentityL) (HS : p2_sym (pb_p pb) P2).

Lemma gauss_score c k : (k < nc pb)%nat -> score_of pb P2 c k =
  rsum (pb_n pb) (fun i => pb_w pb i * (pb_y pb i - pb_off pb i) * xt pb i k) - rsum (nc pb) (fun l => exact_hessian pb (pb_w pb) P2 k l * c l).
Proof.
  intros Hk. unfold score_of.
  assert (A : rsum (pb_n pb) (fun i => gradient_row (pb_fam pb) (pb_link pb) (pb_y pb i) (pb_w pb i) (eta_of pb c i) (mean_of pb c i) * xt pb i k)
    = rsum (pb_n pb) (fun i => pb_w pb i * (pb_y pb i - pb_off pb i) * xt pb i k) - rsum (nc pb) (fun l => rsum (pb_n pb) (fun i => pb_w pb i * xt pb i k * xt pb i l) * c l)).
  { rewrite (rsum_ext (nc pb) _ (fun l => rsum (pb_n pb) (fun i => pb_w pb i * xt pb i k * (xt pb i l * c l)))).
    2:{ intros l _. rewrite <- rsum_scal_r. apply rsum_ext. intros; ring. }
    rewrite rsum_swap, <- rsum_minus. apply rsum_ext. intros i _. unfold mean_of. rewrite Ef, El.
    rewrite residual_eq by exact I. cbn [residual mean_at]. unfold eta_of. rewrite rsum_scal. ring. }
  rewrite A.
  rewrite (rsum_ext (nc pb) (fun l => exact_hessian pb (pb_w pb) P2 k l * c l)
    (fun l => rsum (pb_n pb) (fun i => pb_w pb i * xt pb i k * xt pb i l) * c l + c l * p2_full (pb_ic pb) P2 l k)).
  - rewrite rsum_plus. ring.
  - intros l Hl. unfold exact_hessian. rewrite (p2_full_sym pb P2 k l HS Hk Hl). ring.
Qed.
Lemma gauss_hrow c i : hrow_of pb c i = pb_w pb i.
Proof. unfold hrow_of, hessian_row, rowwise. rewrite Ef, El. cbn. ring. Qed.

(** the Newton step solves the normal equations and the objective drops by half the decrement *)
Lemma gauss_newton c d : (forall k, (k < nc pb)%nat -> rsum (nc pb) (fun l => exact_hessian pb (pb_w pb) P2 k l * d l) = score_of pb P2 c k) ->
  normal_eqs pb P2 (vadd c d) /\
  ridge_obj pb P2 (vadd c d) = ridge_obj pb P2 c - / 2 * rsum (nc pb) (fun k => score_of pb P2 c k * d k).
Proof.
  intros D.
  assert (N : normal_eqs pb P2 (vadd c d)).
  { intros k Hk. pose proof (gauss_score c k Hk) as G. rewrite <- (D k Hk) in G. unfold vadd.
    rewrite (rsum_ext (nc pb) _ (fun l => exact_hessian pb (pb_w pb) P2 k l * c l + exact_hessian pb (pb_w pb) P2 k l * d l)) by (intros; ring).
    rewrite rsum_plus. lra. }
  split; [exact N|].
  pose proof (ridge_expand pb P2 (vadd c d) (fun k => - d k) HS N) as X.
  assert (E : vadd (vadd c d) (fun k => - d k) = c).
  { apply FunctionalExtensionality.functional_extensionality. intros k. unfold vadd. ring. }
  rewrite E in X.
  pose proof (quad_exact pb (pb_w pb) P2 (fun k => - d k)) as Q. rewrite <- Q in X.
  rewrite (rsum_ext (nc pb) _ (fun k => rsum (nc pb) (fun l => d k * exact_hessian pb (pb_w pb) P2 k l * d l))) in X.
  2:{ intros k _. apply rsum_ext. intros l _. ring. }
  rewrite (quad_sum _ _ _ _ D) in X. lra.
Qed.
End Gaussian.

(** the first trial of the line search is accepted when it meets the Armijo condition *)
Lemma search_full pb Q c score eta obj d : pb_ok pb -> (forall i, (i < pb_n pb)%nat -> eta i = eta_of pb c i) ->
  (forall i, (i < pb_n pb)%nat -> mean_of pb (vadd c d) i < pb_large pb) ->
  train_obj pb Q (vadd c d) + obj_k pb - obj <= ls_bound pb c score d ->
  let r := line_search pb Q c score eta obj d in ls_warn r = false /\ ls_coef r = vadd c d.
Proof.
  intros Hok He Hm Hb. unfold line_search. cbn [ls_loop].
  assert (V : vadd c (vscale 1 d) = vadd c d).
  { apply FunctionalExtensionality.functional_extensionality. intros k. unfold vadd, vscale. ring. }
  rewrite V.
  pose proof (eta_mu_objective_spec pb Q (lin_pred pb d) 1 (vadd c d) eta Hok) as S.
  assert (E : forall i, (i < pb_n pb)%nat -> eta i + 1 * lin_pred pb d i = eta_of pb (vadd c d) i).
  { intros i Hi. rewrite <- V, eta_of_add, He by exact Hi. reflexivity. }
  specialize (S E). destruct (eta_mu_objective _ _ _ _ _ _) as [[[e' m'] o'] c'] eqn:EE. destruct S as [S1 [S2 [S3 S4]]].
  assert (A : (forallb (fun i => Rltb (m' i) (pb_large pb)) (seq 0 (pb_n pb)) && Rleb (o' - obj) (1 * ls_bound pb c score d))%bool = true).
  { apply andb_true_intro. split.
    - apply forallb_forall. intros i Hi. apply in_seq in Hi. apply Rltb_true. rewrite S2 by lia. apply Hm. lia.
    - apply Rleb_true. rewrite S3. lra. }
  rewrite A. cbn. split; reflexivity.
Qed.

(** C72, irls-ls: on a Gaussian identity model without L1 penalty and bounds one iteration is always enough:
    the fit never warns and returns an exact minimiser (or its starting values, if these pass the stopping
    test), provided the least squares solution has no fitted value of 1e43 or more (self.large_number). *)
Theorem C72_least_squares_one_iteration : forall u se l guess a b0 b w1 w2, user_ok u ->
  u_fam u = NormalF -> u_link u = IdentityL -> no_l1 u -> no_bounds u -> 0 <= se_approx se -> 0 < se_gtol se ->
  solve_sound (lib_pos l) ->
  (forall c0 c, near_optimal u 0 0 (fun _ => True) c0 c -> forall i, (i < u_n u)%nat -> user_eta u c0 c i < se_large se) ->
  fit_with SLs u se None l guess a = Some (b0, b, w1, w2) ->
  w1 = false /\ w2 = false /\
  (near_optimal u 0 0 (fun _ => True) b0 b \/
   (b0, b) = user_result u (get_start_coef (u_p u) (u_ic u) (u_means u) (u_stds u) guess (u_lb u) (u_ub u) a)).
Proof.
  intros u se l guess a b0 b w1 w2 Hok Ef El H1 HB HC Hg Hsol Hbig E. unfold fit_with in E.
  set (start := get_start_coef _ _ _ _ _ _ _ _) in *.
  destruct (solve SLs u se None l start) as [[[v x1] x2]|] eqn:ES; [|discriminate]. injection E as E -> ->.
  unfold solve in ES. cbv zeta in ES. set (se' := solve_settings SLs u se) in *.
  set (pb := std_problem u se') in *. set (P2 := std_problem_P2 u) in *.
  destruct (irls_solver pb _ P2 start) as [[sf w]|] eqn:EI; [|discriminate]. injection ES as <- <- <-.
  assert (Pok : pb_ok pb) by apply (std_ok u se' Hok).
  pose proof Hok as [_ [_ [Hw [_ [HSy HPs]]]]].
  assert (SY : p2_sym (pb_p pb) P2) by (apply std_P2_sym, HSy).
  assert (PS : p2_psd (pb_p pb) P2) by (apply std_P2_psd, HPs).
  assert (Z1 : forall j, (j < pb_p pb)%nat -> pb_P1 pb j = 0).
  { intros j Hj. unfold pb. cbn. unfold std_P1. destruct (u_scale u); rewrite (H1 j Hj); ring. }
  assert (M1 : pb_max_iter pb = 1%Z).
  { unfold pb, se'. cbn. unfold normal_identity. rewrite Ef, El. reflexivity. }
  destruct (C27_iteration_accounting _ _ _ _ _ _ EI) as [n [hist [[H0 Hs] [Hn [_ [Hle [_ [_ [HW _]]]]]]]]].
  assert (C0 : st_lswarn (init_state pb P2 false start) = 0%nat).
  { unfold init_state. destruct (eta_mu_objective _ _ _ _ _ _) as [[[? ?] ?] ?].
    destruct (update_quadratic _ _ _ _) as [[? ?] ?]. destruct (check_convergence _ _ _ _) as [[[? ?] ?] ?]. reflexivity. }
  rewrite M1 in Hle. destruct n as [|[|n]]; [| |lia].
  { split; [|split; [rewrite <- Hn, H0, C0; reflexivity|right; rewrite <- E, <- Hn, H0, init_coef; reflexivity]]. destruct w; [|reflexivity]. exfalso.
    pose proof (C27_iteration_accounting _ _ _ _ _ _ EI) as [n' [h' [_ [_ [N' [_ [_ [_ [_ W']]]]]]]]].
    specialize (W' eq_refl). rewrite M1 in W'.
    destruct (C27_iteration_accounting _ _ _ _ _ _ EI) as [n2 [h2 [_ [_ [N2 _]]]]].
    pose proof (init_count pb P2 false start) as [I1 _]. rewrite <- Hn, H0, I1 in N'. lia. }
  specialize (Hs 0%nat ltac:(lia)). rewrite H0, Hn in Hs.
  set (s0 := init_state pb P2 false start) in *.
  assert (R0 : reach pb (ls_solver pb (lib_pos l)) P2 start s0) by constructor.
  pose proof (reach_inv _ _ _ _ _ Pok HC R0) as IV. pose proof (inv_coh _ _ _ IV) as CO.
  destruct (irls_step_facts _ _ _ _ Hs) as [d [cyc [Ei F]]].
  pose proof (ls_direction pb (lib_pos l) P2 s0 d cyc Pok HC SY Hsol IV Ei) as D.
  assert (HR : forall i, (i < pb_n pb)%nat -> st_hrows (fst (prepare pb s0)) i = pb_w pb i).
  { intros i Hi. destruct (prepare_facts pb s0) as [_ _ _ _ _ _ _ _ _ _ _ _ [nr EU]].
    assert (HI : st_hinit s0 = false).
    { unfold s0, init_state. destruct (eta_mu_objective _ _ _ _ _ _) as [[[? ?] ?] ?].
      destruct (update_quadratic _ _ _ _) as [[? ?] ?]. destruct (check_convergence _ _ _ _) as [[[? ?] ?] ?]. reflexivity. }
    rewrite HI in EU. unfold update_hessian in EU. cbn [negb orb] in EU. injection EU as _ <- _ _.
    rewrite (coh_hrows _ _ _ CO) by exact Hi. apply gauss_hrow; assumption. }
  assert (D' : forall k, (k < nc pb)%nat -> rsum (nc pb) (fun l => exact_hessian pb (pb_w pb) P2 k l * d l) = score_of pb P2 (st_coef s0) k).
  { intros k Hk. rewrite <- (coh_score _ _ _ CO) by exact Hk. rewrite <- (D k Hk). apply rsum_ext. intros m Hm. f_equal.
    unfold exact_hessian. f_equal. apply rsum_ext. intros i Hi. rewrite HR by exact Hi. reflexivity. }
  destruct (gauss_newton pb P2 Ef El SY (st_coef s0) d D') as [NE OB].
  assert (SZ : forall k, (k < nc pb)%nat -> score_of pb P2 (vadd (st_coef s0) d) k = 0) by (intros; apply closed_score; assumption).
  assert (CP : convex_pair (u_fam u) (u_link u)) by (rewrite Ef, El; exact I).
  assert (SM : forall i, (i < pb_n pb)%nat -> mean_of pb (vadd (st_coef s0) d) i < pb_large pb).
  { intros i Hi. unfold mean_of. change (pb_fam pb) with (u_fam u). change (pb_link pb) with (u_link u). rewrite Ef, El. unfold search_mean, inverse1. cbn.
    unfold pb. rewrite eta_std. change (se_large se') with (se_large se). apply Hbig; [|exact Hi]. apply (near_grad u se'); try assumption.
    rewrite rsum_zero; [lra|]. intros k Hk. fold pb P2. rewrite (SZ k Hk). apply Rabs_R0. }
  assert (PN : forall j, 0 <= pb_P1 pb j) by apply Pok.
  assert (QP : 0 <= rsum (nc pb) (fun k => score_of pb P2 (st_coef s0) k * d k)).
  { rewrite <- (quad_sum _ _ _ _ D'). apply exact_psd; assumption. }
  destruct (search_full pb P2 (st_coef s0) (st_score s0) (st_eta s0) (st_obj s0) d Pok (coh_eta _ _ _ CO) SM) as [LW LC].
  { rewrite (coh_obj _ _ _ CO), !(C30_ridge_is_training_objective pb P2 _ Ef El Z1 PN), OB.
    unfold ls_bound. rewrite !l1_pen_zero by exact Z1. unfold dot.
    rewrite (rsum_ext (nc pb) (fun i => st_score s0 i * d i) (fun k => score_of pb P2 (st_coef s0) k * d k))
      by (intros k Hk; rewrite (coh_score _ _ _ CO) by exact Hk; reflexivity). lra. }
  destruct (sf_ls _ _ _ _ _ _ F) as [A1 [_ [_ [_ [_ [_ A7]]]]]].
rewrite (inv_P2 _ _ _ IV) in A1, A7. rewrite LW in A7. rewrite LC in A1.
  split; [|split; [rewrite A7, C0; reflexivity|]].
  2:{ left. rewrite A1 in E. replace b0 with (fst (user_result u (vadd (st_coef s0) d))) by (rewrite E; reflexivity).
      replace b with (snd (user_result u (vadd (st_coef s0) d))) by (rewrite E; reflexivity). apply (near_grad u se'); try assumption.
      rewrite rsum_zero; [lra|]. intros k Hk. fold pb P2. rewrite (SZ k Hk). apply Rabs_R0. }
  apply HW. left. rewrite norm_sum_full. rewrite rsum_zero; [exact Hg|].
  assert (R1 : reach pb (ls_solver pb (lib_pos l)) P2 start sf) by (eapply reach_step; eauto).
  pose proof (inv_coh _ _ _ (reach_inv _ _ _ _ _ Pok HC R1)) as C1.
  intros k Hk. unfold entry.
  destruct (Nat.ltb_spec k (ioff (pb_ic pb))) as [L|L]; [rewrite (coh_score _ _ _ C1), A1, SZ, Ropp_0 by lia; apply Rabs_R0|].
  rewrite (coh_score _ _ _ C1), A1, (SZ k Hk), Ropp_0 by exact Hk.
  assert (KJ : (k - ioff (pb_ic pb) < u_p u)%nat) by (change (nc pb) with (ioff (pb_ic pb) + u_p u)%nat in Hk; lia).
  rewrite Z1 by exact KJ. destruct (HB _ KJ) as [B1 B2].
  change (pb_lb pb (k - ioff (pb_ic pb))%nat) with (std_bounds (u_lb u) (u_stds u) (k - ioff (pb_ic pb))%nat).
  change (pb_ub pb (k - ioff (pb_ic pb))%nat) with (std_bounds (u_ub u) (u_stds u) (k - ioff (pb_ic pb))%nat).
  unfold std_bounds. rewrite B1, B2. rewrite subgrad_free. apply Rabs_R0.
Qed.
Print Assumptions C72_least_squares_one_iteration.

(** Two points, started at zero, so that the iteration has to be made: the fit returns and all hypotheses hold. *)
Lemma exu_ok : user_ok (exu None).
Proof.
  split; [exact I|]. split; [intros; exact I|]. split; [intros; simpl; lra|]. split; [intros; simpl; lra|]. split.
  - intros i j Hi Hj. simpl in Hi, Hj. replace i with j by lia. reflexivity.
  - intros v. simpl. lra.
Qed.
Lemma exu_hess se k l : (k < 2)%nat -> (l < 2)%nat -> exact_hessian (std_problem (exu None) se) (fun _ => / 2) (std_problem_P2 (exu None)) k l = if Nat.eqb k l then 1 else 0.
Proof.
  intros Hk Hl. unfold exact_hessian. change (pb_n (std_problem (exu None) se)) with 2%nat. cbn [rsum].
  assert (X : forall i k, xt (std_problem (exu None) se) i k = match k with O => 1 | S j => 2 * u_X (exu None) i j end).
  { intros i [|j]; [reflexivity|]. unfold xt. cbn [std_problem pb_ic pb_X exu u_ic]. fold (exu None). unfold std_X. rewrite ex57_means, ex57_stds, ex57_inv. cbn. ring. }
  rewrite !X. unfold p2_full. change (pb_ic _) with true. unfold std_problem_P2, std_P2.
  destruct k as [|[|]], l as [|[|]]; try lia; cbn; field.
Qed.
Example C72_nonvacuous : exists b0 b, fit_with SLs (exu None) ex70_se None exact_libs 0 StartNone = Some (b0, b, false, false) /\
  no_l1 (exu None) /\ no_bounds (exu None) /\ solve_sound (lib_pos exact_libs) /\
  (forall c0 c, near_optimal (exu None) 0 0 (fun _ => True) c0 c -> forall i, (i < 2)%nat -> user_eta (exu None) c0 c i < se_large ex70_se).
Proof.
  assert (BIG : forall c0 c, near_optimal (exu None) 0 0 (fun _ => True) c0 c -> forall i, (i < 2)%nat -> user_eta (exu None) c0 c i < se_large ex70_se).
  { intros c0 c [_ H] i Hi.
    assert (CS : 0 <= col_scale (exu None) 0) by (rewrite col_scale_inv; left; apply Rinv_0_lt_compat, inv_pos).
    specialize (H 0 (fun _ => 9 / 5) (Rabs c0 + col_scale (exu None) 0 * Rabs (9 / 5 - c 0%nat)) I ltac:(discriminate)).
    assert (D0 : 0 <= Rabs c0 + col_scale (exu None) 0 * Rabs (9 / 5 - c 0%nat)).
    { pose proof (Rabs_pos c0). pose proof (Rmult_le_pos _ _ CS (Rabs_pos (9 / 5 - c 0%nat))). lra. }
    specialize (H D0).
    assert (SC : std_close (exu None) (Rabs c0 + col_scale (exu None) 0 * Rabs (9 / 5 - c 0%nat)) c0 c 0 (fun _ => 9 / 5)).
    { pose proof (Rabs_pos c0). pose proof (Rmult_le_pos _ _ CS (Rabs_pos (9 / 5 - c 0%nat))). split.
      - intros _. rewrite rsum_zero by (intros; rewrite ex57_means; ring). rewrite Rplus_0_r. replace (0 - c0) with (- c0) by ring. rewrite Rabs_Ropp. lra.
      - intros j Hj. replace j with 0%nat by (cbn in Hj; lia). lra. }
    specialize (H SC).
    assert (Hok : user_ok (exu None)).
    { split; [exact I|]. split; [intros; exact I|]. split; [intros; simpl; lra|]. split; [intros; simpl; lra|]. split.
      - intros a b Ha Hb. simpl in Ha, Hb. replace a with b by lia. reflexivity.
      - intros v. simpl. lra. }
    pose proof (pred_dev_nonneg (exu None) c0 c 0 (fun _ => 9 / 5) Hok I) as PD. set (pd := pred_dev (exu None) c0 c 0 (fun _ => 9 / 5)) in *.
    unfold user_obj, user_l2 in H.
    assert (DV : forall d0 d, deviance NormalF (map (fun i => mkobs (u_y (exu None) i) (u_w (exu None) i) (search_mean NormalF IdentityL (user_eta (exu None) d0 d i))) (seq 0 2))
       = / 2 * (- (9 / 10) - user_eta (exu None) d0 d 0) ^ 2 + / 2 * (9 / 10 - user_eta (exu None) d0 d 1) ^ 2).
    { intros d0 d. cbn. unfold normal_deviance, lsumf, search_mean, inverse1. cbn. ring. }
    change (u_fam (exu None)) with NormalF in H. change (u_link (exu None)) with IdentityL in H. change (u_n (exu None)) with 2%nat in H. rewrite !DV in H.
    change (u_p (exu None)) with 1%nat in H. cbn [rsum exu u_P2 p2_entry Nat.eqb u_P1] in H. fold (exu None) in H.
    assert (E0 : user_eta (exu None) 0 (fun _ => 9 / 5) 0 = - (9 / 10)) by (unfold user_eta; cbn; field).
    assert (E1 : user_eta (exu None) 0 (fun _ => 9 / 5) 1 = 9 / 10) by (unfold user_eta; cbn; field).
    rewrite E0, E1 in H. change (se_large ex70_se) with 1000000.
    set (x := user_eta (exu None) c0 c 0) in *. set (y := user_eta (exu None) c0 c 1) in *.
    assert ((- (9 / 10) - x) ^ 2 = 0 /\ (9 / 10 - y) ^ 2 = 0) as [Z0 Z1].
    { pose proof (pow2_ge_0 (- (9 / 10) - x)). pose proof (pow2_ge_0 (9 / 10 - y)). split; lra. }
    destruct i as [|[|]]; [fold x|fold y|lia]; nra. }
  assert (NL : no_l1 (exu None)) by (intros j _; reflexivity). assert (NB : no_bounds (exu None)) by (intros j _; split; reflexivity).
  assert (SS : solve_sound (lib_pos exact_libs)) by exact gauss_sound.
  assert (EX : exists b0 b w1 w2, fit_with SLs (exu None) ex70_se None exact_libs 0 StartNone = Some (b0, b, w1, w2)).
  { unfold fit_with. set (c := get_start_coef _ _ _ _ _ _ _ _). unfold solve. cbv zeta. set (se' := solve_settings SLs (exu None) ex70_se). set (pb := std_problem (exu None) se').
    destruct (irls_solver pb _ _ c) as [[sf w]|] eqn:EI.
    { exists (fst (user_result (exu None) (st_coef sf))), (snd (user_result (exu None) (st_coef sf))), w, (Nat.ltb 0 (st_lswarn sf)). rewrite <- surjective_pairing. reflexivity. }
    exfalso. unfold irls_solver in EI. destruct (irls_loop _ _ _ _) as [?|] eqn:EL; [discriminate|].
    destruct (solver_none _ _ _ _ EL) as [n [hist [H0 [Hs Hn]]]].
    set (P2 := std_problem_P2 (exu None)) in *. set (inner := ls_solver pb (lib_pos exact_libs)) in *.
    assert (Rn : reach pb inner P2 c (hist n)).
    { assert (forall k, (k <= n)%nat -> reach pb inner P2 c (hist k)); [|auto].
      induction k as [|k IH]; intros Hk; [rewrite H0; constructor|]. eapply reach_step; [apply IH; lia|apply Hs; lia]. }
    assert (Pok : pb_ok pb) by (apply std_ok, exu_ok). assert (HC : 0 <= pb_approx pb) by apply (Rle_refl 0).
    pose proof (C25_row_error_bounded pb inner P2 c (hist n) Pok HC Rn) as HX.
    pose proof (C26_active_set pb inner P2 c (hist n) Pok HC Rn) as [_ [_ [AC _]]].
    pose proof (prepare_facts pb (hist n)) as PF.
    destruct (prepare pb (hist n)) as [s1 H] eqn:EP. cbn [fst snd] in *. destruct HX as [HE [HR _]].
    assert (AL : length (st_act s1) = 2%nat /\ st_act s1 = [0%nat; 1%nat]).
    { rewrite (pf_act _ _ _ _ PF) in *. unfold identify_active_set in *. change (pb_ic pb) with true in *. change (pb_p pb) with 1%nat in *.
      specialize (AC 1%nat ltac:(cbn; lia)). cbn [seq filter] in *.
      destruct (is_active pb (st_coef (hist n)) (st_score (hist n)) (st_max (hist n)) 0); [split; reflexivity|]. exfalso.
      destruct AC as [A|A]; [cbn; unfold std_P1; cbn; ring|discriminate|contradiction]. }
    destruct AL as [AL AE]. unfold inner, ls_solver in Hn. change (pb_has_bounds pb) with false in Hn. cbv iota in Hn. rewrite AL in Hn. change (nc pb) with 2%nat in Hn. cbn [Nat.eqb] in Hn.
    change (lib_pos exact_libs) with gauss in Hn. unfold gauss in Hn. destruct (gsolve 2 H (st_score s1)) as [x|] eqn:EG; [discriminate|].
    assert (HH : forall i j, (i < 2)%nat -> (j < 2)%nat -> H i j = if Nat.eqb i j then 1 else 0).
    { intros i j Hi Hj. rewrite HE by (rewrite AL; assumption). rewrite AE. rewrite <- (exu_hess se' i j Hi Hj). fold pb.
      replace (nth i [0%nat; 1%nat] 0%nat) with i by (destruct i as [|[|]]; try lia; reflexivity).
      replace (nth j [0%nat; 1%nat] 0%nat) with j by (destruct j as [|[|]]; try lia; reflexivity).
      unfold exact_hessian. f_equal. apply rsum_ext. intros m Hm.
      assert (WR : st_hrows s1 m = / 2).
      { destruct n as [|n].
        - (* the first hessian *) destruct PF as [_ _ _ _ _ _ _ _ _ _ _ _ [nr EU]].
          assert (HI : st_hinit (hist 0%nat) = false).
          { rewrite H0. unfold init_state. destruct (eta_mu_objective _ _ _ _ _ _) as [[[? ?] ?] ?].
            destruct (update_quadratic _ _ _ _) as [[? ?] ?]. destruct (check_convergence _ _ _ _) as [[[? ?] ?] ?]. reflexivity. }
          rewrite HI in EU. unfold update_hessian in EU. cbn [negb orb] in EU. injection EU as _ <- _ _.
          rewrite (coh_hrows _ _ _ (inv_coh _ _ _ (reach_inv _ _ _ _ _ Pok HC Rn))) by exact Hm. apply gauss_hrow; reflexivity.
        - specialize (HR (Rmax (Rabs (hrow_of pb (st_coef (hist (S n))) 0 - st_old_hrows (hist (S n)) 0)) (Rabs (hrow_of pb (st_coef (hist (S n))) 1 - st_old_hrows (hist (S n)) 1)))).
          change (pb_approx pb) with 0 in HR. rewrite Rmult_0_l in HR.
          assert (Q : Rabs (st_hrows s1 m - hrow_of pb (st_coef (hist (S n))) m) <= 0).
          { apply HR; [|exact Hm]. intros [|[|]] Hj'; [apply Rmax_l|apply Rmax_r|cbn in Hj'; lia]. }
          pose proof (Rabs_pos (st_hrows s1 m - hrow_of pb (st_coef (hist (S n))) m)).
          assert (Z : Rabs (st_hrows s1 m - hrow_of pb (st_coef (hist (S n))) m) = 0) by lra.
          apply Rabs_eq_0 in Z. rewrite gauss_hrow in Z by reflexivity. cbn in Z. lra. }
      rewrite WR. reflexivity. }
    destruct (gsolve_complete 2 H (st_score s1)) as [x X]; [|congruence].
    intros x Hx. pose proof (Hx 0%nat ltac:(lia)) as X0. pose proof (Hx 1%nat ltac:(lia)) as X1. unfold mulv in X0, X1. cbn [rsum] in X0, X1.
    rewrite !HH in X0, X1 by lia. cbn in X0, X1. intros [|[|]] Hj; [lra|lra|lia]. }
  destruct EX as [b0 [b [w1 [w2 E]]]].
  destruct (C72_least_squares_one_iteration (exu None) ex70_se exact_libs 0 StartNone b0 b w1 w2 exu_ok eq_refl eq_refl NL NB (Rle_refl 0) ltac:(cbn; lra) SS BIG E) as [-> [-> _]].
  exists b0, b. split; [exact E|]. split; [exact NL|]. split; [exact NB|]. split; [exact SS|exact BIG].
Qed.

(** C72, irls-cd (finding F31): the same single iteration is not enough for a lasso.  Four observations, three
    standardized features, unit L1 penalty: the third feature is screened out of the only iteration although
    the solution needs it, so the fit ends with a ConvergenceWarning whatever max_iter the user asks for. *)
Definition ex72_X (i j : nat) : R :=
  nth i (nth j [[1; 1; -1; -1]; [1; -1; 1; -1]; [-1; - (1 / 3); - (1 / 3); 5 / 3]] []) 0.
Definition ex72_y (i : nat) : R := nth i [51 / 5; - (36 / 5); - (36 / 5); 21 / 5] 0.
Definition ex72_u : user :=
  mkUser 4 3 ex72_X ex72_y (fun _ => / 4) (fun _ => 0) true NormalF IdentityL (fun _ => 1) (P2diag (fun _ => 0))
         (fun _ => None) (fun _ => None) false.
Definition ex72_se (max_iter : Z) (max_inner : nat) : settings :=
  mkSettings max_iter max_inner (1 / 10000) None 0 None false false (10 ^ 43) (2 / 10 ^ 16).
Lemma ex72_means j : (j < 3)%nat -> u_means ex72_u j = 0.
Proof. intros H. unfold u_means, col_means, wmean. destruct j as [|[|[|]]]; [| | |lia]; cbn; field. Qed.
Lemma ex72_stds j : (j < 3)%nat -> one_over (u_stds ex72_u j) = 1.
Proof.
  intros H.
  assert (E : u_stds ex72_u j = 1).
  { unfold u_stds, col_stds, wmean. destruct j as [|[|[|]]]; [| | |lia]; cbn;
      match goal with |- sqrt ?x = _ => replace x with 1 by field end; apply sqrt_1. }
  rewrite E. unfold one_over. rewrite (proj2 (Rltb_false _ _)); [field|]. rewrite Rabs_R1.
  unfold std_threshold. apply Rmult_le_reg_r with (2 ^ 26); [apply pow_lt; lra|]. unfold Rdiv. rewrite Rmult_assoc, Rinv_l; [|apply pow_nonzero; lra]. simpl. lra.
Qed.
Lemma ex72_scores M N v : v 3%nat = 0 ->
  let sc := score_of (std_problem ex72_u (solve_settings SCd ex72_u (ex72_se M N))) (std_problem_P2 ex72_u) v in
  sc 0%nat = - v 0%nat /\ sc 1%nat = 3 / 2 - v 1%nat /\ sc 2%nat = 3 / 2 - v 2%nat /\ sc 3%nat = 2 / 5 + 2 / 3 * (v 1%nat + v 2%nat).
Proof.
  intros V3 sc.
  assert (B : forall j, (j < 3)%nat -> snd (user_result ex72_u v) j = v (S j)).
  { intros j Hj. rewrite result_coef, ex72_stds by exact Hj. cbn. ring. }
  assert (B0 : fst (user_result ex72_u v) = v 0%nat).
  { unfold user_result, unpack. change (u_ic ex72_u) with true. cbv iota. unfold unstandardize. cbn [fst].
    rewrite rsum_zero; [ring|]. intros j Hj. rewrite ex72_means by exact Hj. ring. }
  assert (ETA : forall i, user_eta ex72_u (fst (user_result ex72_u v)) (snd (user_result ex72_u v)) i = v 0%nat + v 1%nat * ex72_X i 0 + v 2%nat * ex72_X i 1).
  { intros i. unfold user_eta. rewrite B0. change (u_p ex72_u) with 3%nat. cbn [rsum]. rewrite !B, V3 by lia. cbn. ring. }
  assert (Z2 : forall j l, (l < u_p ex72_u)%nat -> p2_entry (u_P2 ex72_u) l j = 0).
  { intros j l _. cbn. destruct (Nat.eqb _ _); ring. }
  split; [|split; [|split]].
  - unfold sc. rewrite (score_intercept ex72_u _ v eq_refl I). change (u_n ex72_u) with 4%nat. cbn [rsum]. rewrite !ETA. cbn. field.
  - pose proof (score_column ex72_u (solve_settings SCd ex72_u (ex72_se M N)) v 0 ltac:(cbn; lia) (Z2 0%nat) I) as S. fold sc in S. change (ioff (u_ic ex72_u) + 0)%nat with 1%nat in S.
    rewrite S. change (u_n ex72_u) with 4%nat. rewrite ex72_means, ex72_stds by lia. cbn [rsum]. rewrite !ETA. cbn. field.
  - pose proof (score_column ex72_u (solve_settings SCd ex72_u (ex72_se M N)) v 1 ltac:(cbn; lia) (Z2 1%nat) I) as S. fold sc in S. change (ioff (u_ic ex72_u) + 1)%nat with 2%nat in S.
    rewrite S. change (u_n ex72_u) with 4%nat. rewrite ex72_means, ex72_stds by lia. cbn [rsum]. rewrite !ETA. cbn. field.
  - pose proof (score_column ex72_u (solve_settings SCd ex72_u (ex72_se M N)) v 2 ltac:(cbn; lia) (Z2 2%nat) I) as S. fold sc in S. change (ioff (u_ic ex72_u) + 2)%nat with 3%nat in S.
    rewrite S. change (u_n ex72_u) with 4%nat. rewrite ex72_means, ex72_stds by lia. cbn [rsum]. rewrite !ETA. cbn. field.
Qed.
Lemma ex72_ok : user_ok ex72_u.
Proof.
  split; [exact I|]. split; [intros; exact I|]. split; [intros; cbn; lra|]. split; [intros; cbn; lra|]. split.
  - intros i j _ _. cbn. rewrite (Nat.eqb_sym j i). destruct (Nat.eqb_spec i j); [subst|]; reflexivity.
  - intros v. apply Req_le. symmetry. apply rsum_zero. intros i _. apply rsum_zero. intros j _. cbn. destruct (Nat.eqb _ _); ring.
Qed.
Lemma ex72_entry x g : Rabs (subgrad_term x g 1 None None) < 1 / 10000 ->
  (x = 0 /\ Rabs g < 1 + 1 / 10000) \/ (0 < x /\ Rabs (g + 1) < 1 / 10000) \/ (x < 0 /\ Rabs (g - 1) < 1 / 10000).
Proof.
  unfold subgrad_term, at_bound. cbn [andb]. destruct (Reqb x 0) eqn:E; intros H.
  - left. apply Reqb_true in E. split; [exact E|]. rewrite Rabs_mult in H.
    destruct (fsign_cases g) as [[P F]|[[P F]|[P F]]]; rewrite F in H; unfold fmax in H; revert H; destruct (Rltb _ _) eqn:L; rabs;
      try (apply Rltb_true in L); try (apply Rltb_false in L); rabs.
  - right. apply Reqb_false in E. destruct (fsign_cases x) as [[P F]|[[P F]|[P F]]]; rewrite F in H; [lra|left|right]; split; try lra.
    + replace (g + 1) with (g + 1 * 1) by ring. exact H.
    + replace (g - 1) with (g + -1 * 1) by ring. exact H.
Qed.

Lemma ex72_term_big : Rabs (subgrad_term 0 (- (3 / 2)) 1 None None) = 1 / 2.
Proof.
  unfold subgrad_term, at_bound. cbn [andb]. rewrite (proj2 (Reqb_true 0 0)) by reflexivity.
  rewrite Rabs_mult, Rabs_Ropp, (Rabs_right (3 / 2)) by lra. unfold fmax. rewrite (proj2 (Rltb_true _ _)) by lra.
  destruct (fsign_cases (- (3 / 2))) as [[P F]|[[P F]|[P F]]]; try lra. rewrite F. rewrite (Rabs_left (-1)), Rabs_right by lra. field.
Qed.
Lemma ex72_term_small : Rabs (subgrad_term 0 (- (2 / 5)) 1 None None) = 0.
Proof.
  unfold subgrad_term, at_bound. cbn [andb]. rewrite (proj2 (Reqb_true 0 0)) by reflexivity.
  rewrite Rabs_Ropp, (Rabs_right (2 / 5)) by lra. unfold fmax. rewrite (proj2 (Rltb_false _ _)) by lra. rewrite Rmult_0_r. apply Rabs_R0.
Qed.
Lemma ex72_screened M N : let pb := std_problem ex72_u (solve_settings SCd ex72_u (ex72_se M N)) in
  let c := get_start_coef (u_p ex72_u) (u_ic ex72_u) (u_means ex72_u) (u_stds ex72_u) 0 (u_lb ex72_u) (u_ub ex72_u) StartNone in
  ~ In 3%nat (st_act (fst (prepare pb (init_state pb (std_problem_P2 ex72_u) false c)))).
Proof.
  intros pb c. set (P2 := std_problem_P2 ex72_u). set (s0 := init_state pb P2 false c).
  assert (Pok : pb_ok pb) by (apply std_ok, ex72_ok).
  assert (R0 : reach pb (cd_solver pb (fun _ => 0%N)) P2 c s0) by constructor.
  pose proof (inv_coh _ _ _ (reach_inv _ _ _ _ _ Pok (Rle_refl 0 : 0 <= pb_approx pb) R0)) as CO.
  assert (Ec : st_coef s0 = c) by apply init_coef.
  destruct (ex72_scores M N c eq_refl) as [S0 [S1 [S2 S3]]].
  change (c 0%nat) with 0 in S0. change (c 1%nat) with 0 in S1, S3. change (c 2%nat) with 0 in S2, S3.
  assert (T0 : st_score s0 0%nat = 0) by (rewrite (coh_score _ _ _ CO), Ec by (cbn; lia); unfold pb, P2; rewrite S0; ring).
  assert (T1 : st_score s0 1%nat = 3 / 2) by (rewrite (coh_score _ _ _ CO), Ec by (cbn; lia); unfold pb, P2; rewrite S1; ring).
  assert (T2 : st_score s0 2%nat = 3 / 2) by (rewrite (coh_score _ _ _ CO), Ec by (cbn; lia); unfold pb, P2; rewrite S2; ring).
  assert (T3 : st_score s0 3%nat = 2 / 5) by (rewrite (coh_score _ _ _ CO), Ec by (cbn; lia); unfold pb, P2; rewrite S3; ring).
  assert (PP : forall j, (j < 3)%nat -> pb_P1 pb j = 1) by (intros j Hj; cbn; unfold std_P1; cbn; rewrite (ex72_stds j Hj); ring).
  rewrite (pf_act _ _ _ _ (prepare_facts pb s0)).
  assert (MX : st_max s0 = Some (1 / 2)).
  { pose proof (coh_norm _ _ _ CO) as E. change (nc pb) with 4%nat in E. rewrite Ec in E. cbn [seq] in E. unfold norm_min_subgrad in E.
    change (pb_ic pb) with true in E. cbn [norm_loop Nat.ltb Nat.leb ioff] in E.
    change (pb_lb pb (1 - 1)%nat) with (@None R) in E. change (pb_lb pb (2 - 1)%nat) with (@None R) in E. change (pb_lb pb (3 - 1)%nat) with (@None R) in E.
    change (pb_ub pb (1 - 1)%nat) with (@None R) in E. change (pb_ub pb (2 - 1)%nat) with (@None R) in E. change (pb_ub pb (3 - 1)%nat) with (@None R) in E.
    rewrite !PP in E by lia. rewrite T0, T1, T2, T3 in E. change (c 1%nat) with 0 in E. change (c 2%nat) with 0 in E. change (c 3%nat) with 0 in E.
    rewrite !ex72_term_big, ex72_term_small, Ropp_0, Rabs_R0 in E.
    rewrite (proj2 (Rltb_true 0 (1 / 2))), (proj2 (Rltb_false (1 / 2) (1 / 2))) in E by lra.
    rewrite (proj2 (Rltb_false (1 / 2) 0)) in E by lra. injection E as _ E. exact E. }
  unfold identify_active_set. change (pb_ic pb) with true. change (pb_p pb) with 3%nat. rewrite in_app_iff. intros [H|H].
  - cbn in H. destruct H as [H|[]]. discriminate.
  - apply in_map_iff in H. destruct H as [j [Hj H]]. cbn in Hj. assert (j = 2%nat) by lia. subst j. apply filter_In in H. destruct H as [_ H].
    unfold is_active in H. change (pb_ic pb) with true in H. cbn [ioff Nat.add] in H. rewrite MX, Ec in H.
    change (c 3%nat) with 0 in H. rewrite (proj2 (Reqb_true 0 0)) in H by reflexivity. cbn [negb orb] in H.
    apply Rleb_true in H. rewrite T3, PP, Rabs_right in H by (try lia; lra). lra.
Qed.

Theorem C72_lasso_one_iteration_refuted : user_ok ex72_u /\ u_fam ex72_u = NormalF /\ u_link ex72_u = IdentityL /\
  guess_intercept NormalF IdentityL false (map (fun i => mkgrow (u_y ex72_u i) (u_w ex72_u i) (u_off ex72_u i)) (seq 0 4)) = Some 0 /\
  forall l M N, seeds_ok (lib_seed l) -> exists b0 b w2, fit_with SCd ex72_u (ex72_se M N) None l 0 StartNone = Some (b0, b, true, w2).
Proof.
  split; [exact ex72_ok|]. split; [reflexivity|]. split; [reflexivity|]. split; [unfold guess_intercept, gavg, lsumf; cbn; f_equal; field|]. intros l M N Hseed.
  unfold fit_with. set (c := get_start_coef _ _ _ _ _ _ _ _). unfold solve. cbv zeta.
  set (pb := std_problem ex72_u (solve_settings SCd ex72_u (ex72_se M N))). set (P2 := std_problem_P2 ex72_u).
  destruct (irls_solver pb (cd_solver pb (lib_seed l)) P2 c) as [[sf w]|] eqn:EI; [|exfalso; eapply C27_cd_always_returns; eauto].
  exists (fst (user_result ex72_u (st_coef sf))), (snd (user_result ex72_u (st_coef sf))), (Nat.ltb 0 (st_lswarn sf)).
  rewrite <- surjective_pairing. destruct w; [reflexivity|]. exfalso.
  assert (Pok : pb_ok pb) by (apply std_ok, ex72_ok).
  assert (HC : 0 <= pb_approx pb) by apply (Rle_refl 0).
  assert (SY : p2_sym (pb_p pb) P2) by (apply std_P2_sym; destruct ex72_ok as [_ [_ [_ [_ [H _]]]]]; exact H).
  assert (BX : in_box pb c) by (apply start_in_box; right; intros j x _ [H|H]; discriminate).
  pose proof (irls_silent pb _ P2 c sf Pok HC eq_refl EI) as T.
  assert (V3 : st_coef sf 3%nat = 0).
  { destruct (C27_iteration_accounting _ _ _ _ _ _ EI) as [n [hist [[H0 Hs] [Hn [_ [Hle _]]]]]].
    change (pb_max_iter pb) with 1%Z in Hle. destruct n as [|[|n]]; [| |lia].
    - rewrite <- Hn, H0, init_coef. reflexivity.
    - specialize (Hs 0%nat ltac:(lia)). rewrite Hn, H0 in Hs.
      apply (C26_dropped_stay_zero pb (lib_seed l) P2 c _ sf Pok HC SY Hseed BX (reach_init _ _ _ _) Hs 3%nat); [cbn; lia|].
      destruct (irls_step_facts _ _ _ _ Hs) as [d [cyc [_ F]]]. rewrite (sf_act _ _ _ _ _ _ F). apply ex72_screened. }
  set (v := st_coef sf) in *.
  destruct (ex72_scores M N v V3) as [S0 [S1 [S2 S3]]]. fold pb P2 in S0, S1, S2, S3.
  change (nc pb) with 4%nat in T. change (pb_gtol pb) with (1 / 10000) in T. cbn [rsum] in T.
  assert (PP : forall j, (j < 3)%nat -> pb_P1 pb j = 1) by (intros j Hj; cbn; unfold std_P1; cbn; rewrite (ex72_stds j Hj); ring).
  assert (NN : forall k, 0 <= entry v (fun k => - score_of pb P2 v k) (pb_P1 pb) (pb_ic pb) (pb_lb pb) (pb_ub pb) k).
  { intros k. unfold entry. destruct (Nat.ltb _ _); apply Rabs_pos. }
  pose proof (NN 0%nat) as N0. pose proof (NN 1%nat) as N1. pose proof (NN 2%nat) as N2. pose proof (NN 3%nat) as N3.
  assert (E : forall k, (1 <= k < 4)%nat -> entry v (fun k => - score_of pb P2 v k) (pb_P1 pb) (pb_ic pb) (pb_lb pb) (pb_ub pb) k
     = Rabs (subgrad_term (v k) (- score_of pb P2 v k) 1 None None)).
  { intros k Hk. unfold entry. change (ioff (pb_ic pb)) with 1%nat. destruct (Nat.ltb_spec k 1); [lia|]. rewrite PP by lia. reflexivity. }
  rewrite (E 1%nat), (E 2%nat), (E 3%nat) in T by lia. rewrite E in N1, N2, N3 by lia. set (e0 := entry _ _ _ _ _ _ 0%nat) in *.
  rewrite S1, S2, S3 in T. rewrite S1 in N1. rewrite S2 in N2. rewrite S3 in N3.
  assert (B1 : 49 / 100 < v 1%nat < 51 / 100).
  { assert (W : Rabs (subgrad_term (v 1%nat) (- (3 / 2 - v 1%nat)) 1 None None) < 1 / 10000) by lra. destruct (ex72_entry _ _ W) as [[X H]|[[X H]|[X H]]]; apply Rabs_def2 in H; lra. }
  assert (B2 : 49 / 100 < v 2%nat < 51 / 100).
  { assert (W : Rabs (subgrad_term (v 2%nat) (- (3 / 2 - v 2%nat)) 1 None None) < 1 / 10000) by lra. destruct (ex72_entry _ _ W) as [[X H]|[[X H]|[X H]]]; apply Rabs_def2 in H; lra. }
  assert (W : Rabs (subgrad_term (v 3%nat) (- (2 / 5 + 2 / 3 * (v 1%nat + v 2%nat))) 1 None None) < 1 / 10000) by lra. destruct (ex72_entry _ _ W) as [[X H]|[[X H]|[X H]]]; apply Rabs_def2 in H; lra.
Qed.
Print Assumptions C72_lasso_one_iteration_refuted.
