(** Lemmas for C62-C64. *)
From Verif Require Import M_Std S_Std L_Link L_Dist L_Dist2 L_Dist4 L_CD L_KKT L_Hess L_Solver L_Solver2 L_Solver3 L_Obj L_Std L_Fit P_Solver P_Obj P_Std.
From Verif Require Import M_Solver S_Solver S_Fit.
Local Open Scope R_scope.

Lemma residual_eq f lk y w eta : convex_pair f lk -> gradient_row f lk y w eta (search_mean f lk eta) = w * residual f lk y eta.
Proof.
  intros H. unfold convex_pair in H. unfold gradient_row, rowwise, residual, mean_at.
  destruct f as [p| | | | | | |th]; destruct lk as [q| | | |]; try (exfalso; exact H); try reflexivity; cbn.
  - destruct (Req_EM_T p 0); [reflexivity|lra].
  - unfold inverse1, Rpower. cbn. destruct (Req_EM_T p 1) as [->|N1]; [cbn; replace ((1 - 1) * eta) with 0 by ring; rewrite exp_0; ring|].
    destruct (Req_EM_T p 2) as [->|N2].
    + cbn. replace ((1 - 2) * eta) with (- eta) by ring. rewrite exp_Ropp. pose proof (exp_pos eta). field. lra.
    + destruct (Rlt_dec 1 p); [|lra]. destruct (Rlt_dec p 2); [|lra]. cbn. unfold Rpower. rewrite ln_exp. ring.
  - unfold inverse1. cbn. rewrite exp_Ropp. pose proof (exp_pos eta). field. lra.
  - unfold expit. do 2 f_equal. field. pose proof (exp_pos (- eta)). lra.
  - unfold inverse1, Rdiv. cbn. ring.
Qed.

(** the state behind a silent fit *)
Lemma silent_state u se seed guess a b0 b : user_ok u -> 0 <= se_approx se -> se_stol se = None ->
  fit_cd u se seed guess a = Some (b0, b, false) ->
  exists v, user_result u v = (b0, b) /\
    (let pb := std_problem u se in
     rsum (nc pb) (entry v (fun k => - score_of pb (std_problem_P2 u) v k) (pb_P1 pb) (pb_ic pb) (pb_lb pb) (pb_ub pb)) < se_gtol se) /\
    (seeds_ok seed -> start_ok u a -> in_box (std_problem u se) v).
Proof.
  intros Hok HC Hst E. unfold fit_cd in E.
  destruct (irls_solver _ _ _ _) as [[sf w]|] eqn:ES; [|discriminate]. injection E as E ->.
  exists (st_coef sf). split; [exact E|].
  assert (Pok : pb_ok (std_problem u se)) by (apply std_ok, Hok).
  split.
  - cbv zeta. set (pb := std_problem u se) in *.
    destruct (C27_iteration_accounting _ _ _ _ _ _ ES) as [n [hist [[H0 Hs] [Hn [_ [_ [_ [_ [HW _]]]]]]]]].
    assert (Rc : reach pb (cd_solver pb seed) (std_problem_P2 u)
       (get_start_coef (u_p u) (u_ic u) (u_means u) (u_stds u) guess (u_lb u) (u_ub u) a) sf) by (rewrite <- Hn; eapply hist_reach; eauto).
    pose proof (inv_coh _ _ _ (reach_inv _ _ _ _ _ Pok HC Rc)) as C.
    destruct (proj1 HW eq_refl) as [T|[t [Et _]]]; [|change (pb_stol pb) with (se_stol se) in Et; congruence].
    rewrite norm_sum_full in T. change (pb_gtol pb) with (se_gtol se) in T.
    rewrite (rsum_ext _ _ (entry (st_coef sf) (fun k => - score_of pb (std_problem_P2 u) (st_coef sf) k) (pb_P1 pb) (pb_ic pb) (pb_lb pb) (pb_ub pb))) in T; [exact T|].
    intros k Hk. unfold entry. destruct (Nat.ltb_spec k (ioff (pb_ic pb))) as [L|L].
    + rewrite (coh_score _ _ _ C) by lia. reflexivity.
    + rewrite (coh_score _ _ _ C) by exact Hk. reflexivity.
  - intros Hseed Ha. eapply C29_result_in_box; eauto. apply start_in_box, Ha.
Qed.

Lemma score_intercept u se v : u_ic u = true -> convex_pair (u_fam u) (u_link u) ->
  score_of (std_problem u se) (std_problem_P2 u) v 0%nat
  = rsum (u_n u) (fun i => u_w u i * residual (u_fam u) (u_link u) (u_y u i) (user_eta u (fst (user_result u v)) (snd (user_result u v)) i)).
Proof.
  intros Hic Hc. unfold score_of. cbn [std_problem pb_ic pb_n pb_fam pb_link pb_y pb_w].
  rewrite (rsum_zero (nc _)).
  - rewrite Rminus_0_r. apply rsum_ext. intros i _. unfold mean_of. cbn [std_problem pb_fam pb_link].
    rewrite residual_eq by exact Hc. rewrite eta_std. unfold xt. cbn [std_problem pb_ic]. rewrite Hic. ring.
  - intros l _. unfold p2_full. rewrite Hic. destruct l; ring.
Qed.
Lemma std_P2_col u j : (forall l, (l < u_p u)%nat -> p2_entry (u_P2 u) l j = 0) ->
  forall l, (l < u_p u)%nat -> p2_entry (std_problem_P2 u) l j = 0.
Proof.
  intros H l Hl. unfold std_problem_P2, std_P2. specialize (H l Hl). destruct (u_scale u); [exact H|].
  destruct (u_P2 u) as [v|M]; simpl in *.
  - destruct (Nat.eqb l j); [rewrite H; ring|reflexivity].
  - rewrite H. ring.
Qed.
Lemma score_column u se v j : (j < u_p u)%nat -> (forall l, (l < u_p u)%nat -> p2_entry (u_P2 u) l j = 0) -> convex_pair (u_fam u) (u_link u) ->
  score_of (std_problem u se) (std_problem_P2 u) v (ioff (u_ic u) + j)%nat
  = rsum (u_n u) (fun i => u_w u i * residual (u_fam u) (u_link u) (u_y u i) (user_eta u (fst (user_result u v)) (snd (user_result u v)) i)
                           * ((u_X u i j - u_means u j) * one_over (u_stds u j))).
Proof.
  intros Hj H2 Hc. unfold score_of. rewrite (rsum_zero (nc _)).
  - rewrite Rminus_0_r. apply rsum_ext. intros i _. unfold mean_of. cbn [std_problem pb_fam pb_link pb_y pb_w].
    rewrite residual_eq by exact Hc. rewrite eta_std. unfold xt. cbn [std_problem pb_ic pb_X].
    destruct (u_ic u); cbn [ioff Nat.add]; unfold std_X; ring.
  - intros l Hl. unfold nc in Hl. cbn [std_problem pb_ic pb_p] in *. unfold p2_full.
    destruct (u_ic u); cbn [ioff Nat.add] in *.
    + destruct l as [|l]; [ring|]. rewrite (std_P2_col u j H2) by lia. ring.
    + rewrite (std_P2_col u j H2) by lia. ring.
Qed.
Lemma subgrad_free x g : subgrad_term x g 0 None None = g.
Proof.
  unfold subgrad_term, at_bound. cbn [andb]. destruct (Reqb x 0).
  - unfold fmax. rewrite Rminus_0_r. pose proof (Rabs_pos g) as P. pose proof (fsign_mul_abs g) as Q.
    destruct (Rltb 0 (Rabs g)) eqn:E1; [exact Q|]. apply Rltb_false in E1. replace 0 with (Rabs g) by lra. exact Q.
  - ring.
Qed.

Lemma rsum_ge_one n f i : (forall k, (k < n)%nat -> 0 <= f k) -> (i < n)%nat -> f i <= rsum n f.
Proof.
  intros H. induction n as [|n IH]; intros Hi; [lia|]. cbn [rsum].
  assert (0 <= rsum n f) by (apply rsum_nonneg; intros; apply H; lia).
  destruct (Nat.eq_dec i n) as [->|]; [lra|]. specialize (IH ltac:(intros; apply H; lia) ltac:(lia)). specialize (H n ltac:(lia)). lra.
Qed.
Lemma rsum_ge_two n f i j : (forall k, (k < n)%nat -> 0 <= f k) -> (i < n)%nat -> (j < n)%nat -> i <> j -> f i + f j <= rsum n f.
Proof.
  intros H. revert i j. induction n as [|n IH]; intros i j Hi Hj D; [lia|]. cbn [rsum].
  assert (P : forall k, (k < n)%nat -> f k <= rsum n f) by (intros k Hk; apply rsum_ge_one; [intros; apply H; lia|exact Hk]).
  destruct (Nat.eq_dec i n) as [->|], (Nat.eq_dec j n) as [->|]; try lia.
  - specialize (P j ltac:(lia)). lra.
  - specialize (P i ltac:(lia)). lra.
  - specialize (IH ltac:(intros; apply H; lia) i j ltac:(lia) ltac:(lia) D). specialize (H n ltac:(lia)). lra.
Qed.

(** the score equations at a silent fit *)
Lemma silent_intercept u se seed guess a b0 b : user_ok u -> 0 <= se_approx se -> se_stol se = None ->
  u_ic u = true -> convex_pair (u_fam u) (u_link u) ->
  fit_cd u se seed guess a = Some (b0, b, false) ->
  Rabs (rsum (u_n u) (fun i => u_w u i * residual (u_fam u) (u_link u) (u_y u i) (user_eta u b0 b i))) < se_gtol se.
Proof.
  intros Hok HC Hst Hic Hc E. destruct (silent_state u se seed guess a b0 b Hok HC Hst E) as [v [Ev [T _]]]. cbv zeta in T.
  pose proof (score_intercept u se v Hic Hc) as Q. rewrite Ev in Q. cbn [fst snd] in Q. rewrite <- Q.
  eapply Rle_lt_trans; [|exact T].
  set (f := entry _ _ _ _ _ _). replace (Rabs (score_of (std_problem u se) (std_problem_P2 u) v 0%nat)) with (f 0%nat).
  - apply rsum_ge_one; [intros; apply entry_nonneg|]. unfold nc. cbn [std_problem pb_ic pb_p]. rewrite Hic. cbn. lia.
  - unfold f, entry. cbn [std_problem pb_ic]. rewrite Hic. cbn. apply Rabs_Ropp.
Qed.
Lemma silent_column u se seed guess a b0 b j : user_ok u -> 0 <= se_approx se -> se_stol se = None ->
  convex_pair (u_fam u) (u_link u) -> (j < u_p u)%nat -> free_column u j ->
  fit_cd u se seed guess a = Some (b0, b, false) ->
  Rabs (rsum (u_n u) (fun i => u_w u i * residual (u_fam u) (u_link u) (u_y u i) (user_eta u b0 b i) * u_X u i j))
  <= se_gtol se * Rmax (col_scale u j) (Rabs (u_means u j)).
Proof.
  intros Hok HC Hst Hc Hj [F1 [F2 [F3 F4]]] E. destruct (silent_state u se seed guess a b0 b Hok HC Hst E) as [v [Ev [T _]]]. cbv zeta in T.
  pose proof (score_column u se v j Hj F2 Hc) as Q. rewrite Ev in Q. cbn [fst snd] in Q.
  set (r := fun i => u_w u i * residual (u_fam u) (u_link u) (u_y u i) (user_eta u b0 b i)) in *.
  set (f := entry _ _ _ _ _ _) in T.
  assert (EJ : f (ioff (u_ic u) + j)%nat = Rabs (score_of (std_problem u se) (std_problem_P2 u) v (ioff (u_ic u) + j)%nat)).
  { unfold f, entry. cbn [std_problem pb_ic]. destruct (Nat.ltb_spec (ioff (u_ic u) + j) (ioff (u_ic u))); [lia|].
    replace (ioff (u_ic u) + j - ioff (u_ic u))%nat with j by lia. cbn [std_problem pb_P1 pb_lb pb_ub].
    unfold std_bounds. rewrite F3, F4. replace (std_P1 (u_scale u) (u_P1 u) (u_stds u) j) with 0 by (unfold std_P1; destruct (u_scale u); rewrite F1; ring).
    rewrite subgrad_free. apply Rabs_Ropp. }
  assert (P : 0 < one_over (u_stds u j)) by apply inv_pos.
  assert (SP : 0 < col_scale u j) by (rewrite col_scale_inv; apply Rinv_0_lt_compat, P).
  assert (X : rsum (u_n u) (fun i => r i * u_X u i j) =
     col_scale u j * score_of (std_problem u se) (std_problem_P2 u) v (ioff (u_ic u) + j)%nat + u_means u j * rsum (u_n u) r).
  { rewrite Q, <- !rsum_scal, <- rsum_plus. apply rsum_ext. intros i _. fold (r i). rewrite col_scale_inv. field. lra. }
  change (Rabs (rsum (u_n u) (fun i => r i * u_X u i j)) <= se_gtol se * Rmax (col_scale u j) (Rabs (u_means u j))).
  rewrite X. clear X Q. set (sj := score_of _ _ _ _) in *.
  assert (K : Rabs (u_means u j * rsum (u_n u) r) + Rabs (col_scale u j * sj) <= se_gtol se * Rmax (col_scale u j) (Rabs (u_means u j))).
  { rewrite !Rabs_mult, (Rabs_right (col_scale u j)) by lra.
    pose proof (Rmax_l (col_scale u j) (Rabs (u_means u j))). pose proof (Rmax_r (col_scale u j) (Rabs (u_means u j))).
    set (m := Rmax _ _) in *.
    destruct (u_ic u) eqn:Hic.
    - pose proof (score_intercept u se v Hic Hc) as Q. rewrite Ev in Q. cbn [fst snd] in Q. fold r in Q. rewrite <- Q.
      assert (E0 : f 0%nat = Rabs (score_of (std_problem u se) (std_problem_P2 u) v 0%nat)).
      { unfold f, entry. cbn [std_problem pb_ic]. rewrite Hic. cbn. apply Rabs_Ropp. }
      rewrite <- E0. rewrite <- EJ.
      assert (L : f 0%nat + f (ioff true + j)%nat <= rsum (nc (std_problem u se)) f).
      { apply rsum_ge_two; [intros; apply entry_nonneg| | |]; unfold nc; cbn [std_problem pb_ic pb_p]; rewrite ?Hic; cbn; lia. }
      assert (0 <= f 0%nat) by apply entry_nonneg. assert (0 <= f (ioff true + j)%nat) by apply entry_nonneg.
      pose proof (Rabs_pos (u_means u j)). nra.
    - assert (M0 : u_means u j = 0) by (unfold u_means, col_means; rewrite Hic; reflexivity). rewrite M0 in *.
      rewrite Rabs_R0 in *. rewrite Rmult_0_l, Rplus_0_l. rewrite <- EJ.
      assert (L : f (ioff false + j)%nat <= rsum (nc (std_problem u se)) f).
      { apply rsum_ge_one; [intros; apply entry_nonneg|]. unfold nc; cbn [std_problem pb_ic pb_p]; rewrite ?Hic; cbn; lia. }
      assert (0 <= f (ioff false + j)%nat) by apply entry_nonneg. nra. }
  eapply Rle_trans; [apply Rabs_triang|]. lra.
Qed.

(** near-optimality with the strong-convexity margin *)
Lemma silent_margin u se seed guess a b0 b : user_ok u -> 0 <= se_approx se -> seeds_ok seed -> se_stol se = None ->
  convex_pair (u_fam u) (u_link u) -> start_ok u a ->
  fit_cd u se seed guess a = Some (b0, b, false) ->
  user_feasible u b /\ (u_ic u = false -> b0 = 0) /\
  forall b0' b' D, user_feasible u b' -> (u_ic u = false -> b0' = 0) -> 0 <= D -> std_close u D b0 b b0' b' ->
    user_obj u (pen_scale u) b0 b + / 2 * user_l2 u (pen_scale u) (fun j => b' j - b j)
    <= user_obj u (pen_scale u) b0' b' + se_gtol se * D.
Proof.
  intros Hok HC Hs Hst Hc Ha E. destruct (silent_state u se seed guess a b0 b Hok HC Hst E) as [v [Ev [T B]]]. cbv zeta in T.
  specialize (B Hs Ha). set (pb := std_problem u se) in *.
  assert (E0 : fst (user_result u v) = b0) by (rewrite Ev; reflexivity).
  assert (E1 : snd (user_result u v) = b) by (rewrite Ev; reflexivity).
  split; [rewrite <- E1; apply (box_std u se); exact B|]. split; [intros H; rewrite <- E0; apply result_no_intercept, H|].
  intros b0' b' D Fb Hb0 HD [HI HJ].
  pose proof (to_std_result u b0' b' Hb0) as [T0 T1]. set (z := to_std u b0' b') in *.
  assert (Bz : in_box pb z) by (apply box_std; intros j Hj; rewrite T1; apply Fb, Hj).
  assert (Dz : forall k, (k < nc pb)%nat -> Rabs (z k - v k) <= D).
  { intros k Hk. apply std_distance; auto; rewrite ?E0, ?E1; auto.
    unfold nc in Hk. change (pb_p pb) with (u_p u) in Hk. change (pb_ic pb) with (u_ic u) in Hk. lia. }
  pose proof Hok as [_ [_ [Hw [_ [HS HP]]]]].
  pose proof (smooth_convex pb (std_problem_P2 u) v z (std_ok u se Hok) (std_P2_sym u HS) Hw Hc) as A.
  set (g := fun k => - score_of pb (std_problem_P2 u) v k) in *.
  assert (K : - (rsum (nc pb) (entry v g (pb_P1 pb) (pb_ic pb) (pb_lb pb) (pb_ub pb)) * D)
    <= rsum (nc pb) (fun i => g i * (z i - v i)) + l1_form pb z - l1_form pb v).
  { unfold l1_form. rewrite <- rsum_scal_r, <- rsum_opp, <- rsum_plus, <- rsum_minus. apply rsum_le. intros i Hi.
    eapply Rle_trans; [|eapply Rle_trans; [apply (entry_bound v g (pb_P1 pb) (pb_ic pb) (pb_lb pb) (pb_ub pb) i (z i)); auto|]].
    - pose proof (entry_nonneg v g (pb_P1 pb) (pb_ic pb) (pb_lb pb) (pb_ub pb) i). specialize (Dz i Hi).
      apply Ropp_le_contravar. apply Rmult_le_compat_l; assumption.
    - apply (proj2 (proj2 (std_ok u se Hok))).
    - lra. }
  set (en := rsum (nc pb) (entry _ _ _ _ _ _)) in *.
  assert (G : en * D <= se_gtol se * D) by (apply Rmult_le_compat_r; lra).
  assert (O1 : train_obj pb (std_problem_P2 u) v = user_obj u (pen_scale u) b0 b) by (unfold pb; rewrite obj_std, E0, E1; reflexivity).
  assert (O2 : train_obj pb (std_problem_P2 u) z = user_obj u (pen_scale u) b0' b').
  { unfold pb; rewrite obj_std. apply user_obj_ext; [exact T0|exact T1]. }
  assert (L2 : l2_form pb (std_problem_P2 u) (fun k => z k - v k) = user_l2 u (pen_scale u) (fun j => b' j - b j)).
  { unfold pb. rewrite l2_std. unfold user_l2. apply rsum_ext. intros i _. apply rsum_ext. intros j _.
    assert (Q : forall m, snd (user_result u (fun k => z k - v k)) m = b' m - b m).
    { intros m. rewrite <- E1, <- (T1 m), !result_coef. ring. }
    rewrite !Q. reflexivity. }
  rewrite L2 in A. unfold train_obj in O1, O2.
  change (rsum (nc pb) (fun k => - score_of pb (std_problem_P2 u) v k * (z k - v k))) with (rsum (nc pb) (fun i => g i * (z i - v i))) in A.
  lra.
Qed.

(** a fit whose start already passes the stopping test *)
Lemma fit_at_start u se seed guess a : user_ok u -> 0 <= se_approx se ->
  (let pb := std_problem u se in
   let v := get_start_coef (u_p u) (u_ic u) (u_means u) (u_stds u) guess (u_lb u) (u_ub u) a in
   rsum (nc pb) (entry v (fun k => - score_of pb (std_problem_P2 u) v k) (pb_P1 pb) (pb_ic pb) (pb_lb pb) (pb_ub pb)) < se_gtol se ->
   fit_cd u se seed guess a = Some (user_result u v, false)).
Proof.
  intros Hok HC pb v T.
  destruct (irls_solver pb (cd_solver pb seed) (std_problem_P2 u) v) as [[sf w]|] eqn:ES; [|exfalso; eapply C27_cd_always_returns; eauto].
  assert (Ec : st_coef (init_state pb (std_problem_P2 u) false v) = v).
  { unfold init_state. destruct (eta_mu_objective _ _ _ _ _ _) as [[[? ?] ?] ?].
    destruct (update_quadratic _ _ _ _) as [[? ?] ?]. destruct (check_convergence _ _ _ _) as [[[? ?] ?] ?]. reflexivity. }
  assert (Rc : reach pb (cd_solver pb seed) (std_problem_P2 u) v (init_state pb (std_problem_P2 u) false v)) by constructor.
  assert (Pok : pb_ok pb) by (apply std_ok, Hok).
  pose proof (inv_coh _ _ _ (reach_inv _ _ _ _ _ Pok HC Rc)) as C.
  set (s0 := init_state pb (std_problem_P2 u) false v) in *.
  assert (ST : stop_test pb s0).
  { left. rewrite norm_sum_full. change (pb_gtol pb) with (se_gtol se). eapply Rle_lt_trans; [|exact T]. apply Req_le. apply rsum_ext.
    intros k Hk. unfold entry. rewrite Ec. destruct (Nat.ltb_spec k (ioff (pb_ic pb))) as [L|L].
    + rewrite (coh_score _ _ _ C) by lia. rewrite Ec. reflexivity.
    + rewrite (coh_score _ _ _ C) by exact Hk. rewrite Ec. reflexivity. }
  destruct (C27_iteration_accounting _ _ _ _ _ _ ES) as [n [hist [[H0 Hs] [Hn [_ [_ [_ [HN [HW _]]]]]]]]].
  unfold fit_cd. fold pb. fold v. rewrite ES. destruct n as [|n].
  - rewrite H0 in Hn. subst sf. fold s0 in HW. rewrite (proj2 HW ST). fold s0. rewrite Ec. reflexivity.
  - exfalso. apply (HN 0%nat); [lia|]. rewrite H0. exact ST.
Qed.
