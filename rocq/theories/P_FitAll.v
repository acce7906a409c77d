(** Theorems C70, C71 and C62 for all solvers: a silent fit is near-optimal whichever solver produced it. *)
From Coq Require Import String List. Import ListNotations.
From Verif Require Import Base M_Std S_Std S_Fit M_Valid M_Fit S_FitAll.
From Verif Require Import L_Lstsq L_Link L_Dist L_Dist4 L_CD L_KKT L_Hess L_Solver L_Solver2 L_Solver3 L_Obj L_LS L_Mono L_Std L_Fit L_Score L_Gap L_FitAll P_Solver P_Obj P_Std P_LS P_Fit P_Score.
From Verif Require Import M_Solver S_Solver.
Local Open Scope R_scope.

(** C70: a fit that returns without a warning is near-optimal for the user's objective on the raw data,
    for each of the solvers closed-form, irls-ls, irls-cd, lbfgs and trust-constr, given sound linear
    algebra and optimisers that stop for the reasons they report. *)
Theorem C70_silent_near_optimal : forall s u se q l guess a b0 b sl, user_ok u -> 0 <= se_approx se -> se_stol se = None ->
  convex_pair (u_fam u) (u_link u) -> libs_sound sl l -> start_ok u a -> accepts s u q -> s <> SMono ->
  (s = SLbfgs \/ s = STrust -> unclipped u b0 b) ->
  fit_with s u se q l guess a = Some (b0, b, false, false) ->
  near_optimal u (fit_tol s u se) (match s, q with STrust, Some _ => sl | _, _ => 0 end) (admissible u q) b0 b /\
  user_feasible u b /\
  match q with
  | Some q => forall r, (r < iq_m q)%nat -> rsum (u_p u) (fun j => iq_A q r j * b j) <= iq_b q r + se_gtol se
  | None => True
  end.
Proof.
  intros s u se q l guess a b0 b sl Hok HC Hst Hc Hl Ha [Hacc Hq] Hs Hu E. unfold fit_with in E.
  set (start := get_start_coef _ _ _ _ _ _ _ _) in *.
  destruct (solve s u se q l start) as [[[v w1] w2]|] eqn:ES; [|discriminate]. injection E as E -> ->.
  assert (E0 : fst (user_result u v) = b0) by (rewrite E; reflexivity).
  assert (E1 : snd (user_result u v) = b) by (rewrite E; reflexivity).
  set (se' := solve_settings s u se) in *.
  assert (NF : s <> SCd -> user_feasible u b).
  { intros H j Hj. destruct (proj2 (Hacc H) j Hj) as [A B]. rewrite A, B. split; discriminate. }
  assert (NQ : s <> STrust -> q = None).
  { intros H. destruct q; [|reflexivity]. exfalso. apply H, Hq. discriminate. }
  destruct Hl as [Hsd [Hpos [Hsol [Hls [Hlb [Hlb' [Htr Htr']]]]]]].
  assert (IR : forall inner sf, irls_solver (std_problem u se') inner (std_problem_P2 u) start = Some (sf, false) ->
     in_box (std_problem u se') (st_coef sf) -> q = None -> v = st_coef sf -> se_gtol se' = se_gtol se ->
     near_optimal u (se_gtol se) 0 (admissible u q) b0 b /\ user_feasible u b /\ match q with Some q => forall r, (r < iq_m q)%nat -> rsum (u_p u) (fun j => iq_A q r j * b j) <= iq_b q r + se_gtol se | None => True end).
  { intros inner sf EI B -> -> Hg.
    pose proof (irls_silent (std_problem u se') inner (std_problem_P2 u) start sf (std_ok u se' Hok) HC Hst EI) as T.
    change (pb_gtol (std_problem u se')) with (se_gtol se') in T. rewrite Hg in T.
    destruct (near_subgrad u se' (st_coef sf) (se_gtol se) Hok Hc B (Rlt_le _ _ T)) as [F N]. rewrite E0, E1 in N. rewrite E1 in F.
    split; [|split; [exact F|exact I]]. eapply near_weaken; [|exact N]. intros b' H. apply H. }
  destruct s; cbn [solve fit_tol] in *.
  - discriminate.
  - unfold solve in ES. cbv zeta in ES. fold se' in ES.
    destruct (_ && _)%bool eqn:EB in ES; [|discriminate]. injection ES as <-.
    apply andb_prop in EB. destruct EB as [EB _]. apply andb_prop in EB. destruct EB as [EB _]. apply andb_prop in EB. destruct EB as [EN _].
    rewrite (NQ ltac:(discriminate)) in *. split; [|split; [apply NF; discriminate|exact I]].
    rewrite <- E0, <- E1. apply near_closed; try assumption. apply Hacc. discriminate.
  - unfold solve in ES. cbv zeta in ES. fold se' in ES.
    destruct (irls_solver _ _ _ _) as [[sf w]|] eqn:EI; [|discriminate]. injection ES as <- -> _.
    eapply IR; eauto. { apply box_free, Hacc. discriminate. } { apply NQ. discriminate. }
  - congruence.
  - unfold solve, lbfgs_solver in ES. cbv zeta in ES. fold se' in ES.
    set (r := lib_lbfgs l _ _ _ _ _) in ES. injection ES as Ev W1 W2.
    assert (GR : lb_why r = LbGradient).
    { pose proof (Hlb' (nc (std_problem u se')) (get_obj_and_derivative (std_problem u se') (std_problem_P2 u)) start (pb_gtol (std_problem u se')) (pb_max_iter (std_problem u se'))) as K.
      fold r in K. destruct (lb_why r); try discriminate; congruence. }
    pose proof (Hlb _ _ _ _ _ GR) as G. fold r in G. rewrite Ev in G. clear W1 W2.
    rewrite (NQ ltac:(discriminate)) in *. split; [|split; [apply NF; discriminate|exact I]].
    rewrite <- E0, <- E1. apply (near_grad u se'); try assumption. { apply Hacc. discriminate. }
    eapply Rle_trans; [apply (rsum_le _ _ (fun _ => se_gtol se))|].
    + intros k Hk. rewrite <- Rabs_Ropp. rewrite <- (scipy_gradient u se' v k Hok Hc) by (try exact Hk; rewrite E0, E1; auto). apply G, Hk.
    + rewrite rsum_const. right. unfold ncoef. f_equal. f_equal. unfold ioff. destruct (u_ic u); lia.
  - unfold solve in ES. cbv zeta in ES. fold se' in ES.
    destruct (irls_solver _ _ _ _) as [[sf w]|] eqn:EI; [|discriminate]. injection ES as <- -> _.
    eapply IR; eauto. { eapply C29_result_in_box; eauto. apply std_ok, Hok. apply start_in_box, Ha. } { apply NQ. discriminate. }
  - unfold solve, trust_constr_solver in ES. cbv zeta in ES. fold se' in ES.
    set (r := lib_trust l _ _ _ _ _ _) in ES. injection ES as Ev W.
    assert (GR : tr_why r = TrGradient).
    { pose proof (Htr' (nc (std_problem u se')) (get_obj_and_derivative (std_problem u se') (std_problem_P2 u)) start
        (option_map (trust_ineq (pb_ic (std_problem u se'))) (option_map (fun q => std_ineq q (u_stds u)) q)) (pb_gtol (std_problem u se')) (pb_max_iter (std_problem u se'))) as K.
      fold r in K. destruct (tr_why r); try discriminate; congruence. }
    pose proof (Htr _ _ _ _ _ _ GR) as G. fold r in G. rewrite Ev in G. clear W.
    assert (NC : se_gtol se * ncoef u = se_gtol se * INR (ioff (u_ic u) + u_p u)).
    { unfold ncoef. f_equal. f_equal. unfold ioff. destruct (u_ic u); lia. }
    assert (K : let q0 := match q with Some q => q | None => no_ineq end in
      approx_kkt (ioff (u_ic u) + u_p u) (fun k => - score_of (std_problem u se') (std_problem_P2 u) v k) v
        (trust_ineq (u_ic u) (std_ineq q0 (u_stds u))) (se_gtol se) (match q with Some _ => sl | None => 0 end)).
    { intros q0. destruct G as [GF [lam [L0 [LG LS]]]].
      assert (QQ : match option_map (trust_ineq (pb_ic (std_problem u se'))) (option_map (fun q => std_ineq q (u_stds u)) q) with Some q => q | None => no_ineq end
        = trust_ineq (u_ic u) (std_ineq q0 (u_stds u)) /\ match q with Some _ => sl | None => 0 end = sl \/ q = None) by (destruct q; [left; split; reflexivity|right; reflexivity]).
      destruct QQ as [[QQ QS]|QN].
      - rewrite QS. rewrite QQ in *. split; [exact GF|]. exists lam. split; [exact L0|]. split; [|exact LS].
        intros k Hk. rewrite <- (scipy_gradient u se' v k Hok Hc) by (try exact Hk; rewrite E0, E1; auto). apply LG, Hk.
      - unfold q0. rewrite QN in *. cbn [option_map] in *.
        assert (M0 : iq_m (trust_ineq (u_ic u) (std_ineq no_ineq (u_stds u))) = 0%nat) by (unfold trust_ineq; destruct (u_ic u); reflexivity).
        unfold approx_kkt. rewrite M0. split; [intros r0 Hr; lia|]. exists lam. split; [intros r0 Hr; lia|]. split; [|cbn; lra].
        intros k Hk. rewrite <- (scipy_gradient u se' v k Hok Hc) by (try exact Hk; rewrite E0, E1; auto). apply LG, Hk. }
    cbv zeta in K. destruct (near_kkt u se' v _ _ _ Hok Hc (proj1 (Hacc ltac:(discriminate))) K) as [KF KN].
    rewrite E0, E1 in KN. rewrite E1 in KF. rewrite NC. destruct q as [q|].
    + split; [|split; [apply NF; discriminate|exact KF]]. eapply near_weaken; [|exact KN]. intros b' H. apply H.
    + split; [|split; [apply NF; discriminate|exact I]]. eapply near_weaken; [|exact KN]. intros b' _ r0 Hr. cbn in Hr. lia.
Qed.
Print Assumptions C70_silent_near_optimal.

(** C70 for irls-ls-monotonic: a silent fit satisfies the user's inequalities up to 1e-6 (b_ineq is zero). *)
Theorem C70_monotonic_feasible : forall u se q l guess a b0 b w2,
  fit_with SMono u se (Some q) l guess a = Some (b0, b, false, w2) ->
  forall r, (r < iq_m q)%nat -> iq_b q r = 0 /\ rsum (u_p u) (fun j => iq_A q r j * b j) <= 1 / 1000000.
Proof.
  intros u se q l guess a b0 b w2 E r Hr. unfold fit_with in E.
  set (start := get_start_coef _ _ _ _ _ _ _ _) in *.
  destruct (solve SMono u se (Some q) l start) as [[[v w1] w3]|] eqn:ES; [|discriminate]. injection E as E -> ->.
  unfold solve in ES. cbv zeta in ES. cbn [option_map] in ES.
  destruct (monotonic_irls_solver _ _ _ _ _ _ _ _) as [[[m x1] x2]|] eqn:EM; [|discriminate]. injection ES as <- W _.
  apply orb_false_iff in W. destruct W as [-> ->].
  destruct (C31_silent_success_feasible _ _ _ _ _ _ _ _ _ _ _ EM) as [B [_ F]]. split; [exact (B r Hr)|].
  pose proof (proj1 F eq_refl r Hr) as K.
  destruct (C35_inequalities_preserved u (solve_settings SMono u se) q (st_coef (ms_st m))) as [X _]. rewrite X in K.
  rewrite E in K. exact K.
Qed.
Print Assumptions C70_monotonic_feasible.

(** C71: silent fits of the same convex model by any two solvers (and settings, starts, seeds) agree: in
    the objective, in the coefficients as far as the L2 penalty determines them, and in the predictions. *)
Theorem C71_solvers_agree : forall u s1 s2 se1 se2 l1 l2 g1 g2 a1 a2 sl1 sl2 b0 b b0' b' D, user_ok u ->
  0 <= se_approx se1 -> 0 <= se_approx se2 -> se_stol se1 = None -> se_stol se2 = None ->
  convex_pair (u_fam u) (u_link u) -> libs_sound sl1 l1 -> libs_sound sl2 l2 -> start_ok u a1 -> start_ok u a2 ->
  accepts s1 u None -> accepts s2 u None -> s1 <> SMono -> s2 <> SMono -> unclipped u b0 b -> unclipped u b0' b' ->
  fit_with s1 u se1 None l1 g1 a1 = Some (b0, b, false, false) ->
  fit_with s2 u se2 None l2 g2 a2 = Some (b0', b', false, false) ->
  0 <= D -> std_close u D b0 b b0' b' ->
  user_l2 u (pen_scale u) (fun j => b' j - b j) + / 2 * (pred_dev u b0 b b0' b' + pred_dev u b0' b' b0 b)
    <= (fit_tol s1 u se1 + fit_tol s2 u se2) * D /\
  user_obj u (pen_scale u) b0 b <= user_obj u (pen_scale u) b0' b' + fit_tol s1 u se1 * D /\
  user_obj u (pen_scale u) b0' b' <= user_obj u (pen_scale u) b0 b + fit_tol s2 u se2 * D.
Proof.
  intros u s1 s2 se1 se2 l1 l2 g1 g2 a1 a2 sl1 sl2 b0 b b0' b' D Hok C1 C2 T1 T2 Hc L1 L2 A1 A2 K1 K2 M1 M2 U1 U2 E1 E2 HD HX.
  destruct (C70_silent_near_optimal s1 u se1 None l1 g1 a1 b0 b sl1 Hok C1 T1 Hc L1 A1 K1 M1 (fun _ => U1) E1) as [[I1 N1] [F1 _]].
  destruct (C70_silent_near_optimal s2 u se2 None l2 g2 a2 b0' b' sl2 Hok C2 T2 Hc L2 A2 K2 M2 (fun _ => U2) E2) as [[I2 N2] [F2 _]].
  specialize (N1 b0' b' D (conj F2 I) I2 HD HX). specialize (N2 b0 b D (conj F1 I) I1 HD (std_close_sym _ _ _ _ _ _ HX)).
  rewrite (user_l2_sym u (pen_scale u) (fun j => b' j - b j) (fun j => b j - b' j)) in N2 by (intros; ring).
  assert (P : 0 <= user_l2 u (pen_scale u) (fun j => b' j - b j)).
  { destruct Hok as [_ [_ [_ [_ [_ HP]]]]]. apply (HP (fun j => pen_scale u j * (b' j - b j))). }
  assert (Z1 : match s1, @None ineq with STrust, Some _ => sl1 | _, _ => 0 end = 0) by (destruct s1; reflexivity).
  assert (Z2 : match s2, @None ineq with STrust, Some _ => sl2 | _, _ => 0 end = 0) by (destruct s2; reflexivity).
  rewrite Z1 in N1. rewrite Z2 in N2.
  pose proof (pred_dev_nonneg u b0 b b0' b' Hok Hc). pose proof (pred_dev_nonneg u b0' b' b0 b Hok Hc). lra.
Qed.
Print Assumptions C71_solvers_agree.

(** Without intercept and with an L2 penalty of at least m on every coefficient all solvers return the same
    coefficients up to the sum of their tolerances times (largest column scale) / m. *)
Theorem C71_coefficients_agree : forall u s1 s2 se1 se2 l1 l2 g1 g2 a1 a2 sl1 sl2 b0 b b0' b' m s, user_ok u ->
  0 <= se_approx se1 -> 0 <= se_approx se2 -> se_stol se1 = None -> se_stol se2 = None -> 0 <= se_gtol se1 -> 0 <= se_gtol se2 ->
  convex_pair (u_fam u) (u_link u) -> libs_sound sl1 l1 -> libs_sound sl2 l2 -> start_ok u a1 -> start_ok u a2 ->
  accepts s1 u None -> accepts s2 u None -> s1 <> SMono -> s2 <> SMono -> unclipped u b0 b -> unclipped u b0' b' ->
  fit_with s1 u se1 None l1 g1 a1 = Some (b0, b, false, false) ->
  fit_with s2 u se2 None l2 g2 a2 = Some (b0', b', false, false) ->
  u_ic u = false -> 0 < m -> (forall d, m * rsum (u_p u) (fun j => d j ^ 2) <= user_l2 u (pen_scale u) d) ->
  (forall j, (j < u_p u)%nat -> col_scale u j <= s) ->
  forall j, (j < u_p u)%nat -> Rabs (b' j - b j) <= (fit_tol s1 u se1 + fit_tol s2 u se2) * s / m.
Proof.
  intros u s1 s2 se1 se2 l1 l2 g1 g2 a1 a2 sl1 sl2 b0 b b0' b' m s Hok C1 C2 T1 T2 G1 G2 Hc L1 L2 A1 A2 K1 K2 M1 M2 U1 U2 E1 E2 Hic Hm HL HS j Hj.
  destruct (argmax (u_p u) (fun j => Rabs (b' j - b j)) ltac:(lia)) as [k [Hk HK]].
  set (dk := Rabs (b' k - b k)) in *.
  assert (D0 : 0 <= dk) by apply Rabs_pos.
  assert (SP : forall j, 0 < col_scale u j) by (intros i; rewrite col_scale_inv; apply Rinv_0_lt_compat, inv_pos).
  assert (S0 : 0 <= s) by (specialize (HS j Hj); specialize (SP j); lra).
  destruct (C71_solvers_agree u s1 s2 se1 se2 l1 l2 g1 g2 a1 a2 sl1 sl2 b0 b b0' b' (s * dk) Hok C1 C2 T1 T2 Hc L1 L2 A1 A2 K1 K2 M1 M2 U1 U2 E1 E2) as [L _].
  - apply Rmult_le_pos; assumption.
  - split; [congruence|]. intros i Hi. apply Rmult_le_compat; [left; apply SP|apply Rabs_pos|apply HS, Hi|apply HK, Hi].
  - specialize (HL (fun j => b' j - b j)).
    assert (Q : dk ^ 2 <= rsum (u_p u) (fun j => (b' j - b j) ^ 2)).
    { unfold dk. rewrite pow2_abs. apply (rsum_ge_one (u_p u) (fun j => (b' j - b j) ^ 2) k); [intros; apply pow2_ge_0|exact Hk]. }
    assert (L0 : user_l2 u (pen_scale u) (fun j => b' j - b j) <= (fit_tol s1 u se1 + fit_tol s2 u se2) * (s * dk))
      by (pose proof (pred_dev_nonneg u b0 b b0' b' Hok Hc); pose proof (pred_dev_nonneg u b0' b' b0 b Hok Hc); lra).
    clear L. rename L0 into L.
    assert (TP : forall s se, 0 <= se_gtol se -> 0 <= fit_tol s u se).
    { intros x se H. assert (0 <= ncoef u) by apply pos_INR. destruct x; cbn; nra. }
    pose proof (TP s1 se1 G1). pose proof (TP s2 se2 G2). set (t := fit_tol s1 u se1 + fit_tol s2 u se2) in *.
    eapply Rle_trans; [apply HK, Hj|].
    apply Rmult_le_reg_r with m; [exact Hm|]. unfold Rdiv. rewrite Rmult_assoc, Rinv_l, Rmult_1_r by lra.
    destruct (Req_dec dk 0) as [Z|Z].
    + rewrite Z, Rmult_0_l. apply Rmult_le_pos; [unfold t; lra|exact S0].
    + apply Rmult_le_reg_r with dk; [lra|]. nra.
Qed.
Print Assumptions C71_coefficients_agree.

(** C62 for all six solvers: a silent fit with intercept satisfies the first likelihood equation up to
    gradient_tol (weights normalised), constrained or not. *)
Theorem C62_balance_any_solver : forall s u se q l guess a b0 b sl w2, user_ok u -> 0 <= se_approx se -> se_stol se = None ->
  0 <= se_gtol se -> u_ic u = true -> convex_pair (u_fam u) (u_link u) -> libs_sound sl l ->
  (s = SLbfgs \/ s = STrust -> unclipped u b0 b /\ w2 = false) ->
  fit_with s u se q l guess a = Some (b0, b, false, w2) ->
  Rabs (rsum (u_n u) (fun i => u_w u i * residual (u_fam u) (u_link u) (u_y u i) (user_eta u b0 b i))) <= se_gtol se.
Proof.
  intros s u se q l guess a b0 b sl w2 Hok HC Hst Hg Hic Hc Hl Hu E. unfold fit_with in E.
  set (start := get_start_coef _ _ _ _ _ _ _ _) in *.
  destruct (solve s u se q l start) as [[[v w1] w3]|] eqn:ES; [|discriminate]. injection E as E -> ->.
  set (se' := solve_settings s u se) in *.
  pose proof (score_intercept u se' v Hic Hc) as SI. rewrite E in SI. cbn [fst snd] in SI. rewrite <- SI. clear SI.
  destruct Hl as [_ [_ [Hsol [Hls [Hlb [Hlb' [Htr Htr']]]]]]].
  assert (E0 : fst (user_result u v) = b0) by (rewrite E; reflexivity).
  assert (E1 : snd (user_result u v) = b) by (rewrite E; reflexivity).
  assert (GG : pb_gtol (std_problem u se') = se_gtol se) by reflexivity.
  assert (IC : pb_ic (std_problem u se') = true) by exact Hic.
  assert (N0 : (0 < ioff (u_ic u) + u_p u)%nat) by (rewrite Hic; cbn; lia).
  assert (IR : forall inner sf, irls_solver (std_problem u se') inner (std_problem_P2 u) start = Some (sf, false) -> v = st_coef sf ->
     Rabs (score_of (std_problem u se') (std_problem_P2 u) v 0%nat) <= se_gtol se).
  { intros inner sf EI ->. pose proof (irls_silent (std_problem u se') inner (std_problem_P2 u) start sf (std_ok u se' Hok) HC Hst EI) as T.
    rewrite GG in T. rewrite <- Rabs_Ropp.
    pose proof (entry_0 (std_problem u se') (st_coef sf) (fun k => - score_of (std_problem u se') (std_problem_P2 u) (st_coef sf) k) IC) as K. cbv beta in K. lra. }
  destruct s.
  - discriminate.
  - unfold solve in ES. cbv zeta in ES. fold se' in ES.
    destruct (_ && _)%bool eqn:EB in ES; [|discriminate]. injection ES as <-.
    apply andb_prop in EB. destruct EB as [EB _]. apply andb_prop in EB. destruct EB as [EB _]. apply andb_prop in EB. destruct EB as [EN _].
    assert (FL : u_fam u = NormalF /\ u_link u = IdentityL).
    { unfold normal_identity in EN. destruct (u_fam u), (u_link u); try discriminate; auto. }
    pose proof Hok as [_ [_ [Hw [_ [HS HP]]]]].
    rewrite (closed_score (std_problem u se') (std_problem_P2 u)); [rewrite Rabs_R0; exact Hg|apply FL|apply FL|apply std_P2_sym, HS| |exact N0].
    apply tikhonov_normal; auto. apply std_P2_sym, HS. apply std_P2_psd, HP.
  - unfold solve in ES. cbv zeta in ES. fold se' in ES.
    destruct (irls_solver _ _ _ _) as [[sf w]|] eqn:EI; [|discriminate]. injection ES as <- -> _. eapply IR; eauto.
  - unfold solve in ES. cbv zeta in ES. fold se' in ES. destruct q as [q|]; [|discriminate]. cbn [option_map] in ES.
    destruct (monotonic_irls_solver _ _ _ _ _ _ _ _) as [[[m x1] x2]|] eqn:EM; [|discriminate]. injection ES as <- W _.
    apply orb_false_iff in W. destruct W as [-> ->].
    destruct (mono_silent _ _ _ _ _ _ _ _ _ _ (std_ok u se' Hok) HC Hst EM) as [P2' T]. cbv zeta in T. rewrite GG in T.
    rewrite (score_0_P2 _ _ P2' _ IC), <- Rabs_Ropp.
    pose proof (entry_0 (std_problem u se') (st_coef (ms_st m)) (fun k => - score_of (std_problem u se') P2' (st_coef (ms_st m)) k) IC) as K. cbv beta in K. lra.
  - destruct (Hu (or_introl eq_refl)) as [U ->]. unfold solve, lbfgs_solver in ES. cbv zeta in ES. fold se' in ES.
    set (r := lib_lbfgs l _ _ _ _ _) in ES. injection ES as Ev W1 W2.
    assert (GR : lb_why r = LbGradient).
    { pose proof (Hlb' (nc (std_problem u se')) (get_obj_and_derivative (std_problem u se') (std_problem_P2 u)) start (pb_gtol (std_problem u se')) (pb_max_iter (std_problem u se'))) as K.
      fold r in K. destruct (lb_why r); try discriminate; congruence. }
    pose proof (Hlb _ _ _ _ _ GR) as G. fold r in G. rewrite Ev in G.
    rewrite <- Rabs_Ropp, <- (scipy_gradient u se' v 0%nat Hok Hc) by (try exact N0; rewrite E0, E1; exact U). apply G. exact N0.
  - unfold solve in ES. cbv zeta in ES. fold se' in ES.
    destruct (irls_solver _ _ _ _) as [[sf w]|] eqn:EI; [|discriminate]. injection ES as <- -> _. eapply IR; eauto.
  - destruct (Hu (or_intror eq_refl)) as [U ->]. unfold solve, trust_constr_solver in ES. cbv zeta in ES. fold se' in ES.
    set (r := lib_trust l _ _ _ _ _ _) in ES. injection ES as Ev W.
    assert (GR : tr_why r = TrGradient).
    { pose proof (Htr' (nc (std_problem u se')) (get_obj_and_derivative (std_problem u se') (std_problem_P2 u)) start
        (option_map (trust_ineq (pb_ic (std_problem u se'))) (option_map (fun q => std_ineq q (u_stds u)) q)) (pb_gtol (std_problem u se')) (pb_max_iter (std_problem u se'))) as K.
      fold r in K. destruct (tr_why r); try discriminate; congruence. }
    pose proof (Htr _ _ _ _ _ _ GR) as G. fold r in G. rewrite Ev in G. destruct G as [_ [lam [_ [LG _]]]].
    specialize (LG 0%nat N0). rewrite (rsum_zero _ (fun r0 => lam r0 * _)) in LG.
    + rewrite Rplus_0_r, (scipy_gradient u se' v 0%nat Hok Hc), Rabs_Ropp in LG by (try exact N0; rewrite E0, E1; exact U). exact LG.
    + intros r0 _. destruct q as [q|]; cbn [option_map]; [|cbn; ring]. unfold trust_ineq. rewrite IC. cbn. ring.
Qed.
Print Assumptions C62_balance_any_solver.

(** The contracts can be met together: exact Gaussian elimination, exact least squares, and optimisers that
    report a gradient stop only at points meeting it. *)
Definition lb_here : lbfgs_t := fun n f x0 tol _ =>
  mkLb x0 (if existsb (fun k => Rltb tol (Rabs (snd (f x0) k))) (seq 0 n) then LbLimit else LbGradient).
Definition tr_here : trust_t := fun n f x0 q tol _ =>
  let q := match q with Some q => q | None => no_ineq end in
  let val r := rsum n (fun k => iq_A q r k * x0 k) in
  mkTr x0 (if (existsb (fun k => Rltb tol (Rabs (snd (f x0) k))) (seq 0 n) || existsb (fun r => Rltb (iq_b q r + tol) (val r)) (seq 0 (iq_m q)))%bool
           then TrLimit else TrGradient).
Definition exact_libs : libs := mkLibs (fun _ => 0%N) gauss (fun _ => gauss) lsq_square lb_here tr_here.
Lemma existsb_none {A} (f : A -> bool) l : existsb f l = false -> forall x, In x l -> f x = false.
Proof. intros E x Hx. destruct (f x) eqn:F; [|reflexivity]. rewrite (proj2 (existsb_exists f l)) in E by (exists x; auto). discriminate. Qed.
Lemma exact_libs_sound sl : 0 <= sl -> libs_sound sl exact_libs.
Proof.
  intros Hsl. split; [intros z; reflexivity|]. split; [exact gauss_sound|]. split; [intros pos; exact gauss_sound|]. split; [exact lsq_sound|].
  split; [|split; [|split]].
  - intros n f x0 tol it. cbv zeta. intros E k Hk. cbn in *. destruct (existsb _ _) eqn:X; [discriminate|].
    pose proof (existsb_none _ _ X k ltac:(apply in_seq; lia)) as Y. apply Rltb_false in Y. exact Y.
  - intros n f x0 tol it. cbn. destruct (existsb _ _); discriminate.
  - intros n f x0 q tol it. cbv zeta. intros E. cbn in *. set (q' := match q with Some q => q | None => no_ineq end) in *.
    destruct (existsb _ (seq 0 n)) eqn:X; [discriminate|]. cbn [orb] in E. destruct (existsb _ _) eqn:Y in E; [discriminate|].
    split.
    + intros r0 Hr. pose proof (existsb_none _ _ Y r0 ltac:(apply in_seq; lia)) as Z. cbv beta in Z. apply Rltb_false in Z. exact Z.
    + exists (fun _ => 0). split; [intros; lra|]. split.
      * intros k Hk. pose proof (existsb_none _ _ X k ltac:(apply in_seq; lia)) as Z. apply Rltb_false in Z.
        rewrite rsum_zero by (intros; ring). rewrite Rplus_0_r. exact Z.
      * rewrite rsum_zero by (intros; ring). exact Hsl.
  - intros n f x0 q tol it. cbn. destruct (_ || _)%bool; discriminate.
Qed.

(** Least squares on two points, started at the solution: all five solvers return silently and the
    hypotheses of C70, C71 hold; the closed form does so from any start. *)
Definition ex70_se : settings := mkSettings 100 1000 (1 / 10000) None 0 None false false 1000000 (1 / 1000000000).
Definition ex70_a : start_arg := StartParams (fun k => match k with O => 0 | _ => 9 / 5 end).
Example C70_nonvacuous : forall s, s <> SMono -> s <> SAuto -> exists b0 b,
  fit_with s (exu None) ex70_se None exact_libs 0 ex70_a = Some (b0, b, false, false) /\
  user_ok (exu None) /\ libs_sound 0 exact_libs /\ start_ok (exu None) ex70_a /\ accepts s (exu None) None /\ unclipped (exu None) b0 b.
Proof.
  intros s N1 N2.
  assert (Hok : user_ok (exu None)).
  { split; [exact I|]. split; [intros; exact I|]. split; [intros; simpl; lra|]. split; [intros; simpl; lra|]. split.
    - intros i j Hi Hj. simpl in Hi, Hj. replace i with j by lia. reflexivity.
    - intros v. simpl. lra. }
  assert (REST : forall b0 b, user_ok (exu None) /\ libs_sound 0 exact_libs /\ start_ok (exu None) ex70_a /\ accepts s (exu None) None /\ unclipped (exu None) b0 b).
  { intros b0 b. split; [exact Hok|]. split; [apply exact_libs_sound; lra|]. split; [right; intros j x _ [H|H]; discriminate|].
    split; [|intros H; discriminate]. split; [|congruence]. intros _. split; [intros j _; reflexivity|intros j _; split; reflexivity]. }
  set (st := get_start_coef (u_p (exu None)) (u_ic (exu None)) (u_means (exu None)) (u_stds (exu None)) 0 (u_lb (exu None)) (u_ub (exu None)) ex70_a).
  assert (S0 : st 0%nat = 0).
  { change (0 + rsum 1 (fun j => u_means (exu None) j * one_over (u_stds (exu None) j) * (9 / 5 * u_stds (exu None) j)) = 0). cbn [rsum]. rewrite ex57_means. ring. }
  assert (S1 : st 1%nat = 9 / 10).
  { change (9 / 5 * u_stds (exu None) 0%nat = 9 / 10). rewrite ex57_stds. field. }
  assert (F0 : fst (user_result (exu None) st) = 0).
  { unfold user_result, unpack. change (u_ic (exu None)) with true. cbv iota. unfold unstandardize. cbn [fst].
    rewrite rsum_zero; [rewrite S0; ring|]. intros j _. rewrite ex57_means. ring. }
  assert (ETA : forall i, (i < 2)%nat -> user_eta (exu None) (fst (user_result (exu None) st)) (snd (user_result (exu None) st)) i = u_y (exu None) i).
  { intros i Hi. unfold user_eta. change (u_p (exu None)) with 1%nat. cbn [rsum]. rewrite !result_coef, ex57_stds, ex57_inv.
    rewrite F0. change (ioff (u_ic (exu None)) + 0)%nat with 1%nat. rewrite S1.
    destruct i as [|[|i]]; [| |lia]; simpl; field. }
  assert (SC : forall se k, (k < 2)%nat -> score_of (std_problem (exu None) se) (std_problem_P2 (exu None)) st k = 0).
  { intros se k Hk. assert (k = 0 \/ k = ioff (u_ic (exu None)) + 0)%nat as [ -> | -> ] by (cbn; lia).
    - rewrite (score_intercept (exu None) se st eq_refl I). apply rsum_zero. intros i Hi. rewrite ETA by exact Hi. cbn. ring.
    - rewrite (score_column (exu None) se st 0 Nat.lt_0_1) by (try exact I; intros l _; cbn; destruct l; reflexivity).
      apply rsum_zero. intros i Hi. rewrite ETA by exact Hi. cbn. ring. }
  assert (IR : forall inner, irls_solver (std_problem (exu None) (solve_settings s (exu None) ex70_se)) inner (std_problem_P2 (exu None)) st
     = Some (init_state (std_problem (exu None) (solve_settings s (exu None) ex70_se)) (std_problem_P2 (exu None)) false st, false)).
  { intros inner. apply irls_at_start; [apply std_ok, Hok|cbn; lra|].
    change (nc (std_problem (exu None) (solve_settings s (exu None) ex70_se))) with 2%nat. cbn [rsum]. unfold entry.
    cbn [std_problem pb_ic exu u_ic ioff Nat.ltb Nat.leb Nat.sub pb_P1 pb_lb pb_ub u_P1 u_lb u_ub u_scale].
    replace (std_P1 false (fun _ => 0) (u_stds _) 0%nat) with 0 by (unfold std_P1; ring).
    change (std_bounds (fun _ => None) _ 0%nat) with (@None R).
    rewrite subgrad_free.
    fold (exu None). rewrite !SC by lia. rewrite Ropp_0, Rabs_R0. cbn. lra. }
  exists (fst (user_result (exu None) (match s with SClosed => tikhonov_solver (std_problem (exu None) (solve_settings s (exu None) ex70_se)) (std_problem_P2 (exu None)) (lib_solve exact_libs) (lib_lstsq exact_libs) | _ => st end))),
         (snd (user_result (exu None) (match s with SClosed => tikhonov_solver (std_problem (exu None) (solve_settings s (exu None) ex70_se)) (std_problem_P2 (exu None)) (lib_solve exact_libs) (lib_lstsq exact_libs) | _ => st end))).
  split; [|apply REST]. unfold fit_with. fold st. rewrite <- surjective_pairing.
  assert (G : forall se, existsb (fun k => Rltb (1 / 10000) (Rabs (snd (get_obj_and_derivative (std_problem (exu None) se) (std_problem_P2 (exu None)) st) k))) (seq 0 2) = false).
  { intros se. destruct (existsb _ _) eqn:X; [|reflexivity]. exfalso. apply existsb_exists in X. destruct X as [k [Hk X]]. apply in_seq in Hk.
    apply Rltb_true in X. rewrite (scipy_gradient (exu None) se st k Hok) in X by (try (cbn; lia); try (cbn; auto; fail); try (intros H; discriminate); unfold convex_pair; cbn; auto).
    rewrite SC, Ropp_0, Rabs_R0 in X by lia. lra. }
  assert (EC : forall pb P2, st_coef (init_state pb P2 false st) = st /\ st_lswarn (init_state pb P2 false st) = 0%nat).
  { intros pb P2. unfold init_state. destruct (eta_mu_objective _ _ _ _ _ _) as [[[? ?] ?] ?].
    destruct (update_quadratic _ _ _ _) as [[? ?] ?]. destruct (check_convergence _ _ _ _) as [[[? ?] ?] ?]. split; reflexivity. }
  destruct s; try congruence; unfold solve; cbv zeta.
  - assert (B : (normal_identity (exu None) && forallb (fun j => Reqb (pb_P1 (std_problem (exu None) (solve_settings SClosed (exu None) ex70_se)) j) 0) (seq 0 (u_p (exu None)))
          && negb (se_has_bounds ex70_se) && true)%bool = true).
    { cbn. unfold std_P1. rewrite (proj2 (Reqb_true _ _)) by (cbn; ring). reflexivity. }
    rewrite B. reflexivity.
  - rewrite IR. destruct (EC (std_problem (exu None) (solve_settings SLs (exu None) ex70_se)) (std_problem_P2 (exu None))) as [-> ->]. reflexivity.
  - unfold lbfgs_solver. cbn [exact_libs lib_lbfgs lb_here lb_x lb_why].
    pose proof (G (solve_settings SLbfgs (exu None) ex70_se)) as G1. change (seq 0 2) with (seq 0 (nc (std_problem (exu None) (solve_settings SLbfgs (exu None) ex70_se)))) in G1.
    change (pb_gtol _) with (1 / 10000). rewrite G1. reflexivity.
  - rewrite IR. destruct (EC (std_problem (exu None) (solve_settings SCd (exu None) ex70_se)) (std_problem_P2 (exu None))) as [-> ->]. reflexivity.
  - unfold trust_constr_solver. cbn [exact_libs lib_trust tr_here tr_x tr_why option_map no_ineq iq_m].
    pose proof (G (solve_settings STrust (exu None) ex70_se)) as G1. change (seq 0 2) with (seq 0 (nc (std_problem (exu None) (solve_settings STrust (exu None) ex70_se)))) in G1.
    change (pb_gtol _) with (1 / 10000). rewrite G1. reflexivity.
Qed.
