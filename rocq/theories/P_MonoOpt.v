(** Theorems C86: how good the coefficients of a silent fit by irls-ls-monotonic are. *)
From Coq Require Import String Reals Lra Lia FunctionalExtensionality List. Import ListNotations.
From Verif Require Import Base M_Link L_Link M_Std S_Std M_Lin L_Lin L_Lstsq L_Dist L_Dist4 L_CD L_KKT L_Hess L_Solver L_Solver2 L_Solver3 L_Mono L_LS L_Obj L_Std L_Fit L_FitAll L_Score L_Gap P_Solver P_Obj P_Std P_LS P_Fit P_Score S_Fit M_Valid M_Fit S_FitAll P_FitAll P_Gauss M_Formula S_Formula P_MonoPred.
From Verif Require Import M_Solver S_Solver.
Local Open Scope R_scope.

(** the score under the penalised matrix *)
Lemma score_penalty pb q P2b P2 lam V x k :
  (forall i j, p2_entry P2 i j = p2_entry P2b i j + lam * lsumf (fun r => iq_A q r i * iq_A q r j) V) ->
  score_of pb P2 x k = score_of pb P2b x k
    - (if Nat.ltb k (ioff (pb_ic pb)) then 0 else lam * lsumf (fun r => row_dot pb q r x * iq_A q r (k - ioff (pb_ic pb))%nat) V).
Proof.
  intros H. unfold score_of.
  match goal with |- ?a - ?b = ?a - ?c - ?d => assert (E : b = c + d); [|lra] end.
  unfold nc. set (o := ioff (pb_ic pb)).
  assert (SP : forall P, rsum (o + pb_p pb) (fun l => x l * p2_full (pb_ic pb) P l k) =
     if Nat.ltb k o then 0 else rsum (pb_p pb) (fun j => x (o + j)%nat * p2_entry P j (k - o))).
  { intros P. unfold o. destruct (pb_ic pb); cbn [ioff Nat.add].
    - rewrite rsum_S_l. unfold p2_full. destruct k as [|k].
      + cbn. rewrite rsum_zero; [ring|]. intros; ring.
      + cbn. rewrite Rmult_0_r, Rplus_0_l. rewrite Nat.sub_0_r. reflexivity.
    - cbn. rewrite Nat.sub_0_r. reflexivity. }
  rewrite !SP. destruct (Nat.ltb k o); [ring|].
  rewrite (rsum_ext (pb_p pb) (fun j => x (o + j)%nat * p2_entry P2 j (k - o)) (fun j => x (o + j)%nat * p2_entry P2b j (k - o) + lam * lsumf (fun r => iq_A q r j * x (o + j)%nat * iq_A q r (k - o)%nat) V)).
  - rewrite rsum_plus. f_equal. rewrite rsum_scal. f_equal. rewrite rsum_lsumf_swap. apply lsumf_ext. intros r _. rewrite rsum_scal_r. unfold row_dot. reflexivity.
  - intros j _. rewrite H, Rmult_plus_distr_l. f_equal.
    rewrite (lsumf_ext _ (fun r => iq_A q r j * x (o + j)%nat * iq_A q r (k - o)%nat) (fun r => x (o + j)%nat * (iq_A q r j * iq_A q r (k - o)%nat))) by (intros; ring).
    rewrite lsumf_scal. ring.
Qed.

(** What a fit without ConvergenceWarning minimises: for a convex model without L1 penalty and bounds there are a
    weight lam and a set V of rows such that the coefficients minimise, up to gradient_tol times the distance,
    the training objective plus lam times the linear terms row(b) * (row(b') - row(b)), r in V. *)
Theorem C86_stationary : forall u se q l guess a b0 b w2,
  user_ok u -> 0 <= se_approx se -> se_stol se = None -> convex_pair (u_fam u) (u_link u) -> no_l1 u -> no_bounds u ->
  fit_with SMono u se (Some q) l guess a = Some (b0, b, false, w2) ->
  (u_ic u = false -> b0 = 0) /\
  exists lam V, 100000 <= lam <= 1000000000 /\ NoDup V /\ (forall r, In r V -> (r < iq_m q)%nat) /\
  forall b0' b' D, (u_ic u = false -> b0' = 0) -> 0 <= D -> std_close u D b0 b b0' b' ->
    let row x r := rsum (u_p u) (fun j => iq_A q r j * x j) in
    user_obj u (pen_scale u) b0 b + / 2 * user_l2 u (pen_scale u) (fun j => b' j - b j) + / 2 * pred_dev u b0 b b0' b'
    <= user_obj u (pen_scale u) b0' b' + se_gtol se * D + lam * lsumf (fun r => row b r * (row b' r - row b r)) V.
Proof.
  intros u se q l guess a b0 b w2 Hok HA Hst Hc H1 HB E. unfold fit_with in E.
  set (start := get_start_coef _ _ _ _ _ _ _ _) in *.
  destruct (solve SMono u se (Some q) l start) as [[[v w1] w3]|] eqn:ES; [|discriminate]. injection E as E -> ->.
  unfold solve in ES. cbv zeta in ES. cbn [option_map] in ES.
  destruct (monotonic_irls_solver _ _ _ _ _ _ _ _) as [[[mf x1] x2]|] eqn:EM; [|discriminate]. injection ES as Ev W _.
  apply orb_false_iff in W. destruct W as [-> ->].
  set (se' := solve_settings SMono u se) in *. set (pb := std_problem u se') in *. set (q' := std_ineq q (u_stds u)) in *. set (P2b := std_problem_P2 u) in *.
  set (inner := ls_solver pb (lib_pos l)) in *.
  assert (Pok : pb_ok pb) by (apply std_ok, Hok). assert (HC : 0 <= pb_approx pb) by exact HA.
  assert (EM' := EM). unfold monotonic_irls_solver in EM'.
  destruct (existsb _ _); [discriminate|].
  destruct (update_constraint_penalty _ _ _ _ _ _) as [[P2 base] ch] eqn:EP.
  destruct (mono_loop _ _ _ _ _ _ _ _) as [m|] eqn:EL; [|discriminate]. injection EM' as -> Hc0 _. apply negb_false_iff in Hc0.
  destruct (mono_loop_reach pb inner q' P2b 100 1000000000 100000 start _ _ _ (mreach_init _ _ _ _ _ _ _ _ _ _ _ EP) EL) as [Rm H].
  destruct H as [m0 [R0 S0]]; auto.
  { cbn [ms_st]. unfold init_state. destruct (eta_mu_objective _ _ _ _ _ _) as [[[? ?] ?] ?].
    destruct (update_quadratic _ _ _ _) as [[? ?] ?]. destruct (check_convergence _ _ _ _) as [[[? ?] ?] ?]. reflexivity. }
  pose proof (mono_step_facts _ _ _ _ _ _ _ _ S0) as F.
  destruct (proj1 (mf_conv _ _ _ _ _ _ _ F) Hc0) as [[T|[t [Et _]]] _]; [|change (pb_stol pb) with (se_stol se) in Et; congruence].
  rewrite (mf_norm _ _ _ _ _ _ _ F), norm_sum_full in T. change (pb_gtol pb) with (se_gtol se) in T.
  pose proof (inv_coh _ _ _ (minv_inv _ _ _ _ (mreach_inv _ _ _ _ _ _ _ _ _ Pok HC Rm))) as C.
  set (V := violated pb q' (st_coef (ms_st m0))). set (P2' := st_P2 (ms_st mf)) in *. set (lam := ms_lam mf).
  destruct (C31_penalty_weight pb inner q' P2b 100 1000000000 100000 start mf ltac:(lra) ltac:(lra) Rm) as [L0 _]. fold lam in L0.
  destruct (C31_penalty_matrix pb inner q' P2b 100 1000000000 m0 mf S0) as [PE _]. fold V P2' lam in PE.
  rewrite Ev in T.
  assert (B0 : b0 = fst (user_result u v)) by (rewrite E; reflexivity). assert (B1 : b = snd (user_result u v)) by (rewrite E; reflexivity).
  subst b0 b. split; [apply result_no_intercept|].
  exists lam, V. split; [exact L0|]. split; [apply NoDup_filter, seq_NoDup|]. split.
  { intros r Hr. apply filter_In in Hr. destruct Hr as [Hr _]. apply in_seq in Hr. cbn in Hr. lia. }
  intros b0' b' D Hb0 HD HX. cbv zeta.
  pose proof (lin_margin u se' v b0' b' Hok Hc Hb0) as L. cbv zeta in L. fold pb P2b in L.
  assert (Z1 : forall x, l1_form pb x = 0) by (intros; apply l1_form_zero; assumption).
  rewrite !Z1 in L. set (z := to_std u b0' b') in *.
  pose proof (close_std u v b0' b' D Hb0 HX) as Dz. fold z in Dz.
  assert (ROW : forall x r, row_dot pb q' r x = rsum (u_p u) (fun j => iq_A q r j * snd (user_result u x) j)).
  { intros x r. destruct (C35_inequalities_preserved u se' q x) as [X _]. apply X. }
  assert (RZ : forall r, row_dot pb q' r z = rsum (u_p u) (fun j => iq_A q r j * b' j)).
  { intros r. rewrite ROW. apply rsum_ext. intros j _. unfold z. rewrite (proj2 (to_std_result u b0' b' Hb0)). reflexivity. }
  assert (K : - (se_gtol se * D) <= rsum (nc pb) (fun k => - score_of pb P2' v k * (z k - v k))).
  { apply lin_lower; [exact HD|exact Dz|]. left. eapply Rle_lt_trans; [|exact T]. apply Req_le, rsum_ext. intros k Hk. unfold entry.
    change (pb_ic pb) with (u_ic u). destruct (Nat.ltb_spec k (ioff (u_ic u))) as [Lk|Lk].
    - assert (k = 0)%nat as -> by (destruct (u_ic u); cbn in Lk; lia). rewrite (coh_score _ _ _ C), Ev by exact Hk. reflexivity.
    - assert (KJ : (k - ioff (u_ic u) < u_p u)%nat) by (change (nc pb) with (ioff (u_ic u) + u_p u)%nat in Hk; lia).
      destruct (HB _ KJ) as [Q1 Q2].
      change (pb_lb pb (k - ioff (u_ic u))%nat) with (std_bounds (u_lb u) (u_stds u) (k - ioff (u_ic u))%nat).
      change (pb_ub pb (k - ioff (u_ic u))%nat) with (std_bounds (u_ub u) (u_stds u) (k - ioff (u_ic u))%nat).
      unfold std_bounds. rewrite Q1, Q2.
      assert (P0 : pb_P1 pb (k - ioff (u_ic u))%nat = 0) by (cbn; unfold std_P1; destruct (u_scale u); rewrite (H1 _ KJ); ring).
      rewrite P0, subgrad_free, (coh_score _ _ _ C), Ev by exact Hk. reflexivity. }
  assert (G : rsum (nc pb) (fun k => - score_of pb P2' v k * (z k - v k)) =
     rsum (nc pb) (fun k => - score_of pb P2b v k * (z k - v k)) + lam * lsumf (fun r => row_dot pb q' r v * (row_dot pb q' r z - row_dot pb q' r v)) V).
  { set (o := ioff (u_ic u)).
    rewrite (rsum_ext (nc pb) _ (fun k => - score_of pb P2b v k * (z k - v k) + (if Nat.ltb k o then 0 else lam * lsumf (fun r => row_dot pb q' r v * iq_A q' r (k - o)%nat) V) * (z k - v k))).
    2:{ intros k Hk. rewrite (score_penalty pb q' P2b P2' lam V v k PE). change (pb_ic pb) with (u_ic u). fold o. ring. }
    rewrite rsum_plus. f_equal. change (nc pb) with (o + u_p u)%nat.
    assert (SP : forall f : nat -> R, (forall k, (k < o)%nat -> f k = 0) -> rsum (o + u_p u) f = rsum (u_p u) (fun j => f (o + j)%nat)).
    { intros f Hf. unfold o in *. destruct (u_ic u); cbn [ioff Nat.add] in *; [|reflexivity]. rewrite rsum_S_l, Hf by lia. ring. }
    rewrite SP by (intros k Hk; rewrite (proj2 (Nat.ltb_lt k o) Hk); ring).
    rewrite (rsum_ext (u_p u) _ (fun j => lam * lsumf (fun r => row_dot pb q' r v * (iq_A q' r j * (z (o + j)%nat - v (o + j)%nat))) V)).
    2:{ intros j _. rewrite (proj2 (Nat.ltb_ge (o + j) o)) by lia. replace (o + j - o)%nat with j by lia. rewrite Rmult_assoc. f_equal.
        rewrite (lsumf_ext _ (fun r => row_dot pb q' r v * (iq_A q' r j * (z (o + j)%nat - v (o + j)%nat))) (fun r => (z (o + j)%nat - v (o + j)%nat) * (row_dot pb q' r v * iq_A q' r j))) by (intros; ring).
        rewrite lsumf_scal. ring. }
    rewrite rsum_scal. f_equal. rewrite rsum_lsumf_swap. apply lsumf_ext. intros r _. rewrite rsum_scal. f_equal.
    unfold row_dot. change (pb_ic pb) with (u_ic u). fold o. change (pb_p pb) with (u_p u). rewrite <- rsum_minus. apply rsum_ext. intros; ring. }
  rewrite (lsumf_ext _ (fun r => rsum (u_p u) (fun j => iq_A q r j * snd (user_result u v) j) * _) (fun r => row_dot pb q' r v * (row_dot pb q' r z - row_dot pb q' r v))).
  2:{ intros r _. rewrite RZ, ROW. reflexivity. }
  lra.
Qed.
Print Assumptions C86_stationary.

(** Near-optimality among the feasible coefficients that are nowhere further inside the constraints than the
    solution; so, if no row of the solution is strictly inside, among all feasible coefficients. *)
Theorem C86_near_optimal : forall u se q l guess a b0 b w2,
  user_ok u -> 0 <= se_approx se -> se_stol se = None -> convex_pair (u_fam u) (u_link u) -> no_l1 u -> no_bounds u ->
  fit_with SMono u se (Some q) l guess a = Some (b0, b, false, w2) ->
  let row x r := rsum (u_p u) (fun j => iq_A q r j * x j) in
  near_optimal u (se_gtol se) 0 (fun b' => user_ineq u q b' /\ forall r, (r < iq_m q)%nat -> row b r < 0 -> row b r <= row b' r) b0 b /\
  ((forall r, (r < iq_m q)%nat -> 0 <= row b r) -> near_optimal u (se_gtol se) 0 (user_ineq u q) b0 b).
Proof.
  intros u se q l guess a b0 b w2 Hok HA Hst Hc H1 HB E row.
  destruct (C86_stationary u se q l guess a b0 b w2 Hok HA Hst Hc H1 HB E) as [I0 [lam [V [[L0 _] [_ [HV N]]]]]].
  assert (A : near_optimal u (se_gtol se) 0 (fun b' => user_ineq u q b' /\ forall r, (r < iq_m q)%nat -> row b r < 0 -> row b r <= row b' r) b0 b).
  { split; [exact I0|]. intros b0' b' D [Fb Hi] Hb0 HD HX. specialize (N b0' b' D Hb0 HD HX). cbv zeta in N.
    assert (lsumf (fun r => row b r * (row b' r - row b r)) V <= 0).
    { rewrite <- (lsumf_zero _ (fun _ => 0) V) by reflexivity. apply lsumf_le. intros r Hr. specialize (HV r Hr).
      pose proof (Fb r HV) as F. destruct (C70_monotonic_feasible u se q l guess a b0 b w2 E r HV) as [B0 _]. rewrite B0 in F. fold (row b' r) in F.
      destruct (Rlt_le_dec (row b r) 0) as [Q|Q]; [specialize (Hi r HV Q); nra|nra]. }
    assert (lam * lsumf (fun r => row b r * (row b' r - row b r)) V <= 0) by nra. unfold row in *. lra. }
  split; [exact A|]. intros T. eapply near_weaken; [|exact A]. intros b' Fb. split; [exact Fb|]. intros r Hr Q. specialize (T r Hr). lra.
Qed.
Print Assumptions C86_near_optimal.

(** ** Not the constrained optimum in general *)
(** a run with one iteration, which starts at coefficients that violate a row *)
Lemma mono_one pb q P2b solve lam lm lf c d : pb_ok pb -> pb_approx pb = 0 -> pb_has_bounds pb = false -> (0 < pb_max_iter pb)%Z ->
  (forall r, (r < iq_m q)%nat -> iq_b q r = 0) -> any_gt pb q c 0 = true -> (forall j, (j < pb_p pb)%nat -> c (ioff (pb_ic pb) + j)%nat <> 0) ->
  let P2 t := P2mat (fun i j => p2_entry P2b i j + t * lsumf (fun r => iq_A q r i * iq_A q r j) (violated pb q c)) in
  let P0 := P2 lam in let P1 := P2 (Rmin (lam * lf) lm) in
  (forall H s, (forall i j, (i < nc pb)%nat -> (j < nc pb)%nat -> H i j = exact_hessian pb (fun i => hrow_of pb c i) P1 i j) ->
     (forall k, (k < nc pb)%nat -> s k = score_of pb P0 c k) -> exists d', solve (nc pb) H s = Some d' /\ forall k, (k < nc pb)%nat -> d' k = d k) ->
  (forall d', (forall k, (k < nc pb)%nat -> d' k = d k) -> 
     (forall i, (i < pb_n pb)%nat -> mean_of pb (vadd c d') i < pb_large pb) /\
     train_obj pb P1 (vadd c d') - train_obj pb P0 c <= ls_bound pb c (score_of pb P0 c) d' /\
     any_gt pb q (vadd c d') (1 / 1000000) = false /\
     rsum (nc pb) (entry (vadd c d') (fun k => - score_of pb P1 (vadd c d') k) (pb_P1 pb) (pb_ic pb) (pb_lb pb) (pb_ub pb)) < pb_gtol pb) ->
  exists m, monotonic_irls_solver pb (ls_solver pb solve) q P2b lam lm lf c = Some (m, false, false) /\ st_lswarn (ms_st m) = 0%nat /\
    forall k, (k < nc pb)%nat -> st_coef (ms_st m) k = c k + d k.
Proof.
  intros Hok HA HB HI B0 V0 NZ P2 P0 P1 SOLVE OK. set (inner := ls_solver pb solve). set (lam1 := Rmin (lam * lf) lm) in *.
  assert (HA0 : 0 <= pb_approx pb) by lra.
  assert (UP : forall b t, update_constraint_penalty pb q P2b b c t = (P2 t, false, true)).
  { intros b t. unfold update_constraint_penalty, build_monotonic_penalty. rewrite V0, violated_val. reflexivity. }
  assert (EB : existsb (fun r : nat => negb (Reqb (iq_b q r) 0)) (seq 0 (iq_m q)) = false).
  { apply not_true_iff_false. intros Q. apply existsb_exists in Q. destruct Q as [r [Hr Q]]. apply in_seq in Hr. rewrite B0 in Q by lia.
    rewrite (proj2 (Reqb_true 0 0)) in Q by reflexivity. discriminate. }
  unfold monotonic_irls_solver. rewrite EB, UP. fold P0. set (s0 := init_state pb P0 true c). set (m0 := mkMs s0 lam false).
  pose proof (inv_init pb P0 true c Hok) as I0. fold s0 in I0. assert (Ec : st_coef s0 = c) by (unfold s0; apply init_coef).
  set (sx := set_P2 s0 P1 false).
  pose proof (prepare_facts pb sx) as PF.
  destruct (prepare_spec pb sx P1 HA0 eq_refl) as [A1 [_ [HE [_ H0]]]]; [exact (inv_act _ _ _ I0)|discriminate|].
  specialize (H0 HA).
  assert (EA : st_act (fst (prepare pb sx)) = seq 0 (nc pb)).
  { rewrite (pf_act _ _ _ _ PF). assert (Ecx : st_coef sx = c) by exact Ec. rewrite Ecx. apply identify_full. unfold identify_active_set. rewrite app_length, map_length.
    assert (F : forall l, incl l (seq 0 (pb_p pb)) -> filter (is_active pb c (st_score sx) (st_max sx)) l = l).
    { induction l as [|j l IH]; intros Hl; [reflexivity|]. cbn. unfold is_active at 1. rewrite (proj2 (Reqb_false _ 0)).
      - cbn. f_equal. apply IH. intros x Hx. apply Hl. right. exact Hx.
      - apply NZ. assert (In j (seq 0 (pb_p pb))) as Q by (apply Hl; left; reflexivity). apply in_seq in Q. lia. }
    rewrite F by apply incl_refl. rewrite seq_length. unfold nc, ioff. destruct (pb_ic pb); reflexivity. }
  assert (SC : forall k, (k < nc pb)%nat -> st_score s0 k = score_of pb P0 c k).
  { intros k Hk. rewrite (coh_score _ _ _ (inv_coh _ _ _ I0)) by exact Hk. rewrite Ec. reflexivity. }
  destruct (SOLVE (snd (prepare pb sx)) (st_score (fst (prepare pb sx)))) as [d' [ED Dd]].
  { intros i j Hi Hj. rewrite HE by (rewrite EA, seq_length; assumption). rewrite EA, !seq_nth by assumption. cbn [Nat.add].
    unfold exact_hessian. f_equal. apply rsum_ext. intros r Hr. rewrite H0. change (st_hrows sx r) with (st_hrows s0 r).
    rewrite (coh_hrows _ _ _ (inv_coh _ _ _ I0)) by exact Hr. rewrite Ec. reflexivity. }
  { intros k Hk. rewrite (pf_score _ _ _ _ PF). apply SC, Hk. }
  assert (EI : inner (fst (prepare pb sx)) (snd (prepare pb sx)) = Some (d', 1%nat)).
  { unfold inner, ls_solver. rewrite HB, EA, seq_length, Nat.eqb_refl, ED. reflexivity. }
  assert (ST : exists s', irls_step pb inner sx = Some s').
  { unfold irls_step. destruct (prepare pb sx) as [s1 Hm]. cbn [fst snd] in EI. rewrite EI. destruct (update_quadratic _ _ _ _) as [[? ?] ?]. destruct (check_convergence _ _ _ _) as [[[? ?] ?] ?]. eauto. }
  destruct ST as [s' ES]. destruct (irls_step_facts _ _ _ _ ES) as [d2 [cyc [Ei Fs]]]. rewrite EI in Ei. injection Ei as <- <-.
  destruct (OK d' Dd) as [OK1 [OK2 [OK3 OK4]]].
  assert (LS : st_lswarn s' = 0%nat /\ st_coef s' = vadd c d').
  { destruct (sf_ls _ _ _ _ _ _ Fs) as [L1 [_ [_ [_ [_ [_ L2]]]]]].
    assert (S : ls_warn (line_search pb (st_P2 sx) (st_coef sx) (st_score sx) (st_eta sx) (st_obj sx) d') = false /\ ls_coef (line_search pb (st_P2 sx) (st_coef sx) (st_score sx) (st_eta sx) (st_obj sx) d') = vadd (st_coef sx) d').
    { apply search_full; [exact Hok| | |].
      - exact (coh_eta _ _ _ (inv_coh _ _ _ I0)).
      - change (st_coef sx) with (st_coef s0). rewrite Ec. exact OK1.
      - change (st_obj sx) with (st_obj s0). rewrite (coh_obj _ _ _ (inv_coh _ _ _ I0)). change (st_coef sx) with (st_coef s0). rewrite Ec. change (st_P2 sx) with P1.
        assert (LB : ls_bound pb c (st_score sx) d' = ls_bound pb c (score_of pb P0 c) d').
        { unfold ls_bound, dot. change (st_score sx) with (st_score s0). rewrite (rsum_ext (nc pb) (fun k => st_score s0 k * d' k) (fun k => score_of pb P0 c k * d' k)) by (intros k Hk; rewrite SC by exact Hk; reflexivity). reflexivity. }
        rewrite LB. lra. }
    destruct S as [S1 S2]. rewrite L1, L2, S1, S2. change (st_coef sx) with (st_coef s0). rewrite Ec. split; [|reflexivity].
    assert (Z : st_lswarn sx = 0%nat); [|rewrite Z; reflexivity]. change (st_lswarn sx) with (st_lswarn s0). unfold s0, init_state.
    destruct (eta_mu_objective _ _ _ _ _ _) as [[[? ?] ?] ?]. destruct (update_quadratic _ _ _ _) as [[? ?] ?]. destruct (check_convergence _ _ _ _) as [[[? ?] ?] ?]. reflexivity. }
  destruct LS as [LW EC'].
  assert (MS : mono_step pb inner q P2b lf lm m0 = Some (mkMs s' lam1 false)).
  { unfold mono_step. cbn [ms_st ms_lam ms_base m0]. rewrite Ec, V0. fold lam1. rewrite UP. cbn [negb]. change (set_P2 s0 (P2 lam1) false) with sx. rewrite ES, EC', OK3, andb_false_r. reflexivity. }
  assert (CV : st_conv s' = true).
  { apply (check_conv_iff pb s' (sf_conv _ _ _ _ _ _ Fs)). left.
    pose proof (mf_norm _ _ _ _ _ _ _ (mono_step_facts _ _ _ _ _ _ _ _ MS)) as N. cbn [ms_st] in N. rewrite N, norm_sum_full.
    pose proof (sf_coh _ _ _ _ _ _ Fs Hok (coh_eta _ _ _ (inv_coh _ _ _ I0))) as C1. change (st_P2 sx) with P1 in C1.
    eapply Rle_lt_trans; [|exact OK4]. apply Req_le, rsum_ext. intros k Hk. unfold entry. rewrite EC'.
    destruct (Nat.ltb_spec k (ioff (pb_ic pb))) as [L|L]; rewrite (coh_score _ _ _ C1) by lia; rewrite EC'; reflexivity. }
  assert (E0 : st_conv s0 = false /\ st_niter s0 = 0%Z).
  { unfold s0, init_state. destruct (eta_mu_objective _ _ _ _ _ _) as [[[? ?] ?] ?].
    destruct (update_quadratic _ _ _ _) as [[? ?] ?]. destruct (check_convergence _ _ _ _) as [[[? ?] ?] ?]. split; reflexivity. }
  destruct E0 as [E01 E02].
  assert (LP : forall f, mono_loop pb inner q P2b lf lm f (mkMs s' lam1 false) = Some (mkMs s' lam1 false)).
  { intros [|f]; [reflexivity|]. cbn [mono_loop ms_st]. rewrite CV, andb_false_r. reflexivity. }
  assert (L0 : mono_loop pb inner q P2b lf lm (S (Z.to_nat (pb_max_iter pb))) m0 = Some (mkMs s' lam1 false)).
  { cbn [mono_loop]. change (ms_st m0) with s0. rewrite E01, E02, (proj2 (Z.ltb_lt 0 (pb_max_iter pb)) HI). cbn [negb andb]. rewrite MS. apply LP. }
  exists (mkMs s' lam1 false). rewrite L0. cbn [ms_st]. rewrite CV, EC', OK3. split; [reflexivity|]. split; [exact LW|].
  intros k Hk. unfold vadd. rewrite Dd by exact Hk. reflexivity.
Qed.

(** a sound linear solver: diagonal systems directly, all others by elimination *)
Definition diag_first (solve : linear_solver) : linear_solver := fun n A b =>
  if forallb (fun i => (negb (Reqb (A i i) 0) && forallb (fun j => (Nat.eqb i j || Reqb (A i j) 0)%bool) (seq 0 n))%bool) (seq 0 n)
  then Some (fun k => b k / A k k) else solve n A b.
Lemma diag_first_sound solve : solve_sound solve -> solve_sound (diag_first solve).
Proof.
  intros Hs n A b x Sy E. unfold diag_first in E. destruct (forallb _ _) eqn:F in E; [|exact (Hs n A b x Sy E)]. injection E as <-.
  intros i Hi. rewrite forallb_forall in F. specialize (F i ltac:(apply in_seq; lia)). apply andb_prop in F. destruct F as [F1 F2].
  apply negb_true_iff, Reqb_false in F1. rewrite forallb_forall in F2.
  rewrite (rsum_single n i) by (exact Hi || (intros j Hj Nj; specialize (F2 j ltac:(apply in_seq; lia)); apply orb_prop in F2;
    destruct F2 as [Q|Q]; [apply Nat.eqb_eq in Q; congruence|apply Reqb_true in Q; rewrite Q; ring])).
  field. exact F1.
Qed.
Definition diag_libs : libs := mkLibs (fun _ => 0%N) (diag_first gauss) (fun _ => gauss) lsq_square lb_here tr_here.
Lemma diag_libs_sound : libs_sound 0 diag_libs.
Proof.
  pose proof (exact_libs_sound 0 (Rle_refl 0)) as [A [B C]]. split; [exact A|]. split; [|exact C]. apply diag_first_sound. exact B.
Qed.

(** Two points on an increasing line, constraint "x increasing", started at a slope of -2e-12: the only iteration
    penalises the violated row as an equation, ends strictly inside, and the gradient test is passed at the
    penalised objective.  No warning, slope below 1e-7; the line through the points has slope 9/5. *)
Definition ex86_q : ineq := mkIneq 1 (fun r j => nth r (set_at zero_row 0 (- (1)) :: nil) zero_row j) (fun _ => 0).
Definition ex86_a : start_arg := StartParams (fun k => match k with O => 0 | _ => - (2 / 1000000000000) end).
Definition ex86_x : R := 900000400001 / 40000001000000000000 - 1 / 1000000000000.
Lemma ex86_problem se c t : let pb := std_problem (exu None) se in
  let P := P2mat (fun i j => p2_entry (std_problem_P2 (exu None)) i j + t * lsumf (fun r => iq_A (std_ineq ex86_q (u_stds (exu None))) r i * iq_A (std_ineq ex86_q (u_stds (exu None))) r j) (0%nat :: nil)) in
  (forall k l, (k < 2)%nat -> (l < 2)%nat -> exact_hessian pb (fun i => hrow_of pb c i) P k l = if Nat.eqb k l then match k with O => 1 | _ => 1 + 4 * t end else 0) /\
  score_of pb P c 0 = - c 0%nat /\ score_of pb P c 1 = 9 / 10 - (1 + 4 * t) * c 1%nat /\
  train_obj pb P c = / 2 * ((9 / 10 - c 1%nat) ^ 2 + c 0%nat ^ 2) + 2 * t * c 1%nat ^ 2 /\
  (forall i, (i < 2)%nat -> mean_of pb c i = c 0%nat + match i with O => - c 1%nat | _ => c 1%nat end).
Proof.
  intros pb P.
  assert (X : forall i k, xt pb i k = match k with O => 1 | S j => 2 * u_X (exu None) i j end).
  { intros i [|j]; [reflexivity|]. unfold xt, pb. cbn [std_problem pb_ic pb_X exu u_ic]. fold (exu None). unfold std_X. rewrite ex57_means, ex57_stds, ex57_inv. cbn. ring. }
  assert (PE : p2_entry P 0 0 = 4 * t).
  { unfold P, std_ineq. cbn [p2_entry iq_A ex86_q]. rewrite lsumf_cons, lsumf_nil, ex57_stds, ex57_inv. unfold std_problem_P2, std_P2. cbn. ring. }
  assert (HH : forall k l, (k < 2)%nat -> (l < 2)%nat -> exact_hessian pb (pb_w pb) P k l = if Nat.eqb k l then match k with O => 1 | _ => 1 + 4 * t end else 0).
  { intros k l Hk Hl. unfold exact_hessian. change (pb_n pb) with 2%nat. cbn [rsum]. rewrite !X. unfold p2_full. change (pb_ic pb) with true.
    destruct k as [|[|]], l as [|[|]]; try lia; cbn [Nat.eqb]; rewrite ?PE; cbn; field. }
  assert (SY : p2_sym (pb_p pb) P).
  { intros i j Hi Hj. change (pb_p pb) with 1%nat in *. replace i with 0%nat by lia. replace j with 0%nat by lia. reflexivity. }
  assert (ET : forall i, eta_of pb c i = c 0%nat + 2 * u_X (exu None) i 0%nat * c 1%nat).
  { intros i. unfold eta_of. change (nc pb) with 2%nat. cbn [rsum]. rewrite !X. change (pb_off pb i) with 0. ring. }
  split; [|split; [|split; [|split]]].
  - intros k l Hk Hl. rewrite <- HH by assumption. unfold exact_hessian. apply (f_equal (fun z => z + _)). apply rsum_ext. intros i _. rewrite gauss_hrow by reflexivity. reflexivity.
  - rewrite (gauss_score pb P eq_refl eq_refl SY) by (cbn; lia). change (nc pb) with 2%nat. change (pb_n pb) with 2%nat. cbn [rsum]. rewrite !HH by lia. rewrite !X. cbn. field.
  - rewrite (gauss_score pb P eq_refl eq_refl SY) by (cbn; lia). change (nc pb) with 2%nat. change (pb_n pb) with 2%nat. cbn [rsum]. rewrite !HH by lia. rewrite !X. cbn. field.
  - rewrite C30_ridge_is_training_objective; try reflexivity.
    + unfold ridge_obj. change (pb_n pb) with 2%nat. cbn [rsum]. rewrite !ET. rewrite l2_form_p. change (pb_p pb) with 1%nat. cbn [rsum]. rewrite PE. change (ioff (pb_ic pb) + 0)%nat with 1%nat. cbn. field.
    + intros j _. cbn. unfold std_P1. ring.
    + intros j. cbn. unfold std_P1. lra.
  - intros i Hi. change (mean_of pb c i) with (eta_of pb c i). rewrite ET. destruct i as [|[|]]; [| |lia]; cbn; field.
Qed.
Theorem C86_optimal_refuted : exists b0 b,
  monotonic_ineq text_only ":" ("x"%string :: nil) (("x"%string, "x"%string :: nil) :: nil) (("x"%string, "increasing"%string) :: nil) = Some ex86_q /\
  user_ok (exu None) /\ convex_pair (u_fam (exu None)) (u_link (exu None)) /\ no_l1 (exu None) /\ no_bounds (exu None) /\
  libs_sound 0 diag_libs /\ start_ok (exu None) ex86_a /\
  fit_with SMono (exu None) ex70_se (Some ex86_q) diag_libs 0 ex86_a = Some (b0, b, false, false) /\
  user_ineq (exu None) ex86_q b /\ b0 = 0 /\ 0 < b 0%nat < 1 / 10000000 /\ 2 / 5 < user_obj (exu None) (pen_scale (exu None)) b0 b /\
  user_ineq (exu None) ex86_q (fun _ => 9 / 5) /\ user_obj (exu None) (pen_scale (exu None)) 0 (fun _ => 9 / 5) = 0.
Proof.
  set (u := exu None). set (se := solve_settings SMono u ex70_se). set (pb := std_problem u se). set (q' := std_ineq ex86_q (u_stds u)).
  set (st := get_start_coef (u_p u) (u_ic u) (u_means u) (u_stds u) 0 (u_lb u) (u_ub u) ex86_a).
  assert (S0 : st 0%nat = 0).
  { change (0 + rsum 1 (fun j => u_means (exu None) j * one_over (u_stds (exu None) j) * (- (2 / 1000000000000) * u_stds (exu None) j)) = 0). cbn [rsum]. rewrite ex57_means. ring. }
  assert (S1 : st 1%nat = - (1 / 1000000000000)).
  { change (- (2 / 1000000000000) * u_stds (exu None) 0%nat = - (1 / 1000000000000)). rewrite ex57_stds. field. }
  assert (ROW : forall c r, (r < 1)%nat -> row_dot pb q' r c = - 2 * c 1%nat).
  { intros c r Hr. replace r with 0%nat by lia. unfold row_dot, pb. change (pb_p (std_problem u se)) with 1%nat. cbn [rsum]. change (ioff (pb_ic (std_problem u se)) + 0)%nat with 1%nat.
    unfold q', std_ineq, u. cbn [iq_A ex86_q nth]. rewrite ex57_stds, ex57_inv. cbn. ring. }
  assert (AG : forall c t, any_gt pb q' c t = Rltb t (- 2 * c 1%nat)).
  { intros c t. unfold any_gt. change (iq_m q') with 1%nat. cbn [seq existsb]. rewrite orb_false_r. f_equal.
    change (iq_val pb q' c 0) with (row_dot pb q' 0 c - 0). rewrite ROW by lia. ring. }
  assert (VI : violated pb q' st = (0%nat :: nil)).
  { unfold violated. change (iq_m q') with 1%nat. cbn [seq filter]. rewrite ROW by lia. rewrite S1. change (iq_b q' 0%nat) with 0. rewrite (proj2 (Rltb_true 0 _)) by lra. reflexivity. }
  assert (LM : Rmin (100000 * 100) 1000000000 = 10000000) by (rewrite Rmin_left; lra).
  set (d := fun k => match k with O => 0 | _ => 900000400001 / 40000001000000000000 end).
  destruct (mono_one pb q' (std_problem_P2 u) (diag_first gauss) 100000 1000000000 100 st d) as [m [EM [EW EC]]].
  - apply std_ok, exu_ok.
  - reflexivity.
  - reflexivity.
  - reflexivity.
  - reflexivity.
  - rewrite AG, S1. apply Rltb_true. lra.
  - intros j Hj. change (pb_p pb) with 1%nat in Hj. replace j with 0%nat by lia. change (ioff (pb_ic pb) + 0)%nat with 1%nat. rewrite S1. lra.
  - rewrite VI, LM. intros H s HH Hs.
    destruct (ex86_problem se st 10000000) as [XH _]. destruct (ex86_problem se st 100000) as [_ [X0 [X1 _]]].
    fold u pb q' in XH, X0, X1.
    change (nc pb) with 2%nat in *.
    assert (H00 : H 0%nat 0%nat = 1) by (rewrite HH by lia; apply (XH 0%nat 0%nat); lia).
    assert (H01 : H 0%nat 1%nat = 0) by (rewrite HH by lia; apply (XH 0%nat 1%nat); lia).
    assert (H10 : H 1%nat 0%nat = 0) by (rewrite HH by lia; apply (XH 1%nat 0%nat); lia).
    assert (H11 : H 1%nat 1%nat = 40000001) by (rewrite HH by lia; etransitivity; [apply (XH 1%nat 1%nat); lia|cbn; ring]).
    unfold diag_first. cbn [seq forallb Nat.eqb orb andb]. rewrite H00, H01, H10, H11. rewrite (proj2 (Reqb_false 1 0)), (proj2 (Reqb_false 40000001 0)), (proj2 (Reqb_true 0 0)) by lra. cbn [negb andb].
    eexists. split; [reflexivity|]. intros [|[|k]] Hk; [| |lia].
    + cbv beta. rewrite H00, Hs by lia. etransitivity; [apply (f_equal (fun z => z / 1)), X0|]. rewrite S0. cbn. field.
    + cbv beta. rewrite H11, Hs by lia. etransitivity; [apply (f_equal (fun z => z / 40000001)), X1|]. rewrite S1. cbn. field.
  - rewrite VI, LM. intros d' Hd. change (nc pb) with 2%nat in *.
    assert (C0 : vadd st d' 0%nat = 0) by (unfold vadd; rewrite S0, Hd by lia; cbn; ring).
    assert (C1 : vadd st d' 1%nat = ex86_x) by (unfold vadd, ex86_x; rewrite S1, Hd by lia; cbn; ring).
    destruct (ex86_problem se (vadd st d') 10000000) as [_ [X0 [X1 [XO XM]]]]. destruct (ex86_problem se st 100000) as [_ [Y0 [Y1 [YO _]]]].
    fold u pb q' in X0, X1, XO, XM, Y0, Y1, YO. rewrite C0, C1 in *. rewrite S0, S1 in *.
    assert (P1Z : pb_P1 pb 0%nat = 0) by (cbn; unfold std_P1; ring).
    split; [|split; [|split]].
    + intros i Hi. rewrite (XM i Hi). change (pb_large pb) with 1000000. unfold ex86_x. destruct i; lra.
    + rewrite XO, YO. unfold ls_bound. assert (L1 : forall c, l1_pen pb c = 0) by (intros c; apply l1_pen_zero; intros j Hj; change (pb_p pb) with 1%nat in Hj; replace j with 0%nat by lia; exact P1Z).
      rewrite !L1. unfold dot. change (nc pb) with 2%nat. cbn [rsum]. rewrite Y0, Y1, (Hd 0%nat), (Hd 1%nat) by lia. cbn [d]. unfold ex86_x. lra.
    + rewrite AG, C1. apply Rltb_false. unfold ex86_x. lra.
    + change (pb_gtol pb) with (1 / 10000). cbn [rsum]. unfold entry. change (pb_ic pb) with true. cbn [ioff Nat.ltb Nat.leb Nat.sub].
      rewrite P1Z. change (pb_lb pb 0%nat) with (@None R). change (pb_ub pb 0%nat) with (@None R). rewrite subgrad_free, X0, X1.
      rewrite !Ropp_involutive, Rabs_R0. unfold ex86_x. rewrite Rabs_left; lra.
  - set (v := st_coef (ms_st m)) in *. change (nc pb) with 2%nat in EC.
    assert (V0 : v 0%nat = 0) by (rewrite EC, S0 by lia; cbn; ring).
    assert (V1 : v 1%nat = ex86_x) by (rewrite EC, S1 by lia; unfold ex86_x; cbn; ring).
    assert (F0 : fst (user_result u v) = 0).
    { unfold user_result, unpack. change (u_ic u) with true. cbv iota. unfold unstandardize. cbn [fst].
      rewrite rsum_zero; [rewrite V0; ring|]. intros j _. unfold u. rewrite ex57_means. ring. }
    assert (R0 : snd (user_result u v) 0%nat = 2 * ex86_x).
    { unfold u. rewrite !result_coef, ex57_stds, ex57_inv. change (ioff (u_ic (exu None)) + 0)%nat with 1%nat. rewrite V1. ring. }
    assert (OB : forall c0 c, user_obj u (pen_scale u) c0 c = / 4 * (- (9 / 10) - (c0 - / 2 * c 0%nat)) ^ 2 + / 4 * (9 / 10 - (c0 + / 2 * c 0%nat)) ^ 2).
    { intros c0 c. unfold user_obj.
      assert (DV : deviance NormalF (map (fun i => mkobs (u_y u i) (u_w u i) (search_mean NormalF IdentityL (user_eta u c0 c i))) (seq 0 2))
       = / 2 * (- (9 / 10) - user_eta u c0 c 0) ^ 2 + / 2 * (9 / 10 - user_eta u c0 c 1) ^ 2).
      { cbn. unfold normal_deviance, lsumf, search_mean, inverse1. cbn. ring. }
      change (u_fam u) with NormalF. change (u_link u) with IdentityL. change (u_n u) with 2%nat. rewrite DV.
      unfold user_eta. change (u_p u) with 1%nat. cbn [rsum u exu u_X u_P2 p2_entry Nat.eqb u_P1 u_off]. field. }
    exists (fst (user_result u v)), (snd (user_result u v)).
    split; [reflexivity|]. split; [exact exu_ok|]. split; [exact I|]. split; [intros j _; reflexivity|]. split; [intros j _; split; reflexivity|]. split; [exact diag_libs_sound|].
    split; [right; intros j x Hj [Q|Q]; discriminate|]. split; [|split; [|split; [exact F0|split; [|split; [|split]]]]].
    + unfold fit_with. fold u. fold st. unfold solve. cbv zeta. cbn [option_map]. fold se. fold pb. fold q'.
      change (lib_pos diag_libs) with (diag_first gauss). rewrite EM, EW. fold v. rewrite <- surjective_pairing. reflexivity.
    + intros r Hr. change (iq_m ex86_q) with 1%nat in Hr. replace r with 0%nat by lia. change (u_p u) with 1%nat. cbn [rsum]. rewrite R0. unfold ex86_x. cbn. lra.
    + rewrite R0. unfold ex86_x. lra.
    + rewrite OB, F0, R0. unfold ex86_x. lra.
    + intros r Hr. change (iq_m ex86_q) with 1%nat in Hr. replace r with 0%nat by lia. cbn. lra.
    + rewrite OB. field.
Qed.
Print Assumptions C86_optimal_refuted.
