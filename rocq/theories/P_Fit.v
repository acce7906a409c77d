(** Theorems C56, C57: the result of fit (irls-cd, single alpha) in the user's units. *)
From Verif Require Import M_Std S_Std L_Link L_Dist L_Dist4 L_CD L_KKT L_Hess L_Solver L_Solver2 L_Solver3 L_Obj L_Std L_Fit P_Solver P_Obj P_Std L_Hull.
From Verif Require Import M_Solver S_Solver.
Local Open Scope R_scope.

(** C56: for convex problems a fit without convergence warning (gradient criterion) is feasible for
    the user's bounds and optimal for the user's objective on the raw data, up to gradient_tol times
    the distance (measured in standardized units) to any feasible competitor. *)
Theorem C56_fit_near_optimal : forall u se seed guess a b0 b, user_ok u -> 0 <= se_approx se -> seeds_ok seed ->
  convex_pair (u_fam u) (u_link u) -> se_stol se = None -> start_ok u a ->
  fit_cd u se seed guess a = Some (b0, b, false) ->
  user_feasible u b /\ (u_ic u = false -> b0 = 0) /\
  forall b0' b' D, user_feasible u b' -> (u_ic u = false -> b0' = 0) -> 0 <= D ->
    (u_ic u = true -> Rabs (b0' - b0 + rsum (u_p u) (fun j => u_means u j * (b' j - b j))) <= D) ->
    (forall j, (j < u_p u)%nat -> col_scale u j * Rabs (b' j - b j) <= D) ->
    user_obj u (pen_scale u) b0 b <= user_obj u (pen_scale u) b0' b' + se_gtol se * D.
Proof.
  intros u se seed guess a b0 b Hok HC Hseed Hc Hst Ha E. unfold fit_cd in E.
  destruct (irls_solver _ _ _ _) as [[sf w]|] eqn:ES; [|discriminate]. injection E as E ->.
  pose proof Hok as [_ [_ [Hw [_ [HS HP]]]]].
  destruct (C55_irls_cd_near_optimal (std_problem u se) seed (std_problem_P2 u) _ sf (std_ok u se Hok) HC Hseed
    (std_P2_sym u HS) (std_P2_psd u HP) Hw Hc Hst (start_in_box u se guess a Ha) ES) as [B O].
  assert (E0 : fst (user_result u (st_coef sf)) = b0) by (rewrite E; reflexivity).
  assert (E1 : snd (user_result u (st_coef sf)) = b) by (rewrite E; reflexivity).
  split; [|split].
  - rewrite <- E1. apply (box_std u se). exact B.
  - intros H. rewrite <- E0. apply result_no_intercept, H.
  - intros b0' b' D Fb Hb0 HD HI HJ.
    pose proof (to_std_result u b0' b' Hb0) as [T0 T1].
    specialize (O (to_std u b0' b') D HD).
    rewrite !obj_std, E0, E1 in O. rewrite (user_obj_ext u (pen_scale u) _ _ _ _ T0 T1) in O. apply O.
    + apply box_std. intros j Hj. rewrite T1. apply Fb, Hj.
    + intros k Hk. apply std_distance; auto; rewrite ?E0, ?E1; auto.
      unfold nc in Hk. change (pb_p (std_problem u se)) with (u_p u) in Hk. change (pb_ic (std_problem u se)) with (u_ic u) in Hk. lia.
Qed.
Print Assumptions C56_fit_near_optimal.

(** C57, full statement: for every start and all bounds the returned coefficients satisfy the
    bounds.  That is false of the code (C57_bounds_violated_refuted below); proved here: fit always
    returns, and its result, warned or not, is feasible for the starts of [start_ok]. *)
Theorem C57_fit_respects_bounds_partial : forall u se seed guess a, user_ok u -> 0 <= se_approx se ->
  start_ok u a ->
  exists b0 b warned, fit_cd u se seed guess a = Some (b0, b, warned) /\ user_feasible u b.
Proof.
  intros u se seed guess a Hok HC Ha. unfold fit_cd.
  destruct (irls_solver _ _ _ _) as [[sf w]|] eqn:ES; [|exfalso; eapply C27_cd_always_returns; eauto].
  destruct (user_result u (st_coef sf)) as [b0 b] eqn:E. exists b0, b, w. split; [reflexivity|].
  replace b with (snd (user_result u (st_coef sf))) by (rewrite E; reflexivity).
  apply (box_std u se). eapply C29_result_in_box; eauto. { apply std_ok, Hok. } apply start_in_box, Ha.
Qed.
Print Assumptions C57_fit_respects_bounds_partial.

(** C57, what holds for every start: a returned coefficient leaves its bounds at most as far as the start
    did; it lies within the bounds or between a bound and its own starting value (the start after the
    clipping of _get_start_coef, in the user's units).  So a violation can only come from the start. *)
Theorem C57_between_bounds_and_start : forall u se seed guess a, user_ok u -> 0 <= se_approx se ->
  (forall j l t, (j < u_p u)%nat -> u_lb u j = Some l -> u_ub u j = Some t -> l <= t) ->
  exists b0 b warned, fit_cd u se seed guess a = Some (b0, b, warned) /\
  let start := snd (user_result u (get_start_coef (u_p u) (u_ic u) (u_means u) (u_stds u) guess (u_lb u) (u_ub u) a)) in
  forall j, (j < u_p u)%nat ->
    (forall l, u_lb u j = Some l -> Rmin l (start j) <= b j) /\ (forall t, u_ub u j = Some t -> b j <= Rmax t (start j)).
Proof.
  intros u se seed guess a Hok HC HB. unfold fit_cd.
  set (v := get_start_coef _ _ _ _ _ _ _ _).
  destruct (irls_solver _ _ _ v) as [[sf w]|] eqn:ES; [|exfalso; eapply C27_cd_always_returns; eauto].
  destruct (user_result u (st_coef sf)) as [b0 b] eqn:E. exists b0, b, w. split; [reflexivity|]. cbv zeta.
  set (pb := std_problem u se) in *.
  set (P k x := (ioff (u_ic u) <= k)%nat -> hull (u_lb u (k - ioff (u_ic u))%nat) (u_ub u (k - ioff (u_ic u))%nat)
     (v k * one_over (u_stds u (k - ioff (u_ic u))%nat)) (x * one_over (u_stds u (k - ioff (u_ic u))%nat))).
  assert (K : keeps P (fun k => (k < nc pb)%nat) (st_coef sf)).
  { apply (result_keeps P pb) with (seed := seed) (P2 := std_problem_P2 u) (c := v) (warned := w); auto.
    - intros k x Hk L. set (j := (k - ioff (u_ic u))%nat).
      assert (Hj : (j < u_p u)%nat) by (unfold j; unfold nc in Hk; change (pb_p pb) with (u_p u) in Hk; change (pb_ic pb) with (u_ic u) in Hk; lia).
      assert (BE : forall bb, bnd_of (pb_ic pb) (std_bounds bb (u_stds u)) k = std_bounds bb (u_stds u) j).
      { intros bb. unfold bnd_of, j. change (pb_ic pb) with (u_ic u). destruct (u_ic u); cbn [ioff] in *; [|f_equal; lia].
        destruct k; [lia|]. f_equal. lia. }
      change (pb_lb pb) with (std_bounds (u_lb u) (u_stds u)). change (pb_ub pb) with (std_bounds (u_ub u) (u_stds u)). rewrite !BE.
      pose proof (inv_pos u j) as Q.
      apply hull_scale; [exact Q|]. apply hull_clip. unfold std_bounds. intros l t El Et.
      destruct (u_lb u j) as [l'|] eqn:E1; [|discriminate]. destruct (u_ub u j) as [t'|] eqn:E2; [|discriminate].
      injection El as <-. injection Et as <-. pose proof (HB j l' t' Hj E1 E2). apply Rmult_le_compat_r; [left; apply Rinv_0_lt_compat; exact Q|lra].
    - intros k x y t Px Py T L. specialize (Px L). specialize (Py L).
      replace ((x + t * (y - x)) * one_over (u_stds u (k - ioff (u_ic u)))) with
        (x * one_over (u_stds u (k - ioff (u_ic u))) + t * (y * one_over (u_stds u (k - ioff (u_ic u))) - x * one_over (u_stds u (k - ioff (u_ic u))))) by ring.
      apply hull_convex; auto.
    - apply std_ok, Hok.
    - intros k Hk L. apply hull_start. }
  intros j Hj. replace (b j) with (snd (user_result u (st_coef sf)) j) by (rewrite E; reflexivity). rewrite !result_coef.
  specialize (K (ioff (u_ic u) + j)%nat). unfold P in K. replace (ioff (u_ic u) + j - ioff (u_ic u))%nat with j in K by lia.
  apply K; [|lia]. unfold nc. change (pb_p pb) with (u_p u). change (pb_ic pb) with (u_ic u). lia.
Qed.
Print Assumptions C57_between_bounds_and_start.

Definition exu (ub : option R) : user :=
  mkUser 2 1 (fun i _ => match i with O => - / 2 | _ => / 2 end) (fun i => match i with O => - (9 / 10) | _ => 9 / 10 end)
         (fun _ => / 2) (fun _ => 0) true NormalF IdentityL (fun _ => 0) (P2diag (fun _ => 0)) (fun _ => None) (fun _ => ub) false.
Definition ex57_se : settings := mkSettings 100 1000 (1 / 10000) None 0 None false true 1000000 (1 / 1000000000).

Lemma ex57_means ub j : u_means (exu ub) j = 0.
Proof. unfold u_means, col_means, wmean. simpl. field. Qed.
Lemma ex57_stds ub j : u_stds (exu ub) j = / 2.
Proof.
  unfold u_stds, col_stds, wmean. simpl.
  match goal with |- sqrt ?x = _ => replace x with (/ 2 * / 2) by field end. apply sqrt_square. lra.
Qed.
Lemma ex57_inv : one_over (/ 2) = 2.
Proof.
  unfold one_over. rewrite (proj2 (Rltb_false _ _)); [field|]. rewrite Rabs_right by lra.
  unfold std_threshold. apply Rmult_le_reg_r with (2 ^ 26); [apply pow_lt; lra|]. unfold Rdiv. rewrite Rmult_assoc, Rinv_l; [|apply pow_nonzero; lra]. simpl. lra.
Qed.

Lemma stop_at_start pb inner P2 c sf w : irls_solver pb inner P2 c = Some (sf, w) ->
  stop_test pb (init_state pb P2 false c) -> w = false /\ sf = init_state pb P2 false c.
Proof.
  intros E T. destruct (C27_iteration_accounting _ _ _ _ _ _ E) as [n [hist [[H0 Hs] [Hn [_ [_ [_ [HN [HW _]]]]]]]]].
  destruct n as [|n].
  - rewrite H0 in Hn. subst sf. split; [|reflexivity]. apply HW. exact T.
  - exfalso. apply (HN 0%nat); [lia|]. rewrite H0. exact T.
Qed.

Lemma exu_fit : forall ub seed guess, ub = None \/ ub = Some 1 -> exists b0 b,
  user_ok (exu ub) /\
  fit_cd (exu ub) ex57_se seed guess (StartParams (fun k => match k with O => 0 | _ => 9 / 5 end)) = Some (b0, b, false) /\
  b 0%nat = 9 / 5.
Proof.
  intros ub seed guess Hub.
  assert (Hok : user_ok (exu ub)).
  { split; [exact I|]. split; [intros; exact I|]. split; [intros; simpl; lra|]. split; [intros; simpl; lra|]. split.
    - intros i j Hi Hj. simpl in Hi, Hj. replace i with j by lia. reflexivity.
    - intros v. simpl. lra. }
  set (a := StartParams _).
  set (pb := std_problem (exu ub) ex57_se).
  set (st := get_start_coef (u_p (exu ub)) (u_ic (exu ub)) (u_means (exu ub)) (u_stds (exu ub)) guess (u_lb (exu ub)) (u_ub (exu ub)) a).
  assert (S0 : st 0%nat = 0).
  { change (0 + rsum 1 (fun j => u_means (exu ub) j * one_over (u_stds (exu ub) j) * (9 / 5 * u_stds (exu ub) j)) = 0). cbn [rsum]. rewrite ex57_means. ring. }
  assert (S1 : st 1%nat = 9 / 10).
  { change (clip_hi ub (9 / 5 * u_stds (exu ub) 0%nat) = 9 / 10). rewrite ex57_stds. destruct Hub as [-> | ->]; simpl; [|rewrite Rmin_left by lra]; field. }
  destruct (irls_solver pb (cd_solver pb seed) (std_problem_P2 (exu ub)) st) as [[sf w]|] eqn:ES; [|exfalso; eapply C27_cd_always_returns; eauto].
  assert (F0 : fst (user_result (exu ub) st) = 0).
  { unfold user_result, unpack. change (u_ic (exu ub)) with true. cbv iota. unfold unstandardize. cbn [fst].
    rewrite rsum_zero; [rewrite S0; ring|]. intros j _. rewrite ex57_means. ring. }
  assert (X : forall i, (i < 2)%nat -> eta_of pb st i = u_y (exu ub) i).
  { intros i Hi. unfold pb. rewrite eta_std. unfold user_eta. change (u_p (exu ub)) with 1%nat. cbn [rsum]. rewrite !result_coef, ex57_stds, ex57_inv.
    rewrite F0. change (ioff (u_ic (exu ub)) + 0)%nat with 1%nat. rewrite S1.
    destruct i as [|[|i]]; [| |lia]; simpl; field. }
  assert (Ec : st_coef (init_state pb (std_problem_P2 (exu ub)) false st) = st).
  { unfold init_state. destruct (eta_mu_objective _ _ _ _ _ _) as [[[? ?] ?] ?].
    destruct (update_quadratic _ _ _ _) as [[? ?] ?]. destruct (check_convergence _ _ _ _) as [[[? ?] ?] ?]. reflexivity. }
  assert (R : reach pb (cd_solver pb seed) (std_problem_P2 (exu ub)) st (init_state pb (std_problem_P2 (exu ub)) false st)) by constructor.
  assert (Pok : pb_ok pb) by (apply std_ok, Hok).
  pose proof (inv_coh _ _ _ (reach_inv _ _ _ _ _ Pok (Rle_refl 0 : 0 <= pb_approx pb) R)) as C.
  set (s0 := init_state pb (std_problem_P2 (exu ub)) false st) in *.
  assert (G : forall k, (k < 2)%nat -> st_score s0 k = 0).
  { intros k Hk. rewrite (coh_score _ _ _ C) by exact Hk. rewrite Ec. unfold score_of.
    rewrite rsum_zero.
    - rewrite rsum_zero; [ring|]. intros l Hl. unfold p2_full. change (pb_ic pb) with true. cbn [std_problem_P2 std_P2 exu u_scale u_P2 p2_entry].
      destruct l, k; try ring. destruct (Nat.eqb _ _); ring.
    - intros i Hi. unfold mean_of. rewrite X by exact Hi. unfold gradient_row. change (pb_fam pb) with NormalF. change (pb_link pb) with IdentityL. cbn.
      unfold inverse1; simpl. ring. }
  assert (T : stop_test pb s0).
  { left.
    change (Rabs (- st_score s0 0%nat) + Rabs (subgrad_term (st_coef s0 1%nat) (- st_score s0 1%nat) (pb_P1 pb 0%nat) (pb_lb pb 0%nat) (pb_ub pb 0%nat)) < 1 / 10000).
    rewrite !G by lia. rewrite Ec, S1. unfold subgrad_term. rewrite (proj2 (Reqb_false (9 / 10) 0)) by lra.
    assert (P0 : pb_P1 pb 0%nat = 0) by (unfold pb; simpl; unfold std_P1; simpl; ring). rewrite P0.
    replace (- 0 + fsign (9 / 10) * 0) with 0 by ring.
    rewrite !(proj2 (Rltb_false 0 0)) by lra. rewrite andb_false_r, (proj2 (Rltb_false 0 0)) by lra. rewrite andb_false_r, Ropp_0, !Rabs_R0. lra. }
  destruct (stop_at_start _ _ _ _ _ _ ES T) as [-> ->].
  exists (fst (user_result (exu ub) st)), (snd (user_result (exu ub) st)).
  assert (B : snd (user_result (exu ub) st) 0%nat = 9 / 5) by (rewrite result_coef, ex57_stds, ex57_inv; cbn [exu u_ic ioff Nat.add]; rewrite S1; field).
  split; [exact Hok|]. split; [|exact B].
  unfold fit_cd. fold pb st. rewrite ES. fold s0. rewrite Ec. destruct (user_result (exu ub) st); reflexivity.
Qed.

(** C57 (finding F5): with start_params (or a warm start) and a finite bound the clipping happens
    in the wrong units.  A valid least-squares problem with upper bound 1 on its only coefficient,
    started at 9/5, is returned without any warning at coefficient 9/5. *)
Theorem C57_bounds_violated_refuted : forall seed guess, exists u se a b0 b,
  user_ok u /\ fit_cd u se seed guess a = Some (b0, b, false) /\
  (0 < u_p u)%nat /\ u_ub u 0%nat = Some 1 /\ b 0%nat = 9 / 5 /\ ~ user_feasible u b.
Proof.
  intros seed guess. destruct (exu_fit (Some 1) seed guess (or_intror eq_refl)) as [b0 [b [A [B C]]]].
  eexists _, _, _, b0, b. split; [exact A|]. split; [exact B|]. split; [simpl; lia|]. split; [reflexivity|]. split; [exact C|].
  intros F. specialize (F 0%nat ltac:(simpl; lia)). destruct F as [_ F]. specialize (F 1 eq_refl). rewrite C in F. lra.
Qed.
Print Assumptions C57_bounds_violated_refuted.

(** the hypotheses of C56 are met by the same data without the bound *)
Example C56_nonvacuous : forall seed guess, exists a b0 b, user_ok (exu None) /\ start_ok (exu None) a /\ convex_pair NormalF IdentityL /\ fit_cd (exu None) ex57_se seed guess a = Some (b0, b, false) /\ b 0%nat = 9 / 5.
Proof.
  intros seed guess. destruct (exu_fit None seed guess (or_introl eq_refl)) as [b0 [b [A [B C]]]].
  eexists _, b0, b. split; [exact A|]. split; [|split; [|split; [exact B|exact C]]].
  - right. intros j x _ [H|H]; discriminate.
  - unfold convex_pair. auto.
Qed.

(** so are those of C57_between_bounds_and_start, with a finite bound *)
Example C57_between_nonvacuous : forall seed guess, user_ok (exu (Some 1)) /\ 0 <= se_approx ex57_se /\
  (forall j l t, Nat.lt j (u_p (exu (Some 1))) -> u_lb (exu (Some 1)) j = Some l -> u_ub (exu (Some 1)) j = Some t -> l <= t) /\
  exists a b0 b, fit_cd (exu (Some 1)) ex57_se seed guess a = Some (b0, b, false).
Proof.
  intros seed guess. destruct (exu_fit (Some 1) seed guess (or_intror eq_refl)) as [b0 [b [A [B C]]]].
  split; [exact A|]. split; [simpl; lra|]. split; [discriminate|]. eauto.
Qed.
