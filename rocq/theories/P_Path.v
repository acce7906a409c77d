(** Theorems C39-C42: the automatic alpha grid, alpha_max, lookup of path entries, the path as a
    warm-started chain. *)
From Verif Require Import M_Path S_Path L_Link L_Dist L_Dist2 L_Dist4 L_CD L_KKT L_Hess L_Solver L_Solver2 L_Solver3 L_Obj L_Std L_Fit L_Path L_Path2 L_Path3 P_Solver P_Obj P_Fit.
From Coq Require Import FunctionalExtensionality.
From Verif Require Import M_Solver S_Solver.
Local Open Scope R_scope.

(** C39: the grid has n_alphas positive entries, starts at alpha_max, ends at the documented smallest
    alpha, and consecutive entries have a constant ratio below one. *)
Theorem C39_grid : forall min_alpha ratio n_alphas n p amax l, 0 < amax -> grid_params min_alpha ratio ->
  make_grid min_alpha ratio n_alphas n p amax = Some l ->
  let amin := smallest_alpha min_alpha ratio n p amax in
  0 < amin < amax /\ length l = n_alphas /\
  ((1 <= n_alphas)%nat -> nth 0 l 0 = amax) /\
  ((2 <= n_alphas)%nat -> nth (n_alphas - 1) l 0 = amin) /\
  (forall x, In x l -> amin <= x <= amax) /\
  exists q, 0 < q < 1 /\ forall k, (S k < n_alphas)%nat -> nth (S k) l 0 = q * nth k l 0.
Proof.
  intros mi ra na n p amax l Ha Hp H amin.
  assert (HM : 0 < amin < amax /\ l = logspace (ln amax) (ln amin) na).
  { unfold amin, make_grid, smallest_alpha, grid_params in *. destruct mi as [m|].
    - destruct (Rleb amax m) eqn:E; [discriminate|]. apply Rleb_false in E. injection H as <-. split; [lra|reflexivity].
    - destruct ra as [r|]; injection H as <-.
      + split; [|reflexivity]. split; nra.
      + destruct (Nat.leb p n).
        * split; [lra|]. f_equal. f_equal. field.
        * split; [lra|]. f_equal. f_equal. field. }
  destruct HM as [HA ->]. clear H. split; [exact HA|].
  assert (LN : ln amin < ln amax) by (apply ln_increasing; lra).
  assert (LEN : length (logspace (ln amax) (ln amin) na) = na) by (unfold logspace; rewrite map_length, linspace_length; reflexivity).
  split; [exact LEN|]. split; [|split; [|split]].
  - intros H1. rewrite logspace_nth by lia. simpl INR. rewrite Rmult_0_l, Rplus_0_r. apply exp_ln. lra.
  - intros H2. rewrite logspace_nth by lia.
    replace (ln amax + INR (na - 1) * ((ln amin - ln amax) / INR (na - 1))) with (ln amin)
      by (field; apply not_0_INR; lia). apply exp_ln. lra.
  - intros x Hx. apply (In_nth _ _ 0) in Hx as [k [Hk <-]]. rewrite LEN in Hk. rewrite logspace_nth by exact Hk.
    destruct (Nat.eq_dec na 1) as [->|Hna].
    { replace k with 0%nat by lia. simpl. rewrite Rmult_0_l, Rplus_0_r, exp_ln by lra. lra. }
    assert (N : 0 < INR (na - 1)) by (apply lt_0_INR; lia).
    assert (F : 0 <= INR k / INR (na - 1) <= 1).
    { split; [apply Rmult_le_pos; [apply pos_INR|left; apply Rinv_0_lt_compat; lra]|].
      apply Rmult_le_reg_r with (INR (na - 1)); [lra|]. unfold Rdiv. rewrite Rmult_assoc, Rinv_l by lra.
      rewrite Rmult_1_r, Rmult_1_l. apply le_INR. lia. }
    assert (EL : forall x y, x <= y -> exp x <= exp y) by (intros x y [Hxy| ->]; [left; apply exp_increasing; exact Hxy|lra]).
    set (f := INR k / INR (na - 1)) in *.
    replace (ln amax + INR k * ((ln amin - ln amax) / INR (na - 1))) with (ln amax + f * (ln amin - ln amax)) by (unfold f; field; lra).
    split.
    + apply Rle_trans with (exp (ln amin)); [rewrite exp_ln by lra; lra|]. apply EL. nra.
    + apply Rle_trans with (exp (ln amax)); [|rewrite exp_ln by lra; lra]. apply EL. nra.
  - destruct (Nat.le_gt_cases na 1) as [H1|H1].
    + exists (/ 2). split; [lra|]. intros k Hk. lia.
    + exists (exp ((ln amin - ln amax) / INR (na - 1))). split.
      * split; [apply exp_pos|]. rewrite <- exp_0. apply exp_increasing.
        assert (N : 0 < INR (na - 1)) by (apply lt_0_INR; lia).
        apply Rmult_lt_reg_r with (INR (na - 1)); [exact N|]. unfold Rdiv. rewrite Rmult_assoc, Rinv_l by lra. lra.
      * intros k Hk. rewrite !logspace_nth by lia. rewrite <- exp_plus. f_equal. rewrite S_INR. ring.
Qed.
Print Assumptions C39_grid.

(** a min_alpha that is not below alpha_max is rejected, everything else is accepted *)
Theorem C39_rejects : forall min_alpha ratio n_alphas n p amax,
  make_grid min_alpha ratio n_alphas n p amax = None <-> exists m, min_alpha = Some m /\ amax <= m.
Proof.
  intros mi ra na n p amax. unfold make_grid. destruct mi as [m|].
  - destruct (Rleb amax m) eqn:E.
    + apply Rleb_true in E. split; [intros _; exists m; auto|reflexivity].
    + apply Rleb_false in E. split; [discriminate|]. intros [m' [H Hm]]. injection H as <-. lra.
  - split; [destruct ra; discriminate|]. intros [m' [H _]]. discriminate.
Qed.
Print Assumptions C39_rejects.

(** alpha_max is positive, so the grid of a fit always has the shape above *)
Theorem C39_path : forall pb min_alpha ratio n_alphas l, (forall j, 0 <= pb_P1 pb j) -> grid_params min_alpha ratio ->
  get_alpha_path pb min_alpha ratio n_alphas = Some l ->
  exists amax, alpha_max pb = Some amax /\ 0 < amax /\ make_grid min_alpha ratio n_alphas (pb_n pb) (pb_p pb) amax = Some l.
Proof.
  intros pb mi ra na l HP Hg. unfold get_alpha_path. destruct (alpha_max pb) as [a|] eqn:E; [|discriminate].
  intros H. exists a. split; [reflexivity|]. split; [|exact H]. clear H.
  unfold alpha_max in E. destruct (null_coef pb) as [c|]; [|discriminate].
  assert (FG : forall j, 0 <= feature_gradient pb c j) by (intros; apply Rabs_pos).
  destruct (forallb _ _).
  - destruct (np_max _) as [x|] eqn:EM; [|discriminate]. injection E as <-.
    apply np_max_spec in EM as [Hin _]. apply in_map_iff in Hin as [j [<- _]].
    unfold Reqb. destruct (Req_EM_T _ 0) as [e|e]; [lra|]. specialize (FG j).
    destruct FG as [H|H]; [|exfalso; apply e; rewrite <- H; simpl; field].
    apply Rdiv_lt_0_compat; [exact H|simpl; lra].
  - destruct (np_max _) as [x|] eqn:EM; [|discriminate]. injection E as <-.
    apply np_max_spec in EM as [Hin _]. apply in_map_iff in Hin as [j [<- Hj]]. apply filter_In in Hj as [_ Hj]. apply Rltb_true in Hj.
    unfold Reqb. destruct (Req_EM_T _ 0) as [e|e]; [lra|]. specialize (FG j).
    destruct FG as [H|H]; [apply Rdiv_lt_0_compat; auto|exfalso; apply e; rewrite <- H; field; lra].
Qed.
Print Assumptions C39_path.

(** finding F20: min_alpha_ratio is not validated; with ratio 1 the "path" is constant *)
Theorem C39_ratio_refuted : exists ratio n_alphas l, make_grid None (Some ratio) n_alphas 10 2 1 = Some l /\
  (2 <= n_alphas)%nat /\ ~ nth 1 l 0 < nth 0 l 0.
Proof.
  exists 1, 3%nat, (logspace (ln 1) (ln (1 * 1)) 3). split; [reflexivity|]. split; [lia|].
  rewrite !logspace_nth by lia. rewrite Rmult_1_r, Rminus_diag_eq by reflexivity. unfold Rdiv. rewrite Rmult_0_l, !Rmult_0_r. lra.
Qed.
Print Assumptions C39_ratio_refuted.

Example C39_nonvacuous : grid_params None None /\ grid_params None (Some (1 / 1000)) /\
  smallest_alpha None None 100 5 2 = 2 / 1000000 /\ smallest_alpha None None 5 100 2 = 2 / 100 /\
  exists l, make_grid None (Some (1 / 100)) 3 100 5 1 = Some l /\ nth 1 l 0 = 1 / 10.
Proof.
  split; [exact I|]. split; [simpl; lra|]. split; [reflexivity|]. split; [reflexivity|].
  eexists. split; [reflexivity|]. rewrite logspace_nth by lia.
  replace (1 * (1 / 100)) with (/ 10 * / 10) by field. rewrite ln_mult, ln_1, ln_Rinv by lra.
  simpl INR. replace (0 + 1 * ((- ln 10 + - ln 10 - 0) / (1 + 1))) with (- ln 10) by field.
  rewrite <- ln_Rinv by lra. rewrite exp_ln by lra. field.
Qed.

(** C40: from alpha_max on, the null model (all coefficients zero) is optimal for the user's penalised
    objective; below alpha_max (unless the null model is optimal for every alpha) it is not. *)
Theorem C40_null_model_optimal : forall u se amax, user_ok u -> rsum (u_n u) (u_w u) = 1 ->
  convex_pair (u_fam u) (u_link u) -> null_regular u -> (forall j, (j < u_p u)%nat -> 0 < u_P1 u j) ->
  (forall j, (j < u_p u)%nat -> within (u_lb u j) (u_ub u j) 0) ->
  alpha_max (std_problem u se) = Some amax ->
  exists g, null_model u g /\ forall alpha, amax <= alpha -> user_optimal (with_alpha u alpha) g (fun _ => 0).
Proof.
  intros u se amax Hok H1 Hc Hr HP HB HA.
  destruct (null_coef (std_problem u se)) as [c|] eqn:Ec; [|unfold alpha_max in HA; rewrite Ec in HA; discriminate].
  pose proof Hok as [_ [_ [Hw _]]].
  destruct (null_is _ _ (std_ok u se Hok) Hw H1 Hr Ec) as [g0 [Eg Hg]].
  change (pb_ic (std_problem u se)) with (u_ic u) in Eg, Hg.
  set (g := if u_ic u then g0 else 0).
  assert (Eg' : c = pack (u_ic u) g (fun _ => 0)).
  { rewrite Eg. unfold g. destruct (u_ic u); reflexivity. }
  assert (NM : null_model u g).
  { unfold null_model, g. destruct (u_ic u); [apply Hg; reflexivity|reflexivity]. }
  exists g. split; [exact NM|]. intros alpha Hle. rewrite Eg' in Ec.
  pose proof (null_stationary u se amax alpha g Hok H1 Hr HP HA Hle NM Ec) as ST.
  assert (A0 : 0 <= alpha).
  { unfold alpha_max in HA. rewrite Ec in HA. destruct (u_p u) as [|p] eqn:Ep.
    - change (pb_p (std_problem u se)) with (u_p u) in HA. rewrite Ep in HA. discriminate.
    - assert (L1 : has_l1 (std_problem u se)) by (exists 0%nat; split; [cbn; lia|apply std_P1_pos'; apply HP; lia]).
      assert (HA' : alpha_max (std_problem u se) = Some amax) by (unfold alpha_max; rewrite Ec; exact HA).
      destruct (alpha_max_spec _ _ _ (proj2 (proj2 (std_ok u se Hok))) L1 Ec HA') as [A _]. lra. }
  pose proof (optimal_of_stationary (with_alpha u alpha) se (pack (u_ic u) g (fun _ => 0)) (with_alpha_ok u alpha A0 Hok) Hc
    (null_in_box (with_alpha u alpha) se g HB) ST) as O.
  intros b0' b' F B. specialize (O b0' b' F B).
  change (u_ic u) with (u_ic (with_alpha u alpha)) in O.
  rewrite null_obj_eq in O; [exact O|]. cbn. unfold g. intros ->. reflexivity.
Qed.
Print Assumptions C40_null_model_optimal.

Theorem C40_smaller_alpha : forall u se amax, user_ok u -> rsum (u_n u) (u_w u) = 1 ->
  convex_pair (u_fam u) (u_link u) -> null_regular u -> (forall j, (j < u_p u)%nat -> 0 < u_P1 u j) ->
  zero_interior u -> alpha_max (std_problem u se) = Some amax ->
  exists g, null_model u g /\
    ((forall alpha, 0 <= alpha -> user_optimal (with_alpha u alpha) g (fun _ => 0)) \/
     (forall alpha, 0 <= alpha < amax -> ~ user_optimal (with_alpha u alpha) g (fun _ => 0))).
Proof.
  intros u se amax Hok H1 Hc Hr HP [d [Hd HZ]] HA.
  destruct (null_coef (std_problem u se)) as [c|] eqn:Ec; [|unfold alpha_max in HA; rewrite Ec in HA; discriminate].
  pose proof Hok as [_ [_ [Hw [_ [HS _]]]]]. pose proof (std_ok u se Hok) as Hstd.
  destruct (null_is _ _ Hstd Hw H1 Hr Ec) as [g0 [Eg Hg]].
  change (pb_ic (std_problem u se)) with (u_ic u) in Eg, Hg.
  set (g := if u_ic u then g0 else 0).
  assert (Eg' : c = pack (u_ic u) g (fun _ => 0)) by (rewrite Eg; unfold g; destruct (u_ic u); reflexivity).
  assert (NM : null_model u g) by (unfold null_model, g; destruct (u_ic u); [apply Hg; reflexivity|reflexivity]).
  assert (Hg2 : pb_ic (std_problem u se) = true -> raw_inverse (pb_link (std_problem u se)) g = pb_ybar (std_problem u se)).
  { intros E. change (pb_ic (std_problem u se)) with (u_ic u) in E. unfold null_model in NM. rewrite E in NM. exact NM. }
  exists g. split; [exact NM|].
  assert (P0 : (0 < u_p u)%nat).
  { destruct (u_p u) eqn:Ep; [|lia]. unfold alpha_max in HA. rewrite Ec in HA. change (pb_p (std_problem u se)) with (u_p u) in HA. rewrite Ep in HA. discriminate. }
  assert (L1 : has_l1 (std_problem u se)) by (exists 0%nat; split; [exact P0|apply std_P1_pos'; apply HP; lia]).
  destruct (alpha_max_spec _ _ _ (proj2 (proj2 Hstd)) L1 Ec HA) as [A0 [_ D]]. rewrite Eg' in D.
  assert (FS : forall j, (j < u_p u)%nat -> feature_gradient (std_problem u se) (pack (u_ic u) g (fun _ => 0)) j
     = Rabs (score_of (std_problem u se) (std_problem_P2 u) (pack (u_ic u) g (fun _ => 0)) (ioff (u_ic u) + j))).
  { intros j Hj. exact (feature_gradient_score (std_problem u se) (std_problem_P2 u) g j Hstd Hr Hg2 Hj). }
  destruct D as [D|[j [Hj [Pj Ej]]]]; [left|right].
  - intros alpha Ha.
    assert (ST : forall k, (k < nc (std_problem (with_alpha u alpha) se))%nat ->
      coord_stationary (- score_of (std_problem (with_alpha u alpha) se) (std_problem_P2 (with_alpha u alpha)) (pack (u_ic u) g (fun _ => 0)) k)
        (pen_of (u_ic u) (pb_P1 (std_problem (with_alpha u alpha) se)) k)
        (bnd_of (u_ic u) (pb_lb (std_problem (with_alpha u alpha) se)) k) (bnd_of (u_ic u) (pb_ub (std_problem (with_alpha u alpha) se)) k) (pack (u_ic u) g (fun _ => 0) k)).
    { intros k Hk. change (nc (std_problem (with_alpha u alpha) se)) with (nc (std_problem u se)) in Hk.
      rewrite null_score_alpha by exact Hk.
      assert (Hnc : (k < ioff (u_ic u) + u_p u)%nat) by exact Hk.
      assert (Z : score_of (std_problem u se) (std_problem_P2 u) (pack (u_ic u) g (fun _ => 0)) k = 0).
      { destruct (Nat.lt_ge_cases k (ioff (u_ic u))) as [Hlt|Hge].
        - destruct (u_ic u) eqn:Eic; simpl in Hlt; [|lia]. replace k with 0%nat by lia.
          pose proof (intercept_score (std_problem u se) (std_problem_P2 u) g Hstd Hr Eic H1 (Hg2 Eic)) as S0.
          change (pb_ic (std_problem u se)) with (u_ic u) in S0. rewrite Eic in S0. exact S0.
        - assert (Q : feature_gradient (std_problem u se) (pack (u_ic u) g (fun _ => 0)) (k - ioff (u_ic u)) = 0).
          { apply D; [change (pb_p (std_problem u se)) with (u_p u); lia|]. apply std_P1_pos', HP. lia. }
          rewrite FS in Q by lia. replace (ioff (u_ic u) + (k - ioff (u_ic u)))%nat with k in Q by lia.
          destruct (Req_dec (score_of (std_problem u se) (std_problem_P2 u) (pack (u_ic u) g (fun _ => 0)) k) 0) as [e|e]; [exact e|].
          apply Rabs_pos_lt in e. lra. }
      rewrite Z, Ropp_0. 
      assert (PN : 0 <= pen_of (u_ic u) (pb_P1 (std_problem (with_alpha u alpha) se)) k).
      { pose proof (proj2 (proj2 (std_ok _ se (with_alpha_ok u alpha Ha Hok)))) as N. unfold pen_of. destruct (u_ic u); [destruct k; [lra|]|]; apply N. }
      intros t _. destruct (u_ic u); [destruct k|]; cbn [pack]; rewrite ?Rabs_R0.
      - cbn [pen_of]. lra.
      - rewrite Rmult_0_l, Rplus_0_l, Rminus_0_r. apply Rmult_le_pos; [exact PN|apply Rabs_pos].
      - rewrite Rmult_0_l, Rplus_0_l, Rminus_0_r. apply Rmult_le_pos; [exact PN|apply Rabs_pos]. }
    assert (HB : forall j, (j < u_p u)%nat -> within (u_lb u j) (u_ub u j) 0) by (intros j Hj; apply HZ; [exact Hj|rewrite Rabs_R0; lra]).
    pose proof (optimal_of_stationary (with_alpha u alpha) se (pack (u_ic u) g (fun _ => 0)) (with_alpha_ok u alpha Ha Hok) Hc
      (null_in_box (with_alpha u alpha) se g HB) ST) as O.
    intros b0' b' F B. specialize (O b0' b' F B).
    change (u_ic u) with (u_ic (with_alpha u alpha)) in O.
    rewrite null_obj_eq in O; [exact O|]. cbn. unfold g. intros ->. reflexivity.
  - intros alpha [Ha Hlt] O. change (pb_p (std_problem u se)) with (u_p u) in Hj. rewrite FS in Ej by exact Hj.
    set (ua := with_alpha u alpha) in *. set (v0 := pack (u_ic u) g (fun _ => 0)) in *.
    assert (Hoka : user_ok ua) by (apply with_alpha_ok; auto).
    assert (HG : pb_P1 (std_problem ua se) j < Rabs (score_of (std_problem ua se) (std_problem_P2 ua) v0 (ioff (u_ic u) + j))).
    { unfold ua, v0. rewrite null_score_alpha by (unfold nc; cbn; lia). fold v0. rewrite Ej.
      rewrite std_problem_alpha. cbn [set_P1 pb_P1]. unfold p1_scale. rewrite Rmult_comm. apply Rmult_lt_compat_r; [exact Pj|exact Hlt]. }
    assert (Z : v0 (ioff (u_ic u) + j)%nat = 0) by (unfold v0, pack; destruct (u_ic u); reflexivity).
    pose proof (inv_pos u j) as IP.
    destruct (not_stationary_descent (std_problem ua se) (std_problem_P2 ua) v0 j (d / one_over (u_stds u j)) (std_ok ua se Hoka)
      (std_P2_sym ua (proj1 (proj2 (proj2 (proj2 (proj2 Hoka)))))) Hc Hj Z HG ltac:(apply Rdiv_lt_0_compat; lra)) as [t [Ht Hdec]].
    rewrite !obj_std in Hdec.
    change (u_ic u) with (u_ic ua) in v0. subst v0.
    rewrite (null_obj_eq ua g) in Hdec by (cbn; unfold g; intros ->; reflexivity).
    set (v1 := fun k => if Nat.eqb k _ then t else _) in Hdec.
    assert (F1 : user_feasible ua (snd (user_result ua v1))).
    { intros k Hk. rewrite result_coef. apply HZ; [exact Hk|].
      change (u_stds ua) with (u_stds u). change (u_ic ua) with (u_ic u). unfold v1.
      change (pb_ic (std_problem ua se)) with (u_ic u).
      destruct (Nat.eqb_spec (ioff (u_ic u) + k) (ioff (u_ic u) + j)) as [e|e].
      - replace k with j by lia. rewrite Rabs_mult, (Rabs_right (one_over _)) by lra. destruct Ht as [_ Ht].
        apply Rmult_le_compat_r with (r := one_over (u_stds u j)) in Ht; [|lra]. unfold Rdiv in Ht. rewrite Rmult_assoc, Rinv_l in Ht by lra. lra.
      - unfold pack. change (u_ic ua) with (u_ic u). destruct (u_ic u); cbn; rewrite Rmult_0_l, Rabs_R0; lra. }
    specialize (O _ _ F1 (fun E => result_no_intercept ua v1 E)). lra.
Qed.
Print Assumptions C40_smaller_alpha.

(** The first entry of the automatic path, computed by irls-cd from the default start, is the null
    model itself: every coefficient is exactly zero. *)
Theorem C40_first_entry_null : forall u se seed alphas guess fp, user_ok u -> 0 < se_gtol se -> rsum (u_n u) (u_w u) = 1 ->
  null_regular u -> (forall j, (j < u_p u)%nat -> 0 < u_P1 u j) ->
  (forall j, (j < u_p u)%nat -> within (u_lb u j) (u_ub u j) 0) ->
  (forall c, null_coef (std_problem u se) = Some c -> c 0%nat = guess \/ u_ic u = false) ->
  (1 <= length alphas)%nat -> alpha_max (std_problem u se) = Some (nth 0 alphas 0) ->
  fit_path (cd_path_solver seed) u se alphas (path_start u guess StartNone) = Some fp ->
  nth 0 (fp_warn fp) true = false /\
  (u_ic u = true -> fst (nth 0 (fp_path fp) (0, fun _ => 0)) = guess) /\
  forall j, (j < u_p u)%nat -> snd (nth 0 (fp_path fp) (0, fun _ => 0)) j = 0.
Proof.
  intros u se seed alphas guess fp Hok Htol H1 Hr HP HB HG HL HA HF.
  destruct alphas as [|a r]; [simpl in HL; lia|]. cbn [nth] in HA.
  destruct (null_coef (std_problem u se)) as [c|] eqn:Ec; [|unfold alpha_max in HA; rewrite Ec in HA; discriminate].
  pose proof Hok as [_ [_ [Hw [_ [HS _]]]]]. pose proof (std_ok u se Hok) as Hstd.
  destruct (null_is _ _ Hstd Hw H1 Hr Ec) as [g0 [Eg Hg]].
  change (pb_ic (std_problem u se)) with (u_ic u) in Eg, Hg.
  set (g := if u_ic u then guess else 0).
  assert (Egg : u_ic u = true -> g0 = guess).
  { intros E. destruct (HG c eq_refl) as [H|H]; [|congruence]. rewrite Eg in H. unfold pack in H. rewrite E in H. exact H. }
  assert (Eg' : c = pack (u_ic u) g (fun _ => 0)).
  { rewrite Eg. unfold g. destruct (u_ic u); [rewrite Egg by reflexivity|]; reflexivity. }
  assert (NM : null_model u g).
  { unfold null_model, g. destruct (u_ic u); [|reflexivity]. rewrite <- Egg by reflexivity. apply Hg. reflexivity. }
  rewrite Eg' in Ec.
  assert (P0 : (0 < u_p u)%nat).
  { destruct (u_p u) eqn:Ep; [|lia]. unfold alpha_max in HA. rewrite Ec in HA. change (pb_p (std_problem u se)) with (u_p u) in HA. rewrite Ep in HA. discriminate. }
  assert (L1 : has_l1 (std_problem u se)) by (exists 0%nat; split; [exact P0|apply std_P1_pos'; apply HP; lia]).
  destruct (alpha_max_spec _ _ _ (proj2 (proj2 Hstd)) L1 Ec HA) as [A0 _].
  pose proof (null_stationary u se a a g Hok H1 Hr HP HA ltac:(lra) NM Ec) as ST.
  set (ua := with_alpha u a) in *.
  assert (Hoka : user_ok ua) by (apply with_alpha_ok; auto; lra).
  unfold fit_path in HF. cbn [solve_path] in HF. rewrite solve_alpha_cd in HF. fold ua in HF.
  destruct (irls_solver _ _ _ _) as [[s w]|] eqn:ES; [|discriminate].
  set (st := path_start u guess StartNone) in ES.
  assert (Est : forall k, (k < nc (std_problem ua se))%nat -> st k = pack (u_ic u) g (fun _ => 0) k).
  { intros k Hk. change (nc (std_problem ua se)) with (ioff (u_ic u) + u_p u)%nat in Hk. unfold st, path_start, get_start_coef, clip_start.
    destruct (Nat.ltb_spec k (ioff (u_ic u))) as [Hlt|Hge].
    - unfold pack, g. destruct (u_ic u); [|simpl in Hlt; lia]. destruct k; reflexivity.
    - assert (Z : forall x, pack (u_ic u) x (fun _ => 0) k = 0) by (intros x; unfold pack; destruct (u_ic u); [destruct k; [simpl in Hge; lia|]|]; reflexivity).
      rewrite !Z. apply clip_zero, HB. lia. }
  assert (SC : forall k, (k < nc (std_problem ua se))%nat -> score_of (std_problem ua se) (std_problem_P2 ua) st k = score_of (std_problem ua se) (std_problem_P2 ua) (pack (u_ic u) g (fun _ => 0)) k).
  { intros k Hk.
    assert (EE : forall i, eta_of (std_problem ua se) st i = eta_of (std_problem ua se) (pack (u_ic u) g (fun _ => 0)) i).
    { intros i. unfold eta_of. f_equal. apply rsum_ext. intros l Hl. rewrite Est by exact Hl. reflexivity. }
    unfold score_of. f_equal.
    - apply rsum_ext. intros i _. unfold mean_of. rewrite EE. reflexivity.
    - apply rsum_ext. intros l Hl. rewrite Est by exact Hl. reflexivity. }
  assert (T : stop_test (std_problem ua se) (init_state (std_problem ua se) (std_problem_P2 ua) false st)).
  { left. match goal with |- ?x < _ => assert (E0 : x = 0) end; [|rewrite E0; exact Htol].
    assert (C := coh_init (std_problem ua se) (std_problem_P2 ua) false st (std_ok ua se Hoka)).
    assert (Ecf : st_coef (init_state (std_problem ua se) (std_problem_P2 ua) false st) = st) by apply init_coef.
    rewrite Ecf. apply norm_zero_iff.
    - apply (std_ok ua se Hoka).
    - intros k Hk. rewrite Est by exact Hk. apply (null_in_box ua se g HB k Hk).
    - intros k Hk. rewrite (coh_score _ _ _ C) by exact Hk. rewrite Ecf. rewrite SC, Est by exact Hk. apply ST, Hk. }
  destruct (stop_at_start _ _ _ _ _ _ ES T) as [-> ->].
  destruct (solve_path _ _ _ r _) as [l|]; [|discriminate].
  destruct (rev _) as [|s' r'] eqn:ER; [discriminate|]. injection HF as <-. cbn [fp_path fp_warn map nth so_coef so_warn].
  assert (Ecf : st_coef (init_state (std_problem ua se) (std_problem_P2 ua) false st) = st) by apply init_coef.
  rewrite Ecf.
  assert (ZC : forall j, (j < u_p u)%nat -> st (ioff (u_ic u) + j)%nat = 0).
  { intros j Hj. rewrite Est by (unfold nc; cbn; lia). unfold pack. destruct (u_ic u); reflexivity. }
  split; [reflexivity|]. split.
  - intros Eic. unfold user_result, unpack. rewrite Eic. unfold unstandardize. cbn [fst].
    rewrite rsum_zero.
    + rewrite Est by (unfold nc; cbn; rewrite Eic; simpl; lia). unfold pack, g. rewrite Eic. ring.
    + intros j Hj. specialize (ZC j Hj). rewrite Eic in ZC. cbn in ZC. rewrite ZC. ring.
  - intros j Hj. rewrite result_coef, (ZC j Hj). ring.
Qed.
Print Assumptions C40_first_entry_null.

(** C41: a lookup by alpha succeeds exactly when some stored alpha is within the relative tolerance,
    and then returns the (first) nearest one. *)
Theorem C41_find : forall alphas a i, find_alpha_index alphas a = Some i <->
  first_nearest alphas a i /\ Rabs (nth i alphas 0 - a) <= 1 / 100000 * Rabs a.
Proof.
  intros alphas a i. unfold find_alpha_index, isclose_rel.
  replace (1 / 10 ^ 5) with (1 / 100000) by (simpl; field).
  destruct (argmin _) as [j|] eqn:E.
  - apply argmin_nearest in E. destruct (Rleb _ _) eqn:EL.
    + apply Rleb_true in EL. split.
      * intros H. injection H as <-. auto.
      * intros [H _]. apply argmin_nearest in H. apply argmin_nearest in E. congruence.
    + apply Rleb_false in EL. split; [discriminate|]. intros [H HR]. apply argmin_nearest in H. apply argmin_nearest in E.
      assert (i = j) by congruence. subst. lra.
  - split; [discriminate|]. intros [H _]. apply argmin_nearest in H. congruence.
Qed.
Print Assumptions C41_find.

Theorem C41_raises : forall alphas a, find_alpha_index alphas a = None <->
  forall k, (k < length alphas)%nat -> 1 / 100000 * Rabs a < Rabs (nth k alphas 0 - a).
Proof.
  intros alphas a. destruct (find_alpha_index alphas a) as [i|] eqn:E.
  - apply C41_find in E as [[H _] HR]. split; [discriminate|]. intros Hk. specialize (Hk i H). lra.
  - split; [|reflexivity]. intros _ k Hk.
    destruct (argmin_some (map (fun x => Rabs (x - a)) alphas)) as [j Ej].
    { intros F. apply (f_equal (@length R)) in F. rewrite map_length in F. simpl in F. lia. }
    apply argmin_nearest in Ej. destruct (Rle_or_lt (Rabs (nth j alphas 0 - a)) (1 / 100000 * Rabs a)) as [H|H].
    + assert (find_alpha_index alphas a = Some j) by (apply C41_find; auto). congruence.
    + destruct Ej as [_ [H2 _]]. specialize (H2 k Hk). lra.
Qed.
Print Assumptions C41_raises.

(** a stored alpha is found again (at its first occurrence) *)
Theorem C41_stored : forall alphas k, (k < length alphas)%nat ->
  exists i, find_alpha_index alphas (nth k alphas 0) = Some i /\ (i <= k)%nat /\ nth i alphas 0 = nth k alphas 0.
Proof.
  intros alphas k Hk. set (a := nth k alphas 0).
  destruct (find_alpha_index alphas a) as [i|] eqn:E.
  - exists i. split; [reflexivity|]. apply C41_find in E as [[H1 [H2 H3]] _]. fold a.
    pose proof (H2 k Hk) as Q. fold a in Q. replace (a - a) with 0 in Q by ring; rewrite Rabs_R0 in Q.
    pose proof (Rabs_pos (nth i alphas 0 - a)). assert (Z : Rabs (nth i alphas 0 - a) = 0) by lra.
    split.
    + destruct (Nat.le_gt_cases i k) as [|HK]; [auto|]. specialize (H3 k HK). fold a in H3. replace (a - a) with 0 in H3 by ring; rewrite Rabs_R0 in H3. lra.
    + destruct (Req_dec (nth i alphas 0 - a) 0) as [e|e]; [lra|]. apply Rabs_no_R0 in e. lra.
  - rewrite C41_raises in E. specialize (E k Hk). fold a in E. replace (a - a) with 0 in E by ring; rewrite Rabs_R0 in E.
    pose proof (Rabs_pos a). lra.
Qed.
Print Assumptions C41_stored.

(** which coefficients a request uses *)
Theorem C41_requests : forall m w X o,
  (* neither: the current coefficients *)
  linear_predictor m w X o SelNone SelNone = compute_linear_predictor (m_p m) w X o (m_cur m) (m_path m) SelNone /\
  (* both: rejected *)
  (forall idx alpha, idx <> SelNone -> alpha <> SelNone -> linear_predictor m w X o idx alpha = None) /\
  (* without a path: rejected *)
  (m_search m = false -> m_cv m = false -> forall idx alpha, idx <> SelNone \/ alpha <> SelNone -> linear_predictor m w X o idx alpha = None) /\
  (* by alpha: the entry of the nearest stored alpha, if close enough *)
  (m_search m = true \/ m_cv m = true -> forall a,
     linear_predictor m w X o SelNone (SelOne a) =
       match find_alpha_index (m_alphas m) a with
       | Some i => linear_predictor m w X o (SelOne (Z.of_nat i)) SelNone
       | None => None
       end).
Proof.
  intros m w X o. split; [reflexivity|]. split; [|split].
  - intros idx alpha H1 H2. unfold linear_predictor. destruct (_ && _)%bool; [reflexivity|].
    destruct alpha; [congruence| |]; destruct idx; try congruence; reflexivity.
  - intros E1 E2 idx alpha H. unfold linear_predictor. rewrite E1, E2.
    destruct idx, alpha; try reflexivity. destruct H; congruence.
  - intros H a. unfold linear_predictor. cbn [andb].
    replace (negb (m_search m) && negb (m_cv m))%bool with false by (destruct H as [-> | ->]; destruct (m_search m); reflexivity).
    cbn [resolve_alpha_index]. destruct (find_alpha_index _ a); reflexivity.
Qed.
Print Assumptions C41_requests.

Example C41_nonvacuous : find_alpha_index [1; 1/2; 1/4] (1/2) = Some 1%nat /\ find_alpha_index [1; 1/2; 1/4] (3/4) = None.
Proof.
  split.
  - apply C41_find. cbn [nth]. split; [split; [simpl; lia|split]|].
    + intros k Hk. rewrite Rminus_diag_eq, Rabs_R0 by reflexivity. apply Rabs_pos.
    + intros k Hk. replace k with 0%nat by lia. cbn [nth]. rewrite Rminus_diag_eq, Rabs_R0 by reflexivity. rewrite Rabs_right; lra.
    + rewrite Rminus_diag_eq, Rabs_R0 by reflexivity. rewrite Rabs_right; lra.
  - apply C41_raises. intros k Hk. rewrite (Rabs_right (3/4)) by lra.
    destruct k as [|[|[|k]]]; cbn [nth]; [rewrite Rabs_right|rewrite Rabs_left|rewrite Rabs_left|simpl in Hk; lia]; lra.
Qed.

(** C42: the fitted path has one row per alpha, in the given order; row k is the solver's result for
    alpha_k started at row k-1 (row 0 at the start); coef_, intercept_ and n_iter_ belong to the last. *)
Theorem C42_chain : forall solve u se alphas start fp, fit_path solve u se alphas start = Some fp ->
  exists sols, chained (fun alpha c => solve (std_problem (with_alpha u alpha) se) (std_problem_P2 (with_alpha u alpha)) c) alphas start sols /\
    fp_alphas fp = alphas /\
    fp_path fp = map (fun s => user_result u (so_coef s)) sols /\
    (1 <= length alphas)%nat /\
    exists s, nth_error sols (length alphas - 1) = Some s /\ fp_coef fp = user_result u (so_coef s) /\ fp_iter fp = so_iter s.
Proof.
  intros solve u se alphas start fp H. unfold fit_path in H. destruct (solve_path _ _ _ _ _) as [sols|] eqn:E; [|discriminate].
  destruct (rev sols) as [|s r] eqn:ER; [discriminate|]. injection H as <-. exists sols.
  pose proof (solve_path_chained _ _ _ _ _ _ E) as [HL HC].
  assert (N : (1 <= length sols)%nat) by (rewrite <- rev_length, ER; simpl; lia).
  split; [|split; [reflexivity|split; [reflexivity|split; [lia|]]]].
  - split; [exact HL|]. intros k Hk. destruct (HC k Hk) as [s' [A B]]. exists s'. split; [exact A|].
    rewrite std_problem_alpha, std_P2_alpha. exact B.
  - exists s. rewrite <- HL. split; [apply (rev_nth_error _ _ _ ER)|]. split; reflexivity.
Qed.
Print Assumptions C42_chain.

(** an empty list of alphas is an error; otherwise irls-cd always returns a path *)
Theorem C42_defined : forall u se seed alphas start,
  (exists fp, fit_path (cd_path_solver seed) u se alphas start = Some fp) <-> alphas <> [].
Proof.
  intros u se seed alphas start.
  assert (E : forall l c, exists sols, solve_path (cd_path_solver seed) (std_problem u se) (std_problem_P2 u) l c = Some sols).
  { induction l as [|a l IH]; intros c; simpl; [eauto|]. rewrite solve_alpha_cd.
    destruct (irls_solver _ _ _ c) as [[s w]|] eqn:ES; [|exfalso; eapply C27_cd_always_returns; eauto].
    destruct (IH (so_coef (mkSol (st_coef s) (st_niter s) w))) as [sols ->]. eauto. }
  unfold fit_path. destruct (E alphas start) as [sols Es]. rewrite Es.
  destruct (solve_path_chained _ _ _ _ _ _ Es) as [HL _].
  destruct (rev sols) as [|s r] eqn:ER.
  - split; [intros [fp H]; discriminate|]. intros H. apply (f_equal (@length sol)) in ER. rewrite rev_length in ER. simpl in ER.
    destruct alphas; [congruence|simpl in HL; lia].
  - split; [|eauto]. intros _ ->. simpl in HL. apply (f_equal (@length sol)) in ER. rewrite rev_length in ER. simpl in ER. lia.
Qed.
Print Assumptions C42_defined.

(** a path over a longer list extends the path over a prefix *)
Theorem C42_prefix : forall solve u se l1 l2 start fp1 fp, fit_path solve u se l1 start = Some fp1 ->
  fit_path solve u se (l1 ++ l2) start = Some fp ->
  firstn (length l1) (fp_path fp) = fp_path fp1.
Proof.
  intros solve u se l1 l2 start fp1 fp H1 H. unfold fit_path in *. rewrite solve_path_app in H.
  destruct (solve_path _ _ _ l1 _) as [s1|] eqn:E1; [|discriminate].
  destruct (solve_path _ _ _ l2 _) as [s2|]; [|discriminate].
  destruct (rev s1) as [|x r]; [discriminate|]. destruct (rev (s1 ++ s2)); [discriminate|].
  injection H1 as <-. injection H as <-. cbn [fp_path]. rewrite map_app.
  destruct (solve_path_chained _ _ _ _ _ _ E1) as [HL _].
  rewrite <- HL, <- (map_length (fun s => user_result u (so_coef s)) s1), firstn_app, Nat.sub_diag, firstn_all. simpl. apply app_nil_r.
Qed.
Print Assumptions C42_prefix.

(** a path with a single alpha is the fit with that alpha *)
Theorem C42_single : forall u se seed guess a alpha,
  fit_cd (with_alpha u alpha) se seed guess a =
  match fit_path (cd_path_solver seed) u se [alpha] (path_start u guess a) with
  | Some fp => Some (fp_coef fp, hd false (fp_warn fp))
  | None => None
  end.
Proof.
  intros u se seed guess a alpha. unfold fit_path. cbn [solve_path]. rewrite solve_alpha_cd. unfold fit_cd.
  change (get_start_coef (u_p (with_alpha u alpha)) (u_ic (with_alpha u alpha)) (u_means (with_alpha u alpha)) (u_stds (with_alpha u alpha)) guess
     (u_lb (with_alpha u alpha)) (u_ub (with_alpha u alpha)) a) with (path_start u guess a).
  destruct (irls_solver _ _ _ _) as [[s w]|]; reflexivity.
Qed.
Print Assumptions C42_single.

(** every entry of a path fitted by irls-cd respects the bounds, and an entry whose solve did not warn is
    optimal for its own alpha up to gradient_tol *)
Theorem C42_entries_near_optimal : forall u se seed alphas guess a fp, user_ok u -> 0 <= se_approx se -> seeds_ok seed ->
  convex_pair (u_fam u) (u_link u) -> se_stol se = None -> start_ok u a -> (forall x, In x alphas -> 0 <= x) ->
  fit_path (cd_path_solver seed) u se alphas (path_start u guess a) = Some fp ->
  forall k, (k < length alphas)%nat ->
    let b := nth k (fp_path fp) (0, fun _ => 0) in
    user_feasible u (snd b) /\ (u_ic u = false -> fst b = 0) /\
    (nth k (fp_warn fp) true = false -> user_near_optimal (with_alpha u (nth k alphas 0)) (se_gtol se) (fst b) (snd b)).
Proof.
  intros u se seed alphas guess a fp Hok HC Hseed Hc Hst Ha Hal H k Hk b.
  unfold fit_path in H. destruct (solve_path _ _ _ _ _) as [sols|] eqn:E; [|discriminate].
  destruct (rev sols) as [|sl r]; [discriminate|]. injection H as <-. cbn [fp_path fp_warn] in *.
  pose proof (solve_path_chained _ _ _ _ _ _ E) as [HL HCh].
  pose proof (start_in_box u se guess a Ha) as HB0. fold (path_start u guess a) in HB0.
  pose proof (path_in_box u se seed alphas Hok HC Hal _ _ HB0 E) as HBox.
  destruct (HCh k Hk) as [s [Es Hs]]. rewrite solve_alpha_cd in Hs.
  set (c0 := match k with O => _ | S _ => _ end) in Hs.
  assert (Bc0 : in_box (std_problem u se) c0).
  { unfold c0. destruct k as [|k']; [exact HB0|]. destruct (nth_error sols k') as [s'|] eqn:En; [|exact HB0]. apply HBox. eapply nth_error_In; eauto. }
  destruct (irls_solver _ _ _ c0) as [[sf w]|] eqn:ES; [|discriminate]. injection Hs as Hs.
  assert (Eb : b = user_result u (st_coef sf)).
  { unfold b. rewrite (nth_indep _ _ (user_result u (so_coef s))) by (rewrite map_length; lia).
    rewrite (map_nth (fun s => user_result u (so_coef s))). rewrite (nth_error_nth _ _ s Es), <- Hs. reflexivity. }
  set (ua := with_alpha u (nth k alphas 0)) in *.
  assert (A0 : 0 <= nth k alphas 0) by (apply Hal, nth_In; exact Hk).
  assert (Hoka : user_ok ua) by (apply with_alpha_ok; auto).
  split; [|split].
  - rewrite Eb. apply (box_std u se). replace (st_coef sf) with (so_coef s) by (rewrite <- Hs; reflexivity). apply HBox. eapply nth_error_In; eauto.
  - intros Hic. rewrite Eb. apply result_no_intercept, Hic.
  - intros HW. assert (w = false).
    { rewrite (nth_indep _ _ (so_warn s)) in HW by (rewrite map_length; lia).
      rewrite (map_nth so_warn), (nth_error_nth _ _ s Es), <- Hs in HW. exact HW. }
    subst w. pose proof Hoka as [_ [_ [Hw [_ [HS HP]]]]].
    destruct (C55_irls_cd_near_optimal (std_problem ua se) seed (std_problem_P2 ua) c0 sf (std_ok ua se Hoka) HC Hseed
      (std_P2_sym ua HS) (std_P2_psd ua HP) Hw Hc Hst Bc0 ES) as [B O].
    intros b0' b' D Fb Hb0 HD HI HJ.
    pose proof (to_std_result ua b0' b' Hb0) as [T0 T1].
    specialize (O (to_std ua b0' b') D HD).
    assert (Eb' : b = user_result ua (st_coef sf)) by exact Eb.
    rewrite !obj_std, <- Eb' in O. rewrite (user_obj_ext ua (pen_scale ua) _ _ _ _ T0 T1) in O. apply O.
    + apply box_std. intros j Hj. rewrite T1. apply Fb, Hj.
    + intros j Hj. apply std_distance; auto.
      * intros Hic. rewrite <- Eb'. apply HI, Hic.
      * intros i Hi. rewrite <- Eb'. apply HJ, Hi.
      * change (nc (std_problem ua se)) with (ioff (u_ic ua) + u_p ua)%nat in Hj. lia.
Qed.
Print Assumptions C42_entries_near_optimal.

(** The hypotheses of C40 and C42 are met by a lasso problem with two rows and one column. *)
Definition exl : user :=
  mkUser 2 1 (fun i _ => match i with O => - / 2 | _ => / 2 end) (fun i => match i with O => - (9 / 10) | _ => 9 / 10 end)
         (fun _ => / 2) (fun _ => 0) true NormalF IdentityL (fun _ => 1) (P2diag (fun _ => 0)) (fun _ => None) (fun _ => None) false.
Lemma exl_ok : user_ok exl.
Proof.
  split; [exact I|]. split; [intros; exact I|]. split; [intros; cbn; lra|]. split; [intros; cbn; lra|].
  split; [intros i j _ _; cbn; rewrite (Nat.eqb_sym i j); destruct (Nat.eqb j i); reflexivity|].
  intros v. apply rsum_nonneg. intros i _. apply rsum_nonneg. intros j _. cbn. destruct (Nat.eqb i j); lra.
Qed.
Lemma exl_amax : exists a, alpha_max (std_problem exl ex57_se) = Some a /\ null_coef (std_problem exl ex57_se) = Some (pack true 0 (fun _ => 0)).
Proof.
  assert (E : null_coef (std_problem exl ex57_se) = Some (pack true 0 (fun _ => 0))).
  { unfold null_coef, guess_intercept. cbn [std_problem exl pb_ic u_ic pb_link u_link andb].
    f_equal. f_equal. unfold gavg, grows_of. rewrite !lsumf_map. unfold lsumf. simpl. field. }
  unfold alpha_max. rewrite E. cbn [pb_p std_problem exl u_p seq].
  assert (P : 0 < pb_P1 (std_problem exl ex57_se) 0) by (apply std_P1_pos'; cbn; lra).
  cbn [forallb filter]. rewrite (proj2 (Reqb_false _ 0)) by (apply Rgt_not_eq; exact P). cbn [andb].
  rewrite (proj2 (Rltb_true _ _) P). cbn [map np_max]. eexists. split; reflexivity.
Qed.
Example C40_nonvacuous : user_ok exl /\ rsum (u_n exl) (u_w exl) = 1 /\ convex_pair (u_fam exl) (u_link exl) /\ null_regular exl /\ zero_interior exl /\ (exists a, alpha_max (std_problem exl ex57_se) = Some a) /\ start_ok exl StartNone.
Proof.
  split; [exact exl_ok|]. split; [cbn; field|]. split; [exact I|]. split; [repeat split|].
  split; [exists 1; split; [lra|]; intros; split; discriminate|]. split; [destruct exl_amax as [a [H _]]; eauto|].
  left. split; [reflexivity|]. intros. split; discriminate.
Qed.
Example C42_nonvacuous : forall seed, exists a fp, fit_path (cd_path_solver seed) exl ex57_se [a; a / 2] (path_start exl 0 StartNone) = Some fp /\ nth 0 (fp_warn fp) true = false.
Proof.
  intros seed. destruct exl_amax as [a [Ha Hc]]. exists a.
  destruct (proj2 (C42_defined exl ex57_se seed [a; a / 2] (path_start exl 0 StartNone)) ltac:(discriminate)) as [fp Hfp].
  exists fp. split; [exact Hfp|].
  eapply (C40_first_entry_null exl ex57_se seed [a; a / 2] 0 fp exl_ok); eauto.
  - cbn. lra.
  - cbn. field.
  - repeat split.
  - intros. cbn. lra.
  - intros. split; discriminate.
  - intros c E. left. rewrite Hc in E. injection E as <-. reflexivity.
  - simpl. lia.
Qed.
