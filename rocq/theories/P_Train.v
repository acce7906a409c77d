(** Theorems C80: the score on the training data. *)
From Coq Require Import String List. Import ListNotations.
From Verif Require Import Base M_Std S_Std S_Fit M_Valid M_Fit S_FitAll S_Train.
From Verif Require Import L_Link L_Dist L_Dist2 L_Dist4 L_CD L_KKT L_Solver L_Solver2 L_Obj L_Std L_Fit L_Rows L_Score L_Gap L_FitAll P_Solver P_Obj P_Std P_Fit P_Score P_FitAll.
From Verif Require Import M_Solver S_Solver.
Local Open Scope R_scope.

Lemma unclipped_half_dev u b0 b : convex_pair (u_fam u) (u_link u) -> unclipped u b0 b ->
  deviance (u_fam u) (train_obs u b0 b) = 2 * user_half_dev u b0 b.
Proof.
  intros Hc Hu. unfold user_half_dev. rewrite <- Rmult_assoc, Rinv_r, Rmult_1_l by lra. unfold train_obs. f_equal.
  apply map_ext_in. intros i Hi. apply in_seq in Hi. f_equal. unfold search_mean.
  destruct (u_fam u) eqn:F, (u_link u) eqn:L; try reflexivity.
  specialize (Hu L i ltac:(lia)). unfold inverse1. 
  replace (mean_at LogitL (user_eta u b0 b i)) with (raw_inverse LogitL (user_eta u b0 b i)) in Hu
    by (cbn; unfold expit, Rdiv; ring).
  apply clip_id. lra.
Qed.
Lemma train_mean_eq u b0 b : y_mean (train_obs u b0 b) = train_mean u.
Proof.
  unfold y_mean, train_mean, train_obs. rewrite !lsumf_map, !lsumf_seq. f_equal.
  apply rsum_ext. intros i _. cbn. ring.
Qed.
Lemma train_null_eq u b0 b : deviance (u_fam u) (with_mu (y_mean (train_obs u b0 b)) (train_obs u b0 b)) = null_deviance u.
Proof. rewrite train_mean_eq. unfold null_deviance, with_mu, train_obs. rewrite map_map. reflexivity. Qed.
Lemma train_score_eq u b0 b : score (u_fam u) (train_obs u b0 b) = 1 - deviance (u_fam u) (train_obs u b0 b) / null_deviance u.
Proof. unfold score. rewrite train_null_eq. reflexivity. Qed.

Lemma obj_split u b0 b : user_obj u (pen_scale u) b0 b = user_half_dev u b0 b + user_pen u (pen_scale u) b.
Proof. unfold user_obj, user_half_dev, user_pen, user_l2. ring. Qed.
Lemma pen_nonneg u b : user_ok u -> 0 <= user_pen u (pen_scale u) b.
Proof.
  intros [_ [_ [_ [H1 [_ HP]]]]]. unfold user_pen. specialize (HP (fun j => pen_scale u j * b j)).
  assert (0 <= user_l2 u (pen_scale u) b) by exact HP.
  assert (0 <= rsum (u_p u) (fun j => u_P1 u j * Rabs (pen_scale u j * b j))) by (apply rsum_nonneg; intros; apply Rmult_le_pos; [apply H1|apply Rabs_pos]).
  lra.
Qed.
Lemma pen_zero u : user_pen u (pen_scale u) (fun _ => 0) = 0.
Proof.
  unfold user_pen, user_l2. rewrite rsum_zero, rsum_zero; [ring| |]; intros.
  - rewrite Rmult_0_r, Rabs_R0. ring.
  - apply rsum_zero. intros. ring.
Qed.

(** Whatever the penalty, the training deviance of a silent fit with an intercept does not exceed, up to the
    tolerance, that of any intercept-only model with the same offset. *)
Theorem C80_beats_null_models : forall s u se q l guess a b0 b sl c D, user_ok u -> 0 <= se_approx se -> se_stol se = None ->
  convex_pair (u_fam u) (u_link u) -> libs_sound sl l -> start_ok u a -> accepts s u q -> s <> SMono ->
  unclipped u b0 b -> unclipped u c (fun _ => 0) ->
  fit_with s u se q l guess a = Some (b0, b, false, false) ->
  u_ic u = true -> admissible u q (fun _ => 0) -> 0 <= D -> std_close u D b0 b c (fun _ => 0) ->
  deviance (u_fam u) (train_obs u b0 b)
  <= deviance (u_fam u) (train_obs u c (fun _ => 0))
     + 2 * (fit_tol s u se * D + match s, q with STrust, Some _ => sl | _, _ => 0 end).
Proof.
  intros s u se q l guess a b0 b sl c D Hok HC Hst Hc Hl Ha Hq Hs Hu Hu0 E Hic F0 HD HX.
  destruct (C70_silent_near_optimal s u se q l guess a b0 b sl Hok HC Hst Hc Hl Ha Hq Hs (fun _ => Hu) E) as [[_ N] _].
  specialize (N c (fun _ => 0) D F0 ltac:(congruence) HD HX).
  rewrite !unclipped_half_dev by assumption. rewrite !obj_split, pen_zero in N.
  pose proof (pen_nonneg u b Hok) as P. pose proof (pred_dev_nonneg u b0 b _ (fun _ => 0) Hok Hc : 0 <= pred_dev u b0 b c (fun _ => 0)) as PD.
  assert (P2 : 0 <= user_l2 u (pen_scale u) (fun j => 0 - b j)).
  { destruct Hok as [_ [_ [_ [_ [_ HP]]]]]. apply (HP (fun j => pen_scale u j * (0 - b j))). }
  lra.
Qed.
Print Assumptions C80_beats_null_models.

(** Without offset, score on the training data is at least zero, up to the tolerance, for every penalty. *)
Lemma null_half_dev u : convex_pair (u_fam u) (u_link u) -> (forall i, (i < u_n u)%nat -> u_off u i = 0) ->
  mean_domain (u_link u) (train_mean u) ->
  2 * user_half_dev u (link_fn (u_link u) (train_mean u)) (fun _ => 0) = null_deviance u.
Proof.
  intros Hc Ho Hm. unfold user_half_dev, null_deviance. rewrite <- Rmult_assoc, Rinv_r, Rmult_1_l by lra. f_equal.
  apply map_ext_in. intros i Hi. apply in_seq in Hi. f_equal.
  assert (Et : user_eta u (link_fn (u_link u) (train_mean u)) (fun _ => 0) i = link_fn (u_link u) (train_mean u)).
  { unfold user_eta. rewrite rsum_zero by (intros; ring). rewrite Ho by lia. ring. }
  rewrite Et. unfold search_mean. destruct (u_fam u) eqn:F, (u_link u) eqn:L; try (exfalso; exact Hc);
    try (unfold inverse1; rewrite raw_inverse_link by exact Hm; reflexivity); try (rewrite raw_inverse_link by exact Hm; reflexivity).
Qed.
Theorem C80_training_score : forall s u se q l guess a b0 b sl D, user_ok u -> 0 <= se_approx se -> se_stol se = None ->
  convex_pair (u_fam u) (u_link u) -> libs_sound sl l -> start_ok u a -> accepts s u q -> s <> SMono -> unclipped u b0 b ->
  fit_with s u se q l guess a = Some (b0, b, false, false) ->
  u_ic u = true -> admissible u q (fun _ => 0) -> (forall i, (i < u_n u)%nat -> u_off u i = 0) ->
  mean_domain (u_link u) (train_mean u) -> 0 < null_deviance u ->
  0 <= D -> std_close u D b0 b (link_fn (u_link u) (train_mean u)) (fun _ => 0) ->
  score (u_fam u) (train_obs u b0 b)
  >= - (2 * (fit_tol s u se * D + match s, q with STrust, Some _ => sl | _, _ => 0 end) / null_deviance u).
Proof.
  intros s u se q l guess a b0 b sl D Hok HC Hst Hc Hl Ha Hq Hs Hu E Hic F0 Ho Hm Hd HD HX.
  destruct (C70_silent_near_optimal s u se q l guess a b0 b sl Hok HC Hst Hc Hl Ha Hq Hs (fun _ => Hu) E) as [[_ N] _].
  specialize (N _ (fun _ => 0) D F0 ltac:(congruence) HD HX).
  rewrite !obj_split, pen_zero in N. pose proof (null_half_dev u Hc Ho Hm) as ND.
  pose proof (pen_nonneg u b Hok) as P. pose proof (pred_dev_nonneg u b0 b _ (fun _ => 0) Hok Hc : 0 <= pred_dev u b0 b (link_fn (u_link u) (train_mean u)) (fun _ => 0)) as PD.
  assert (P2 : 0 <= user_l2 u (pen_scale u) (fun j => 0 - b j)).
  { destruct Hok as [_ [_ [_ [_ [_ HP]]]]]. apply (HP (fun j => pen_scale u j * (0 - b j))). }
  rewrite train_score_eq, unclipped_half_dev by assumption.
  set (t := fit_tol s u se * D + _) in *. set (d := user_half_dev u b0 b) in *.
  assert (K : 2 * d <= null_deviance u + 2 * t) by (unfold t; lra).
  apply Rle_ge. apply Rmult_le_reg_r with (null_deviance u); [exact Hd|].
  replace ((1 - 2 * d / null_deviance u) * null_deviance u) with (null_deviance u - 2 * d) by (field; lra).
  replace (- (2 * t / null_deviance u) * null_deviance u) with (- (2 * t)) by (field; lra). lra.
Qed.
Print Assumptions C80_training_score.

(** A fit whose coefficients are all zero (alpha at least alpha_max) scores at most zero. *)
Theorem C80_zero_coefficients : forall u b0, user_ok u -> ~ neg_power (u_fam u) -> convex_pair (u_fam u) (u_link u) ->
  (forall i, (i < u_n u)%nat -> u_off u i = 0) -> 0 < rsum (u_n u) (u_w u) ->
  mean_range (u_fam u) (train_mean u) -> 0 < null_deviance u ->
  score (u_fam u) (train_obs u b0 (fun _ => 0)) <= 0.
Proof.
  intros u b0 Hok Hn Hc Ho HW Hm Hd. pose proof Hok as [Hf [Hs [Hw _]]].
  set (m := inverse1 (u_link u) b0).
  assert (Et : train_obs u b0 (fun _ => 0) = with_mu m (train_obs u b0 (fun _ => 0))).
  { unfold with_mu, train_obs. rewrite map_map. apply map_ext_in. intros i Hi. apply in_seq in Hi. cbn [oy ow]. f_equal.
    unfold user_eta. rewrite rsum_zero by (intros; ring). rewrite Ho by lia. unfold m. f_equal. ring. }
  rewrite Et. apply score_constant; auto.
  - intros o Hi. unfold train_obs in Hi. apply in_map_iff in Hi. destruct Hi as [i [<- Hi]]. apply in_seq in Hi. cbn. split; [apply Hs|apply Hw]; lia.
  - unfold train_obs. rewrite lsumf_map, lsumf_seq. exact HW.
  - unfold m. clear - Hc. unfold inverse1.
    destruct (u_fam u) as [p| | | | | | |th], (u_link u); try (exfalso; exact Hc); cbn in *; try exact I; try (apply exp_pos); intros; try (subst; contradiction); try apply exp_pos.
    pose proof eps50_bounds. pose proof (clip_range (expit b0) eps50 (1 - eps50) ltac:(lra)). lra.
  - rewrite train_mean_eq. exact Hm.
  - rewrite train_null_eq. exact Hd.
Qed.
Print Assumptions C80_zero_coefficients.

(** Along a grid of alphas the training score falls as alpha grows, up to the tolerance. *)
Theorem C80_along_alphas : forall u al al' se seed seed' g g' a a' b0 b b0' b' D, user_ok (at_alpha u al) -> user_ok (at_alpha u al') ->
  0 <= al < al' -> 0 <= se_approx se -> seeds_ok seed -> seeds_ok seed' -> se_stol se = None ->
  convex_pair (u_fam u) (u_link u) -> start_ok u a -> start_ok u a' -> unclipped u b0 b -> unclipped u b0' b' ->
  fit_cd (at_alpha u al) se seed g a = Some (b0, b, false) -> fit_cd (at_alpha u al') se seed' g' a' = Some (b0', b', false) ->
  0 <= D -> std_close u D b0 b b0' b' -> 0 < null_deviance u ->
  score (u_fam u) (train_obs u b0' b') <= score (u_fam u) (train_obs u b0 b)
    + 2 * (se_gtol se * D * (1 + 2 * al / (al' - al))) / null_deviance u.
Proof.
  intros u al al' se seed seed' g g' a a' b0 b b0' b' D Ok Ok' Hal HC S1 S2 T Hc A A' U U' E E' HD HX Hn.
  destruct (C64_tradeoff u al al' se seed seed' g g' a a' b0 b b0' b' D Ok Ok' Hal HC S1 S2 T Hc A A' E E' HD HX) as [_ K].
  rewrite !train_score_eq, !unclipped_half_dev by assumption. set (t := se_gtol se * D * _) in *.
  set (d := user_half_dev u b0 b) in *. set (d' := user_half_dev u b0' b') in *.
  apply Rmult_le_reg_r with (null_deviance u); [exact Hn|]. unfold Rdiv.
  rewrite !Rmult_plus_distr_r, !Rmult_minus_distr_r, !Rmult_assoc, Rinv_l by lra. lra.
Qed.
Print Assumptions C80_along_alphas.

(** With an offset the null model of score ignores the offset: the score of an exactly optimal fit with
    intercept can be arbitrarily negative on its own training data.  Four rows, Gaussian identity model, offset
    t and -t, lasso penalty of any size, default start. *)
Definition ex80_u (t al : R) : user :=
  mkUser 4 1 (fun i _ => if Nat.leb 2 i then 1 else 0) (fun i => if Nat.odd i then 2 else 0) (fun _ => / 4)
    (fun i => if Nat.odd i then - t else t) true NormalF IdentityL (fun _ => al) (P2diag (fun _ => 0)) (fun _ => None) (fun _ => None) false.
Lemma ex80_ok t al : 0 <= al -> user_ok (ex80_u t al).
Proof.
  intros Hal. split; [exact I|]. split; [intros; exact I|]. split; [intros; cbn; lra|]. split; [intros; exact Hal|]. split.
  - intros i j Hi Hj. cbn in Hi, Hj. replace i with j by lia. reflexivity.
  - intros v. cbn. lra.
Qed.
Lemma ex80_guess t al : guess_intercept (u_fam (ex80_u t al)) (u_link (ex80_u t al)) true
  (map (fun i => mkgrow (u_y (ex80_u t al) i) (u_w (ex80_u t al) i) (u_off (ex80_u t al) i)) (seq 0 4)) = Some 1.
Proof.
  unfold guess_intercept. cbn [ex80_u u_fam u_link andb seq map u_y u_w u_off Nat.odd Nat.even negb]. unfold gavg.
  repeat rewrite lsumf_cons. rewrite !lsumf_nil. cbn. f_equal. field.
Qed.
Lemma ex80_fit t al l : 0 <= al -> exists b,
  fit_with SCd (ex80_u t al) ex70_se None l 1 StartNone = Some (1, b, false, false) /\ b 0%nat = 0.
Proof.
  intros Hal. set (u := ex80_u t al). pose proof (ex80_ok t al Hal) as Hok. fold u in Hok.
  set (v := get_start_coef (u_p u) (u_ic u) (u_means u) (u_stds u) 1 (u_lb u) (u_ub u) StartNone).
  assert (V1 : v 1%nat = 0) by reflexivity.
  assert (B1 : forall j, snd (user_result u v) j = v (S j) * one_over (u_stds u j)) by (intros; apply result_coef).
  assert (B0 : fst (user_result u v) = 1).
  { unfold user_result, unpack, unstandardize. cbn [fst u ex80_u u_ic u_p rsum].
    change (v 1%nat) with 0. change (v 0%nat) with 1. ring. }
  assert (RES : forall i, (i < 4)%nat -> residual (u_fam u) (u_link u) (u_y u i) (user_eta u (fst (user_result u v)) (snd (user_result u v)) i)
     = (if Nat.odd i then 1 + t else - (1 + t))).
  { intros i Hi. unfold user_eta. rewrite B0. change (u_p u) with 1%nat. cbn [rsum]. rewrite B1, V1.
    destruct i as [|[|[|[|]]]]; try lia; cbn; ring. }
  assert (F2 : forall l, (l < u_p u)%nat -> p2_entry (u_P2 u) l 0%nat = 0) by (intros l' _; cbn; destruct l'; cbn; ring).
  assert (IR : irls_solver (std_problem u (solve_settings SCd u ex70_se)) (cd_solver (std_problem u (solve_settings SCd u ex70_se)) (lib_seed l)) (std_problem_P2 u) v
     = Some (init_state (std_problem u (solve_settings SCd u ex70_se)) (std_problem_P2 u) false v, false)).
  { apply irls_at_start; [apply std_ok, Hok|cbn; lra|]. set (se := solve_settings SCd u ex70_se).
    change (nc (std_problem u se)) with 2%nat. cbn [rsum]. unfold entry.
    change (pb_ic (std_problem u se)) with true. cbn [ioff Nat.ltb Nat.leb Nat.sub].
    change (pb_lb (std_problem u se) 0%nat) with (@None R). change (pb_ub (std_problem u se) 0%nat) with (@None R).
    rewrite (score_intercept u se v eq_refl I).
    change 1%nat with (ioff (u_ic u) + 0)%nat at 2. rewrite (score_column u se v 0 Nat.lt_0_1 F2 I).
    change (u_n u) with 4%nat.
    rewrite (rsum_ext 4 _ (fun i => / 4 * (if Nat.odd i then 1 + t else - (1 + t)))) by (intros i Hi; rewrite RES by exact Hi; reflexivity).
    rewrite (rsum_ext 4 (fun i => u_w u i * _ * _) (fun i => / 4 * (if Nat.odd i then 1 + t else - (1 + t)) * ((u_X u i 0 - u_means u 0) * one_over (u_stds u 0))))
      by (intros i Hi; rewrite RES by exact Hi; reflexivity).
    set (m := u_means u 0). set (o := one_over _). cbn [rsum u ex80_u u_X Nat.odd Nat.even negb Nat.leb]. rewrite V1.
    match goal with |- 0 + Rabs ?x + Rabs (subgrad_term 0 ?y ?q None None) < _ => replace x with 0 by field; replace y with 0 by field; set (q1 := q) end.
    unfold subgrad_term, fsign. rewrite (proj2 (Reqb_true 0 0)) by reflexivity. rewrite Rmult_0_l. cbn. rewrite Rabs_R0. lra. }
  assert (EC : forall pb P2, st_coef (init_state pb P2 false v) = v /\ st_lswarn (init_state pb P2 false v) = 0%nat).
  { intros pb P2. unfold init_state. destruct (eta_mu_objective _ _ _ _ _ _) as [[[? ?] ?] ?].
    destruct (update_quadratic _ _ _ _) as [[? ?] ?]. destruct (check_convergence _ _ _ _) as [[[? ?] ?] ?]. split; reflexivity. }
  exists (snd (user_result u v)). split.
  - unfold fit_with. fold v. unfold solve. cbv zeta. rewrite IR.
    destruct (EC (std_problem u (solve_settings SCd u ex70_se)) (std_problem_P2 u)) as [-> ->].
    rewrite <- B0 at 1. rewrite <- surjective_pairing. reflexivity.
  - rewrite B1, V1. ring.
Qed.
Lemma ex80_null t al : null_deviance (ex80_u t al) = 1.
Proof.
  unfold null_deviance, train_mean. cbn [ex80_u u_n u_fam u_y u_w rsum seq map Nat.odd Nat.even negb deviance].
  unfold normal_deviance. repeat rewrite lsumf_cons. rewrite lsumf_nil. cbn. field.
Qed.
Theorem C80_offset_refuted : forall k l, exists u b0 b D,
  user_ok u /\ u_ic u = true /\ (exists g, guess_intercept (u_fam u) (u_link u) true
     (map (fun i => mkgrow (u_y u i) (u_w u i) (u_off u i)) (seq 0 (u_n u))) = Some g /\
     fit_with SCd u ex70_se None l g StartNone = Some (b0, b, false, false)) /\
  0 < null_deviance u /\ std_close u D b0 b (link_fn (u_link u) (train_mean u)) (fun _ => 0) /\ D = 0 /\
  score (u_fam u) (train_obs u b0 b) < - k.
Proof.
  intros k l. set (t := Rabs k + 1). exists (ex80_u t 0), 1.
  destruct (ex80_fit t 0 l (Rle_refl 0)) as [b [E Hb]]. exists b, 0.
  assert (TM : train_mean (ex80_u t 0) = 1) by (unfold train_mean; cbn; field).
  split; [apply ex80_ok; lra|]. split; [reflexivity|]. split; [exists 1; split; [apply ex80_guess|exact E]|].
  rewrite train_score_eq, ex80_null, TM. split; [lra|]. split.
  - split.
    + intros _. cbn [ex80_u u_link u_p rsum link_fn]. rewrite Hb.
      match goal with |- Rabs ?x <= 0 => replace x with 0 by ring end. rewrite Rabs_R0. lra.
    + intros j Hj. cbn in Hj. replace j with 0%nat by lia. rewrite Hb, Rminus_0_r, Rabs_R0. lra.
  - split; [reflexivity|].
    assert (DV : deviance (u_fam (ex80_u t 0)) (train_obs (ex80_u t 0) 1 b) = (1 + t) ^ 2).
    { unfold train_obs, user_eta. cbn [ex80_u u_n u_p u_fam u_y u_w u_off u_X u_link rsum seq map Nat.odd Nat.even negb deviance Nat.leb].
      unfold normal_deviance. repeat rewrite lsumf_cons. rewrite lsumf_nil, Hb. cbn. field. }
    rewrite DV. assert (0 <= Rabs k) by apply Rabs_pos. assert (k >= - Rabs k) by (pose proof (Rle_abs (- k)); rewrite Rabs_Ropp in H0; lra).
    pose proof (Rle_abs k). unfold t. nra.
Qed.
Print Assumptions C80_offset_refuted.

(** Non-vacuity of the positive theorems: the same data without offset, a lasso of any size, from the default start. *)
Example C80_nonvacuous : forall al, 0 <= al -> exists b,
  let u := ex80_u 0 al in
  fit_with SCd u ex70_se None exact_libs 1 StartNone = Some (1, b, false, false) /\
  user_ok u /\ libs_sound 0 exact_libs /\ start_ok u StartNone /\ accepts SCd u None /\ unclipped u 1 b /\
  convex_pair (u_fam u) (u_link u) /\ admissible u None (fun _ => 0) /\ (forall i, (i < u_n u)%nat -> u_off u i = 0) /\
  mean_domain (u_link u) (train_mean u) /\ 0 < null_deviance u /\ std_close u 0 1 b (link_fn (u_link u) (train_mean u)) (fun _ => 0).
Proof.
  intros al Hal. destruct (ex80_fit 0 al exact_libs Hal) as [b [E Hb]]. exists b. cbv zeta.
  assert (TM : train_mean (ex80_u 0 al) = 1) by (unfold train_mean; cbn; field).
  split; [exact E|]. split; [apply ex80_ok, Hal|]. split; [apply exact_libs_sound; lra|].
  split; [left; split; [reflexivity|]; intros j _; split; intros x Hx; discriminate Hx|].
  split; [split; congruence|]. split; [intros H; discriminate|]. split; [exact I|].
  split; [split; [intros j _; split; intros x Hx; discriminate Hx|exact I]|].
  split; [intros i _; cbn; destruct (Nat.odd i); lra|]. split; [exact I|]. split; [rewrite ex80_null; lra|].
  rewrite TM. split.
  - intros _. cbn [ex80_u u_link u_p rsum link_fn]. rewrite Hb.
    match goal with |- Rabs ?x <= 0 => replace x with 0 by ring end. rewrite Rabs_R0. lra.
  - intros j Hj. cbn in Hj. replace j with 0%nat by lia. rewrite Hb, Rminus_0_r, Rabs_R0. lra.
Qed.
