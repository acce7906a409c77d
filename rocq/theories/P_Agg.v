(** C91: rows with the same features and offset may be replaced by one row with their total weight and their
    weighted mean response. *)
From Coq Require Import List Lia Lra ZArith. Import ListNotations.
From Verif Require Import Base M_Link M_Dist M_Std M_Valid M_Fit L_KKT L_Std S_Dist S_Std S_Fit S_FitAll L_Score L_FitAll L_Gap L_Fit L_Rows L_Same L_Obj L_Solver P_Score P_Fit P_FitAll P_Rows P_Solver S_Agg L_Agg.
From Verif Require Import M_Solver S_Solver.
Local Open Scope R_scope.

(** Every distribution, every link, every response: standardization, score and Hessian are the same at every point. *)
Theorem C91_same_score_and_hessian : forall u cells, List.Forall cell cells ->
  (forall j, u_means (with_rows u (concat cells)) j = u_means (with_rows u (map merged cells)) j) /\
  (forall j, u_stds (with_rows u (concat cells)) j = u_stds (with_rows u (map merged cells)) j) /\
  forall se P2 v,
    (forall k, (k < nc (std_problem (with_rows u (concat cells)) se))%nat ->
       score_of (std_problem (with_rows u (concat cells)) se) P2 v k = score_of (std_problem (with_rows u (map merged cells)) se) P2 v k) /\
    (forall k l, exact_hessian (std_problem (with_rows u (concat cells)) se) (hrow_of (std_problem (with_rows u (concat cells)) se) v) P2 k l
               = exact_hessian (std_problem (with_rows u (map merged cells)) se) (hrow_of (std_problem (with_rows u (map merged cells)) se) v) P2 k l).
Proof.
  intros u cells HC. split; [intros; rewrite (agg_means cells HC u); reflexivity|]. split; [intros; rewrite (agg_stds cells HC u); reflexivity|].
  intros se P2 v. split; [apply (agg_score cells HC)|]. intros k l. apply same_hessian, (agg_std cells HC).
Qed.
Print Assumptions C91_same_score_and_hessian.

(** Differences of the training objective are the same, so the same coefficients are optimal. *)
Theorem C91_objective : forall u cells b0 b b0' b' k, List.Forall cell cells -> family_ok (u_fam u) ->
  (forall r, In r (concat cells) -> support (u_fam u) (r_y r) /\ dev_ok (u_fam u) (r_y r)) ->
  in_range u b0 b (concat cells) -> in_range u b0' b' (concat cells) ->
  user_obj (with_rows u (concat cells)) k b0' b' - user_obj (with_rows u (concat cells)) k b0 b
  = user_obj (with_rows u (map merged cells)) k b0' b' - user_obj (with_rows u (map merged cells)) k b0 b.
Proof. intros u cells b0 b b0' b' k HC HF HY R1 R2. apply (agg_obj cells HC u HF HY); assumption. Qed.
Print Assumptions C91_objective.

Lemma full_y u cells : convex_pair (u_fam u) (u_link u) -> user_ok (with_rows u (concat cells)) -> forall r, In r (concat cells) -> support (u_fam u) (r_y r) /\ dev_ok (u_fam u) (r_y r).
Proof.
  intros Hc (_ & Y & _) r Hr. split; [|eapply convex_pair_dev_ok; eauto].
  apply (In_nth _ _ row0) in Hr. destruct Hr as [i [Hi <-]]. apply (Y i Hi).
Qed.
(** A silent fit of the aggregated data, with any solver, is as close to optimal for the full data as a fit of the
    full data would be (C70). *)
Theorem C91_near_optimal : forall s u cells se q l guess a b0 b sl, List.Forall cell cells ->
  user_ok (with_rows u (concat cells)) -> 0 <= se_approx se -> se_stol se = None ->
  convex_pair (u_fam u) (u_link u) -> libs_sound sl l -> start_ok u a -> accepts s u q -> s <> SMono ->
  (s = SLbfgs \/ s = STrust -> unclipped (with_rows u (concat cells)) b0 b) ->
  fit_with s (with_rows u (map merged cells)) se q l guess a = Some (b0, b, false, false) ->
  near_optimal (with_rows u (concat cells)) (fit_tol s u se) (match s, q with STrust, Some _ => sl | _, _ => 0 end)
    (admissible u q) b0 b /\ user_feasible u b.
Proof.
  intros s u cells se q l guess a b0 b sl HC Hok HA Hst Hc Hl Ha Hacc Hs Hu E.
  assert (HF : family_ok (u_fam u)) by (destruct Hok as [F _]; exact F).
  pose proof (full_y u cells Hc Hok) as HY.
  destruct (C70_silent_near_optimal s (with_rows u (map merged cells)) se q l guess a b0 b sl) as (N & F & _); try assumption.
  - apply (agg_ok cells HC u HY Hok).
  - intros H L i Hi. specialize (Hu H L). pose proof (nth_In (map merged cells) row0 Hi) as HIn.
    assert (P : forall r, In r (concat cells) -> eps50 < mean_at LogitL (eta_row (u_p u) b0 b (r_x r) (r_off r)) < 1 - eps50).
    { intros r Hr. apply (In_nth _ _ row0) in Hr. destruct Hr as [k [Hk <-]]. apply (Hu k Hk). }
    apply (proj1 (agg_supp cells HC (fun x off => eps50 < mean_at LogitL (eta_row (u_p u) b0 b x off) < 1 - eps50)) P _ HIn).
  - split; [|exact F]. apply (agg_near cells HC u HF HY _ _ _ b0 b Hok Hc N).
Qed.
Print Assumptions C91_near_optimal.

(** Two silent fits, one of the full and one of the aggregated data, by any two solvers, agree: the objective, the
    coefficients as far as the L2 penalty determines them, the predictions. *)
Theorem C91_fits_agree : forall u cells s1 s2 se1 se2 l1 l2 g1 g2 a1 a2 sl1 sl2 b0 b b0' b' D,
  let full := with_rows u (concat cells) in
  List.Forall cell cells -> user_ok full ->
  0 <= se_approx se1 -> 0 <= se_approx se2 -> se_stol se1 = None -> se_stol se2 = None ->
  convex_pair (u_fam u) (u_link u) -> libs_sound sl1 l1 -> libs_sound sl2 l2 -> start_ok u a1 -> start_ok u a2 ->
  accepts s1 u None -> accepts s2 u None -> s1 <> SMono -> s2 <> SMono ->
  fit_with s1 full se1 None l1 g1 a1 = Some (b0, b, false, false) ->
  fit_with s2 (with_rows u (map merged cells)) se2 None l2 g2 a2 = Some (b0', b', false, false) ->
  unclipped full b0 b -> unclipped full b0' b' ->
  0 <= D -> std_close full D b0 b b0' b' ->
  user_l2 full (pen_scale full) (fun j => b' j - b j)
    + / 2 * (pred_dev full b0 b b0' b' + pred_dev full b0' b' b0 b)
    <= (fit_tol s1 u se1 + fit_tol s2 u se2) * D /\
  user_obj full (pen_scale full) b0 b <= user_obj full (pen_scale full) b0' b' + fit_tol s1 u se1 * D /\
  user_obj full (pen_scale full) b0' b' <= user_obj full (pen_scale full) b0 b + fit_tol s2 u se2 * D.
Proof.
  intros u cells s1 s2 se1 se2 l1 l2 g1 g2 a1 a2 sl1 sl2 b0 b b0' b' D full HC Hok C1 C2 T1 T2 Hc L1 L2 A1 A2 K1 K2 M1 M2 E1 E2 U1 U2 HD HX.
  destruct (C70_silent_near_optimal s1 full se1 None l1 g1 a1 b0 b sl1 Hok C1 T1 Hc L1 A1 K1 M1 (fun _ => U1) E1) as [[I1 N1] [F1 _]].
  destruct (C91_near_optimal s2 u cells se2 None l2 g2 a2 b0' b' sl2 HC Hok C2 T2 Hc L2 A2 K2 M2 (fun _ => U2) E2) as [[I2 N2] F2].
  fold full in I2, N2.
  specialize (N1 b0' b' D (conj F2 I) I2 HD HX). specialize (N2 b0 b D (conj F1 I) I1 HD (std_close_sym _ _ _ _ _ _ HX)).
  rewrite (user_l2_sym full (pen_scale full) (fun j => b' j - b j) (fun j => b j - b' j)) in N2 by (intros; ring).
  assert (P : 0 <= user_l2 full (pen_scale full) (fun j => b' j - b j)).
  { destruct Hok as [_ [_ [_ [_ [_ HP]]]]]. apply (HP (fun j => pen_scale full j * (b' j - b j))). }
  assert (Z1 : match s1, @None ineq with STrust, Some _ => sl1 | _, _ => 0 end = 0) by (destruct s1; reflexivity).
  assert (Z2 : match s2, @None ineq with STrust, Some _ => sl2 | _, _ => 0 end = 0) by (destruct s2; reflexivity).
  rewrite Z1 in N1. rewrite Z2 in N2. change (fit_tol s1 full se1) with (fit_tol s1 u se1) in *.
  pose proof (pred_dev_nonneg full b0 b b0' b' Hok Hc).
  pose proof (pred_dev_nonneg full b0' b' b0 b Hok Hc). lra.
Qed.
Print Assumptions C91_fits_agree.

(** For the distributions whose kernel value is linear in the response (Poisson, gamma, Tweedie with 1 <= p <= 2 and
    negative binomial with the log link, binomial with the logit link) the two fits by coordinate descent are the
    same run: the same iterates, warnings and result, whatever the start. *)
Theorem C91_exact : forall u cells se seed has_off a, List.Forall cell cells ->
  rows_ok u (concat cells) -> linear_pair (u_fam u) (u_link u) -> se_approx se = 0 -> seeds_ok seed ->
  (a = StartNone -> u_ic u = true -> exists g h, In g cells /\ In h cells /\ r_y (merged g) <> r_y (merged h)) ->
  fit_rows u se seed has_off (map merged cells) a = fit_rows u se seed has_off (concat cells) a.
Proof.
  intros u cells se seed has_off a HC Hok HL HA Hs Hg. symmetry.
  assert (F : forall g a', fit_cd (with_rows u (concat cells)) se seed g a' = fit_cd (with_rows u (map merged cells)) se seed g a')
    by (intros; apply (agg_fit cells HC); assumption).
  unfold fit_rows. destruct a; try apply F. destruct (u_ic u) eqn:Hic; [|apply F].
  assert (E : all_equal (grows u (map merged cells)) = false).
  { destruct (all_equal (grows u (map merged cells))) eqn:E; [|reflexivity]. apply all_equal_rows in E. destruct E as [_ [v E]].
    destruct (Hg eq_refl eq_refl) as (g & h & Ig & Ih & N). exfalso. apply N. rewrite !E by (apply in_map; assumption). reflexivity. }
  pose proof (agg_guess cells HC u has_off (or_intror E)) as GE.
  change (match guess_intercept (u_fam u) (u_link u) has_off (grows u (concat cells)) with Some g => fit_cd (with_rows u (concat cells)) se seed g StartNone | None => None end
        = match guess_intercept (u_fam u) (u_link u) has_off (grows u (map merged cells)) with Some g => fit_cd (with_rows u (map merged cells)) se seed g StartNone | None => None end).
  rewrite GE. destruct (guess_intercept _ _ _ (grows u (map merged cells))); [apply F|reflexivity].
Qed.
Print Assumptions C91_exact.

(** The default intercept is the same for every distribution and link whenever the aggregated responses vary. *)
Theorem C91_guess : forall u cells has_off, List.Forall cell cells ->
  u_link u = IdentityL \/ (exists g h, In g cells /\ In h cells /\ r_y (merged g) <> r_y (merged h)) ->
  guess_intercept (u_fam u) (u_link u) has_off (grows u (map merged cells)) = guess_intercept (u_fam u) (u_link u) has_off (grows u (concat cells)).
Proof.
  intros u cells has_off HC H. symmetry. apply (agg_guess cells HC). destruct H as [H|(g & h & Ig & Ih & N)]; [left; exact H|right].
  destruct (all_equal (grows u (map merged cells))) eqn:E; [|reflexivity]. apply all_equal_rows in E. destruct E as [_ [v E]].
  exfalso. apply N. rewrite !E by (apply in_map; assumption). reflexivity.
Qed.
Print Assumptions C91_guess.

(** Finding F49: that hypothesis is needed: if every cell has the same mean response, fit raises "No variation in y"
    for the aggregated data and returns for the full data. *)
Theorem C91_no_variation_refuted : exists u cells se seed, List.Forall cell cells /\ rows_ok u (concat cells) /\
  linear_pair (u_fam u) (u_link u) /\ seeds_ok seed /\
  fit_rows u se seed false (map merged cells) StartNone = None /\
  exists r, fit_rows u se seed false (concat cells) StartNone = Some r.
Proof.
  set (u := mkUser 0 0 (fun _ _ => 0) (fun _ => 0) (fun _ => 0) (fun _ => 0) true PoissonF LogL (fun _ => 0) (P2diag (fun _ => 0)) (fun _ => None) (fun _ => None) false).
  set (cells := (mkRow (fun _ => 0) 1 1 0 :: mkRow (fun _ => 0) 3 1 0 :: nil) :: (mkRow (fun _ => 1) 2 1 0 :: nil) :: nil).
  assert (HC : List.Forall cell cells).
  { apply List.Forall_cons; [|apply List.Forall_cons; [|apply List.Forall_nil]].
    - split; [intros r [<-|[<-|[]]]; simpl; lra|]. split; [rewrite !lsumf_cons, lsumf_nil; simpl; lra|].
      intros r r' [<-|[<-|[]]] [<-|[<-|[]]]; split; reflexivity.
    - split; [intros r [<-|[]]; simpl; lra|]. split; [rewrite !lsumf_cons, lsumf_nil; simpl; lra|].
      intros r r' [<-|[]] [<-|[]]; split; reflexivity. }
  exists u, cells, ex57_se, (fun _ => 1%N). split; [exact HC|]. split; [|split; [exact I|split; [intros n; reflexivity|split]]].
  - split; [exact I|]. split; [|intros; simpl; lra]. intros r [<-|[<-|[<-|[]]]]; simpl; lra.
  - assert (E : guess_intercept (u_fam u) (u_link u) false (grows u (map merged cells)) = None).
    { unfold guess_intercept. replace (all_equal (grows u (map merged cells))) with true; [reflexivity|]. symmetry.
      apply all_equal_rows. split; [discriminate|]. exists 2. intros r [<-|[<-|[]]]; cbn [merged r_y]; rewrite !lsumf_cons, !lsumf_nil; simpl; field. }
    change (match guess_intercept (u_fam u) (u_link u) false (grows u (map merged cells)) with Some g => fit_cd (with_rows u (map merged cells)) ex57_se (fun _ => 1%N) g StartNone | None => None end = None).
    rewrite E. reflexivity.
  - assert (E : all_equal (grows u (concat cells)) = false).
    { destruct (all_equal (grows u (concat cells))) eqn:E; [|reflexivity]. apply all_equal_rows in E. destruct E as [_ [v E]].
      pose proof (E _ (or_introl eq_refl)) as E1. pose proof (E _ (or_intror (or_introl eq_refl))) as E2. simpl in E1, E2. lra. }
    assert (G : exists g, guess_intercept (u_fam u) (u_link u) false (grows u (concat cells)) = Some g).
    { unfold guess_intercept. rewrite E. eexists. reflexivity. }
    destruct G as [g G].
    change (exists r, match guess_intercept (u_fam u) (u_link u) false (grows u (concat cells)) with Some g => fit_cd (with_rows u (concat cells)) ex57_se (fun _ => 1%N) g StartNone | None => None end = Some r).
    rewrite G.
    match goal with |- exists r, fit_cd ?u ?se ?seed ?g ?a = Some r => destruct (fit_cd u se seed g a) eqn:E0 end; [eexists; reflexivity|].
    exfalso. unfold fit_cd in E0. destruct (irls_solver _ _ _ _) as [[? ?]|] eqn:ES; [discriminate|].
    eapply C27_cd_always_returns; eauto.
Qed.
Print Assumptions C91_no_variation_refuted.

(** What is lost is the spread inside the cells: the Pearson estimate of the dispersion drops by exactly that (so
    standard errors of aggregated data differ), for every distribution and any predicted means. *)
Theorem C91_pearson_dispersion : forall f cells m ddof, List.Forall cell cells ->
  dispersion f Pearson true ddof (obs_of m (concat cells))
  = dispersion f Pearson true ddof (obs_of m (map merged cells))
    + lsumf (fun g => within_ss g / unit_variance f (m (r_x (merged g)) (r_off (merged g)))) cells / (lsumf r_w (concat cells) - ddof).
Proof.
  intros f cells m ddof HC. unfold dispersion.
  assert (W : lsumf ow (obs_of m (concat cells)) = lsumf r_w (concat cells)) by (unfold obs_of; rewrite lsumf_map; reflexivity).
  assert (W' : lsumf ow (obs_of m (map merged cells)) = lsumf r_w (concat cells)).
  { unfold obs_of. rewrite lsumf_map. symmetry. apply (cells_wtot cells HC). }
  assert (EQ : forall A B C d, A = B + C -> A / d = B / d + C / d) by (intros; subst; unfold Rdiv; ring).
  cbv zeta iota. rewrite W, W'. apply EQ. clear EQ W W'. unfold obs_of.
  rewrite !lsumf_map, lsumf_concat, <- lsumf_plus. apply lsumf_ext. intros g Hg. rewrite Forall_forall in HC. pose proof (HC g Hg) as C.
  assert (PR : forall y w mu, pearson_residual f (mkobs y w mu) = (y - mu) ^ 2 / unit_variance f mu) by (intros; destruct f; reflexivity).
  cbn [ow]. unfold within_ss. rewrite PR.
  set (mm := m (r_x (merged g)) (r_off (merged g))).
  rewrite (lsumf_ext _ _ (fun r => / unit_variance f mm * (r_w r * (r_y r - mm) ^ 2))).
  2:{ intros r Hr. rewrite PR. destruct (cell_row g r C Hr) as [-> ->]. fold mm. unfold Rdiv. ring. }
  rewrite lsumf_scal.
  assert (K : lsumf (fun r => r_w r * (r_y r - mm) ^ 2) g = r_w (merged g) * (r_y (merged g) - mm) ^ 2 + lsumf (fun r => r_w r * (r_y r - r_y (merged g)) ^ 2) g).
  { destruct C as [_ [Wg _]]. set (yb := r_y (merged g)).
    rewrite (lsumf_ext _ (fun r => r_w r * (r_y r - mm) ^ 2) (fun r => (r_w r * (r_y r - yb) ^ 2 + 2 * (yb - mm) * (r_w r * r_y r)) + ((yb - mm) ^ 2 - 2 * (yb - mm) * yb) * r_w r)) by (intros; ring).
    rewrite !lsumf_plus, !lsumf_scal. assert (Y : lsumf (fun r => r_w r * r_y r) g = yb * lsumf r_w g) by (unfold yb; cbn [merged r_y]; field; lra).
    rewrite Y. cbn [merged r_w]. ring. }
  rewrite K. unfold Rdiv. ring.
Qed.
Print Assumptions C91_pearson_dispersion.

(** Three rows, two of them in one cell; silent fits of the full and of the aggregated data; and the same rows as a
    Poisson model for C91_exact. *)
Definition ex91_cells : list (list row) :=
  (mkRow (fun _ => 1) 0 1 0 :: mkRow (fun _ => 1) 2 1 0 :: nil) :: (mkRow (fun _ => -1) 1 2 0 :: nil) :: nil.
Definition ex91_u (f : family) (lk : link) : user :=
  mkUser 0 1 (fun _ _ => 0) (fun _ => 0) (fun _ => 0) (fun _ => 0) false f lk (fun _ => 1) (P2diag (fun _ => 0)) (fun _ => None) (fun _ => None) false.
Lemma ex91_HC : List.Forall cell ex91_cells.
Proof.
  apply List.Forall_cons; [|apply List.Forall_cons; [|apply List.Forall_nil]].
  - split; [intros r [<-|[<-|[]]]; simpl; lra|]. split; [rewrite !lsumf_cons, lsumf_nil; simpl; lra|].
    intros r r' [<-|[<-|[]]] [<-|[<-|[]]]; split; reflexivity.
  - split; [intros r [<-|[]]; simpl; lra|]. split; [rewrite !lsumf_cons, lsumf_nil; simpl; lra|].
    intros r r' [<-|[]] [<-|[]]; split; reflexivity.
Qed.
Lemma ex91_ok : user_ok (with_rows (ex91_u NormalF IdentityL) (concat ex91_cells)).
Proof.
  split; [exact I|]. split; [intros; exact I|]. split.
  - intros i Hi. cbn [with_rows u_w]. rewrite w_nth. unfold wtot, ex91_cells. cbn [concat app]. rewrite !lsumf_cons, lsumf_nil. cbn [r_w].
    destruct i as [|[|[|i]]]; cbn; try (unfold Rdiv; apply Rmult_le_pos; [lra|left; apply Rinv_0_lt_compat; lra]).
    cbn in Hi. lia.
  - split; [intros; cbn; lra|]. split.
    + intros i j _ _. cbn [ex91_u with_rows u_P2 p2_entry]. destruct (Nat.eqb i j), (Nat.eqb j i); reflexivity.
    + intros x. apply Req_le. symmetry. apply rsum_zero. intros i _. apply rsum_zero. intros j _. cbn [ex91_u with_rows u_P2 p2_entry].
      destruct (Nat.eqb i j); ring.
Qed.
Lemma ex91_fit rows l : rows = concat ex91_cells \/ rows = map merged ex91_cells ->
  exists b, fit_with SCd (with_rows (ex91_u NormalF IdentityL) rows) ex70_se None l 0 StartNone = Some (0, b, false, false) /\ forall j, b j = 0.
Proof.
  intros HU. set (u := with_rows (ex91_u NormalF IdentityL) rows).
  assert (Hok : user_ok u).
  { unfold u. destruct HU as [->| ->]; [exact ex91_ok|]. apply (agg_ok ex91_cells ex91_HC); [intros; split; [exact I|eapply (convex_pair_dev_ok NormalF IdentityL); exact I]|exact ex91_ok]. }
  set (v := get_start_coef (u_p u) (u_ic u) (u_means u) (u_stds u) 0 (u_lb u) (u_ub u) StartNone).
  assert (V : forall k, v k = 0) by (intros k; reflexivity).
  assert (B : forall j, snd (user_result u v) j = 0) by (intros j; rewrite result_coef, V; ring).
  assert (B0 : fst (user_result u v) = 0).
  { unfold user_result, unpack, unstandardize. change (u_ic u) with false. cbn [fst]. rewrite rsum_zero; [ring|]. intros j _. rewrite V. ring. }
  set (se := solve_settings SCd u ex70_se). set (pb := std_problem u se).
  assert (SC : score_of pb (std_problem_P2 u) v 0 = 0).
  { pose proof (score_column u se v 0) as S. change (ioff (u_ic u) + 0)%nat with 0%nat in S. unfold pb. rewrite S; clear S.
    - assert (ET : forall i, user_eta u (fst (user_result u v)) (snd (user_result u v)) i = 0).
      { intros i. unfold user_eta. rewrite B0, rsum_zero by (intros k _; rewrite B; ring).
        assert (u_off u i = 0); [|lra]. unfold u. destruct HU as [->| ->]; cbn; destruct i as [|[|[|[|i]]]]; reflexivity. }
      rewrite (rsum_ext (u_n u) _ (fun i => one_over (u_stds u 0) * (u_w u i * (r_x (nth i rows row0) 0%nat * r_y (nth i rows row0))))).
      + rewrite rsum_scal. unfold u at 2 3. change (u_n (with_rows (ex91_u NormalF IdentityL) rows)) with (length rows).
        rewrite (sum_rows (ex91_u NormalF IdentityL) rows (fun x y _ => x 0%nat * y)).
        replace (ravg rows (fun x y _ => x 0%nat * y)) with 0; [ring|]. unfold ravg. symmetry.
        replace (lsumf (fun r => r_w r * (r_x r 0%nat * r_y r)) rows) with 0; [unfold Rdiv; ring|].
        destruct HU as [->| ->]; cbn [concat app ex91_cells map]; rewrite !lsumf_cons, lsumf_nil; cbn [merged r_w r_y r_x]; rewrite ?lsumf_cons, ?lsumf_nil; cbn; field.
      + intros i _. rewrite !ET. change (u_means u 0%nat) with 0. unfold residual. cbn. ring.
    - cbn. lia.
    - intros k _. cbn. destruct (Nat.eqb k 0); reflexivity.
    - exact I. }
  assert (IR : irls_solver pb (cd_solver pb (lib_seed l)) (std_problem_P2 u) v = Some (init_state pb (std_problem_P2 u) false v, false)).
  { apply irls_at_start; [apply std_ok, Hok|cbn; lra|].
    change (nc pb) with 1%nat. rewrite rsum_zero; [cbn; lra|].
    intros k Hk. replace k with 0%nat by lia. unfold entry. change (pb_ic pb) with false. cbn [ioff Nat.ltb Nat.leb].
    rewrite SC, V. change (pb_lb pb (0 - 0)%nat) with (@None R). change (pb_ub pb (0 - 0)%nat) with (@None R).
    unfold subgrad_term, fsign, at_bound. rewrite (proj2 (Reqb_true 0 0)) by reflexivity.
    rewrite Ropp_0. rewrite (proj2 (Rltb_false 0 0)) by lra. cbn [andb]. rewrite (proj2 (Reqb_true 0 0)) by reflexivity. rewrite Rmult_0_l. apply Rabs_R0. }
  exists (snd (user_result u v)). split; [|exact B].
  assert (EC : forall pb P2, st_coef (init_state pb P2 false v) = v /\ st_lswarn (init_state pb P2 false v) = 0%nat).
  { intros pb0 P2. unfold init_state. destruct (eta_mu_objective _ _ _ _ _ _) as [[[? ?] ?] ?].
    destruct (update_quadratic _ _ _ _) as [[? ?] ?]. destruct (check_convergence _ _ _ _) as [[[? ?] ?] ?]. split; reflexivity. }
  unfold fit_with. fold v. unfold solve. cbv zeta. fold se. fold pb. rewrite IR.
  destruct (EC pb (std_problem_P2 u)) as [-> ->]. rewrite <- B0 at 1. rewrite <- surjective_pairing. reflexivity.
Qed.
Example ex91_nonvacuous : exists b b',
  List.Forall cell ex91_cells /\ length (concat ex91_cells) = 3%nat /\ length (map merged ex91_cells) = 2%nat /\
  user_ok (with_rows (ex91_u NormalF IdentityL) (concat ex91_cells)) /\ libs_sound 0 exact_libs /\
  start_ok (ex91_u NormalF IdentityL) StartNone /\ accepts SCd (ex91_u NormalF IdentityL) None /\
  fit_with SCd (with_rows (ex91_u NormalF IdentityL) (concat ex91_cells)) ex70_se None exact_libs 0 StartNone = Some (0, b, false, false) /\
  fit_with SCd (with_rows (ex91_u NormalF IdentityL) (map merged ex91_cells)) ex70_se None exact_libs 0 StartNone = Some (0, b', false, false) /\
  std_close (with_rows (ex91_u NormalF IdentityL) (concat ex91_cells)) 0 0 b 0 b' /\
  rows_ok (ex91_u PoissonF LogL) (concat ex91_cells) /\ linear_pair (u_fam (ex91_u PoissonF LogL)) (u_link (ex91_u PoissonF LogL)) /\
  within_ss (hd nil ex91_cells) = 2.
Proof.
  destruct (ex91_fit (concat ex91_cells) exact_libs (or_introl eq_refl)) as [b [F B]].
  destruct (ex91_fit (map merged ex91_cells) exact_libs (or_intror eq_refl)) as [b' [F' B']].
  exists b, b'. split; [exact ex91_HC|]. split; [reflexivity|]. split; [reflexivity|]. split; [exact ex91_ok|]. split; [apply exact_libs_sound; lra|].
  split; [left; split; [reflexivity|]; intros j _; split; discriminate|].
  split; [split; [congruence|congruence]|]. split; [exact F|]. split; [exact F'|]. split; [|split; [|split; [exact I|]]].
  - split; [discriminate|]. intros j _. rewrite B, B'. rewrite Rminus_0_r, Rabs_R0. lra.
  - split; [exact I|]. split; [|intros; cbn; lra]. intros r [<-|[<-|[<-|[]]]]; simpl; lra.
  - unfold within_ss. cbn [hd ex91_cells merged r_y]. rewrite !lsumf_cons, !lsumf_nil. cbn [r_w r_y]. field.
Qed.
