(** Theorems C43, continued: what is fitted on which rows, the automatic grid, the public deviance tables,
    prediction from the refitted path. *)
From Verif Require Import M_CV S_CV L_Solver L_Std L_Path L_Path2 L_Path3 L_Pred L_CV P_Path P_Pred P_CV.
From Verif Require Import M_Solver S_Solver.
Local Open Scope R_scope.

Lemma with_rows_on u rows : on_rows u rows (with_rows u rows).
Proof.
  unfold on_rows, with_rows. cbn. split; [reflexivity|]. split; [reflexivity|]. split; [|repeat split].
  intros i Hi. split; [reflexivity|]. split; [reflexivity|]. split; [|reflexivity]. unfold normalise_weights.
  rewrite (nth_indep _ 0 (0 / lsum (map r_w rows))) by (rewrite !map_length; exact Hi).
  rewrite (map_nth (fun x => x / lsum (map r_w rows))). f_equal. change 0 with (r_w row0). rewrite map_nth. reflexivity.
Qed.

(** Every model of the search (fold or refit) is the regularisation path a plain regressor fits to the rows
    concerned, with their weights, offsets and responses, from the usual starting values. *)
Theorem C43_fits_on_rows : forall solve u se h a alphas rows fp, rows_path solve u se h a alphas rows = Some fp ->
  exists v g, on_rows u rows v /\ fit_path solve v se alphas (path_start v g a) = Some fp /\ fp_alphas fp = alphas /\
    (a = StartNone -> u_ic u = true ->
       guess_intercept (u_fam u) (u_link u) h
         (map (fun r => mkgrow (r_y r) (r_w r / lsum (map r_w rows)) (r_off r)) rows) = Some g).
Proof.
  intros solve u se h a alphas rows fp H. unfold rows_path in H. destruct (start_guess _ _ _) as [g|] eqn:EG; [|discriminate].
  exists (with_rows u rows), g. split; [apply with_rows_on|]. split; [exact H|]. split.
  - destruct (C42_chain _ _ _ _ _ _ H) as [_ [_ [E _]]]. exact E.
  - intros -> Eic. unfold start_guess in EG. change (u_ic (with_rows u rows)) with (u_ic u) in EG. rewrite Eic in EG.
    change (u_n (with_rows u rows)) with (length rows) in EG.
    change (u_fam (with_rows u rows)) with (u_fam u) in EG. change (u_link (with_rows u rows)) with (u_link u) in EG. rewrite <- EG. f_equal.
    rewrite (map_seq_nth _ rows row0). apply map_ext_in. intros i Hi. apply in_seq in Hi.
    destruct (with_rows_on u rows) as [_ [_ [Q _]]]. destruct (Q i ltac:(lia)) as [_ [-> [-> ->]]]. reflexivity.
Qed.
Print Assumptions C43_fits_on_rows.

Lemma cv_fit_inv solve u P1 P2 l1s alphas mi ra na se h a folds rows r :
  cv_fit solve u P1 P2 l1s alphas mi ra na se h a folds rows = Some r ->
  exists us ub, all_opt (map (at_l1 u P1 P2) l1s) = Some us /\
    cv_grid us se (norm_rows rows) alphas mi ra na = Some (cv_alphas r) /\
    all_opt (map (fun f => all_opt (map (fun ug => fold_deviances solve (fst ug) se h a (norm_rows rows) f (snd ug))
                                        (combine us (cv_alphas r)))) folds) = Some (cv_table r) /\
    nth_error us (cv_best_l1 r) = Some ub /\
    rows_path solve ub se h a (nth (cv_best_l1 r) (cv_alphas r) []) (norm_rows rows) = Some (cv_refit r) /\
    cv_coef r = nth (cv_best_alpha r) (fp_path (cv_refit r)) (0, fun _ => 0) /\ cv_l1_ratio r = nth (cv_best_l1 r) l1s 0.
Proof.
  intros H. unfold cv_fit in H.
  destruct (all_opt (map (at_l1 u P1 P2) l1s)) as [us|] eqn:EU; [|discriminate].
  destruct (cv_grid _ _ _ _ _ _ _) as [grid|] eqn:EG; [|discriminate].
  destruct (all_opt (map _ folds)) as [table|] eqn:ET; [|discriminate].
  destruct folds as [|f0 fs]; [discriminate|].
  destruct (np_argmin _) as [q|] eqn:EQ; [|discriminate].
  destruct (nth_error us _) as [ub|] eqn:EUb; [|discriminate].
  destruct (rows_path _ _ _ _ _ _ _) as [fp|] eqn:EFP; [|discriminate]. injection H as <-.
  exists us, ub. cbn [cv_alphas cv_table cv_best_l1 cv_best_alpha cv_refit cv_coef cv_l1_ratio]. auto 8.
Qed.
Lemma norm_on u rows : lsum (map r_w rows) <> 0 -> with_rows u (norm_rows rows) = with_rows u rows.
Proof. intros H. rewrite norm_rows_map. apply with_rows_norm, H. Qed.

(** Without alphas the grid of every l1_ratio is the automatic path a plain regressor with that l1_ratio would
    search on the full data (C39 says which alphas these are). *)
Theorem C43_auto_alphas : forall solve u P1 P2 l1s mi ra na se h a folds rows r, lsum (map r_w rows) <> 0 ->
  cv_fit solve u P1 P2 l1s None mi ra na se h a folds rows = Some r ->
  length (cv_alphas r) = length l1s /\
  forall i, (i < length l1s)%nat -> exists ui v, with_l1_ratio u P1 P2 (nth i l1s 0) ui /\ on_rows ui rows v /\
    path_alphas v se None mi ra na = Some (nth i (cv_alphas r) []).
Proof.
  intros solve u P1 P2 l1s mi ra na se h a folds rows r HW H.
  destruct (cv_fit_inv _ _ _ _ _ _ _ _ _ _ _ _ _ _ _ H) as [us [_ [EU [EG _]]]].
  pose proof (all_opt_length _ _ EU) as LU. rewrite map_length in LU. cbn [cv_grid] in EG.
  pose proof (all_opt_length _ _ EG) as LG. rewrite map_length in LG. split; [congruence|].
  intros i Hi. exists (nth i us u), (with_rows (nth i us u) rows).
  split; [apply at_l1_spec, (all_opt_nth _ l1s us i 0 u EU Hi)|]. split; [apply with_rows_on|].
  assert (Hi' : (i < length us)%nat) by (rewrite LU; exact Hi).
  pose proof (all_opt_nth _ us (cv_alphas r) i u [] EG Hi') as Q. cbn beta in Q.
  rewrite norm_on in Q by exact HW. exact Q.
Qed.
Print Assumptions C43_auto_alphas.

(** deviance_path_: entry (k, i, j) is the out-of-sample deviance, on the k-th test rows, of the j-th entry of
    the path fitted to the k-th training rows with the i-th l1_ratio. *)
Theorem C43_deviance_path : forall solve u P1 P2 l1s alphas mi ra na se h a folds rows r,
  folds_weighted rows folds ->
  cv_fit solve u P1 P2 l1s alphas mi ra na se h a folds rows = Some r ->
  length (cv_table r) = length folds /\
  forall k i d, (k < length folds)%nat -> (i < length l1s)%nat -> let f := nth k folds d in
    exists ui v g fp, with_l1_ratio u P1 P2 (nth i l1s 0) ui /\ on_rows ui (rows_at rows (fd_train f)) v /\
      fit_path solve v se (nth i (cv_alphas r) []) (path_start v g a) = Some fp /\
      nth i (nth k (cv_table r) []) [] = map (fun b => Some (heldout u (rows_at rows (fd_test f)) b)) (fp_path fp).
Proof.
  intros solve u P1 P2 l1s alphas mi ra na se h a folds rows r [HW HT] H.
  destruct (cv_fit_inv _ _ _ _ _ _ _ _ _ _ _ _ _ _ _ H) as [us [_ [EU [EG [ET _]]]]].
  pose proof (all_opt_length _ _ EU) as LU. rewrite map_length in LU.
  pose proof (all_opt_length _ _ ET) as LT. rewrite map_length in LT. split; [exact LT|].
  destruct (cv_grid_rect _ _ _ _ _ _ _ _ EG) as [LG _].
  intros k i d Hk Hi f.
  pose proof (all_opt_nth _ folds (cv_table r) k d [] ET Hk) as Q. cbn beta in Q. fold f in Q.
  assert (Hf : In f folds) by (apply nth_In; exact Hk).
  pose proof (all_opt_nth _ (combine us (cv_alphas r)) (nth k (cv_table r) []) i (u, []) [] Q) as Q2.
  rewrite combine_length, LG, Nat.min_id, LU in Q2. specialize (Q2 Hi). cbn beta in Q2.
  rewrite combine_nth in Q2 by congruence. cbn [fst snd] in Q2. unfold fold_deviances in Q2.
  rewrite !pick_norm in Q2. destruct (Reqb _ 0); [discriminate|]. rewrite rows_path_norm in Q2 by exact HW.
  change (pick rows (fd_train f)) with (rows_at rows (fd_train f)) in Q2.
  pose proof (all_opt_nth _ l1s us i 0 u EU Hi) as A1. cbn beta in A1.
  destruct (rows_path _ _ _ _ _ _ _) as [fp|] eqn:ER; [|discriminate]. injection Q2 as Q2.
  destruct (C43_fits_on_rows _ _ _ _ _ _ _ _ ER) as [v [g [HV [HF _]]]].
  exists (nth i us u), v, g, fp. split; [apply at_l1_spec, A1|]. split; [exact HV|]. split; [exact HF|].
  rewrite <- Q2. apply map_ext. intros b. rewrite test_deviance_norm by exact HW.
  rewrite test_deviance_heldout by (apply HT, Hf). f_equal.
  unfold at_l1 in A1. destruct (setup_p1 _ _ _ _); [|discriminate]. destruct (setup_p2 _ _ _ _); [|discriminate].
  injection A1 as <-. reflexivity.
Qed.
Print Assumptions C43_deviance_path.

(** train_deviance_path_: the weighted mean deviance of the same models on the rows they were fitted to, in
    the user's units although it is computed from the standardized ones. *)
Theorem C43_train_deviance : forall solve u se h a alphas rows fp,
  rows_path solve u se h a alphas rows = Some fp ->
  train_deviances solve u se h a alphas rows = Some (map (heldout u rows) (fp_path fp)).
Proof.
  intros solve u se h a alphas rows fp H. unfold rows_path in H. unfold train_deviances.
  destruct (start_guess _ _ _) as [g|]; [|discriminate]. unfold fit_path in H.
  destruct (solve_path _ _ _ _ _) as [sols|]; [|discriminate]. destruct (rev sols); [discriminate|]. injection H as <-.
  cbn [fp_path]. f_equal. rewrite map_map. apply map_ext. intros so. unfold heldout.
  change (u_fam (with_rows u rows)) with (u_fam u). f_equal. rewrite (map_seq_nth _ rows row0).
  change (u_n (with_rows u rows)) with (length rows). apply map_ext_in. intros i Hi. apply in_seq in Hi.
  destruct (with_rows_on u rows) as [_ [_ [Q _]]]. destruct (Q i ltac:(lia)) as [EX [EY [EW EO]]].
  rewrite EY, EW. f_equal. f_equal.
  pose proof (eta_std (with_rows u rows) se (so_coef so) i) as E. rewrite eta_of_eq in E.
  change (pb_off (std_problem (with_rows u rows) se) i) with (u_off (with_rows u rows) i) in E.
  rewrite E. unfold user_eta, eta_row. rewrite EO, EX. reflexivity.
Qed.
Print Assumptions C43_train_deviance.

Lemma search_user_ok u P1 P2 l1s l1 ui rows all v : cv_inputs_ok u P1 P2 l1s all -> In l1 l1s ->
  with_l1_ratio u P1 P2 l1 ui -> (forall r, In r rows -> In r all) -> 0 < lsum (map r_w rows) -> on_rows ui rows v -> user_ok v.
Proof.
  intros [HF [HR [_ [HL [H1 H2]]]]] Hl [Eu [E1 E2]] Hsub HW [EN [EP [ER [_ [EF [_ [EP1 [EP2 _]]]]]]]].
  destruct (HL l1 Hl) as [L0 L1].
  assert (Fu : u_fam ui = u_fam u) by (rewrite Eu; reflexivity). assert (Pu : u_p ui = u_p u) by (rewrite Eu; reflexivity).
  unfold user_ok. rewrite EF, Fu, EP, Pu, EN, EP1, EP2. split; [exact HF|]. split; [|split; [|split; [|split]]].
  - intros i Hi. destruct (ER i Hi) as [_ [-> _]]. apply HR, Hsub, nth_In, Hi.
  - intros i Hi. destruct (ER i Hi) as [_ [_ [-> _]]]. apply Rmult_le_pos; [apply HR, Hsub, nth_In, Hi|left; apply Rinv_0_lt_compat, HW].
  - intros j. rewrite E1. apply Rmult_le_pos; [exact L0|apply H1].
  - intros i j _ _. rewrite !E2. f_equal. unfold asked_P2. destruct P2 as [|l|nr nc M].
    + rewrite Nat.eqb_sym. reflexivity.
    + destruct (Nat.eqb_spec i j) as [-> |N]; [rewrite Nat.eqb_refl; reflexivity|]. destruct (Nat.eqb_spec j i); [congruence|reflexivity].
    + lra.
  - intros w. rewrite (rsum_ext _ _ (fun i => (1 - l1) * rsum (u_p u) (fun j => w i * asked_P2 P2 i j * w j))).
    + rewrite rsum_scal. apply Rmult_le_pos; [lra|apply H2].
    + intros i Hi. rewrite <- rsum_scal. apply rsum_ext. intros j Hj. rewrite E2. ring.
Qed.

(** With irls-cd every model of the search is feasible, and every entry of a path whose solve did not warn
    is a near-minimiser of the penalised objective of its own rows, l1_ratio and alpha. *)
Theorem C43_models_near_optimal : forall seed u P1 P2 l1s l1 ui se h a alphas all rows fp, cv_inputs_ok u P1 P2 l1s all ->
  In l1 l1s -> with_l1_ratio u P1 P2 l1 ui -> (forall r, In r rows -> In r all) -> 0 < lsum (map r_w rows) ->
  0 <= se_approx se -> seeds_ok seed -> convex_pair (u_fam u) (u_link u) -> se_stol se = None -> start_ok u a ->
  (forall x, In x alphas -> 0 <= x) ->
  rows_path (cd_path_solver seed) ui se h a alphas rows = Some fp ->
  exists v, on_rows ui rows v /\ length (fp_path fp) = length alphas /\ length (fp_warn fp) = length alphas /\
    forall k, (k < length alphas)%nat -> let b := nth k (fp_path fp) (0, fun _ => 0) in
      user_feasible u (snd b) /\ (u_ic u = false -> fst b = 0) /\
      (nth k (fp_warn fp) true = false -> user_near_optimal (with_alpha v (nth k alphas 0)) (se_gtol se) (fst b) (snd b)).
Proof.
  intros seed u P1 P2 l1s l1 ui se h a alphas all rows fp HI Hl HU Hsub HW HC Hs Hc Ht Ha Hal H.
  pose proof H as H0. unfold rows_path in H0. destruct (start_guess _ _ _) as [g|]; [|discriminate].
  pose proof (with_rows_on ui rows) as HV. set (v := with_rows ui rows) in *. exists v. split; [exact HV|].
  pose proof (search_user_ok _ _ _ _ _ _ _ _ _ HI Hl HU Hsub HW HV) as Hok.
  assert (LW : length (fp_path fp) = length alphas /\ length (fp_warn fp) = length alphas).
  { pose proof H0 as K. unfold fit_path in K. destruct (solve_path _ _ _ _ _) as [sols|] eqn:E; [|discriminate].
    destruct (rev sols); [discriminate|]. injection K as <-. cbn. rewrite !map_length.
    destruct (solve_path_chained _ _ _ _ _ _ E) as [L _]. split; exact L. }
  split; [apply LW|]. split; [apply LW|].
  destruct HU as [Eu _]. destruct HV as [_ [EP [_ [EI [EF [EL [_ [_ [EB1 [EB2 _]]]]]]]]]].
  assert (Fu : u_fam ui = u_fam u /\ u_link ui = u_link u /\ u_p ui = u_p u /\ u_ic ui = u_ic u /\ u_lb ui = u_lb u /\ u_ub ui = u_ub u).
  { rewrite Eu. cbn. repeat split. }
  destruct Fu as [F1 [F2 [F3 [F4 [F5 F6]]]]].
  assert (Hc' : convex_pair (u_fam v) (u_link v)) by (rewrite EF, EL, F1, F2; exact Hc).
  assert (Ha' : start_ok v a) by (unfold start_ok; rewrite EP, EB1, EB2, F3, F5, F6; exact Ha).
  intros k Hk b.
  destruct (C42_entries_near_optimal v se seed alphas g a fp Hok HC Hs Hc' Ht Ha' Hal H0 k Hk) as [A [B C]]. fold b in A, B, C.
  split; [|split; [|exact C]].
  - unfold user_feasible in *. rewrite EP, EB1, EB2, F3, F5, F6 in A. exact A.
  - rewrite EI, F4 in B. exact B.
Qed.
Print Assumptions C43_models_near_optimal.

(** Prediction from the fitted search: by default with intercept_/coef_; with a position (or an alpha of the
    searched grid) with that entry of the path refitted on the full data, one column per requested entry. *)
Theorem C43_predict : forall solve u P1 P2 l1s alphas mi ra na se h a folds rows r X o,
  lsum (map r_w rows) <> 0 ->
  cv_fit solve u P1 P2 l1s alphas mi ra na se h a folds rows = Some r -> offset_fits o (length X) ->
  let m := cv_estimator u r in
  let col b := map (fun i => inverse1 (u_link u) (eta_row (u_p u) (fst b) (snd b) (nth i X xrow0) (offset_at o i)))
                   (seq 0 (length X)) in
  exists ub v g, with_l1_ratio u P1 P2 (cv_l1_ratio r) ub /\ on_rows ub rows v /\
    let alphas_r := nth (cv_best_l1 r) (cv_alphas r) [] in
    exists fp, fit_path solve v se alphas_r (path_start v g a) = Some fp /\ length (fp_path fp) = length alphas_r /\
    predict m (u_p u) X o WNone SelNone SelNone = Some (PVec (col (cv_coef r))) /\
    nth_error (fp_path fp) (cv_best_alpha r) = Some (cv_coef r) /\
    (forall z b, entry_at (fp_path fp) z b -> predict m (u_p u) X o WNone (SelOne z) SelNone = Some (PVec (col b))) /\
    (forall x, predict m (u_p u) X o WNone SelNone (SelOne x) = None <->
       forall k, (k < length alphas_r)%nat -> 1 / 100000 * Rabs x < Rabs (nth k alphas_r 0 - x)) /\
    (forall i x b, first_nearest alphas_r x i -> Rabs (nth i alphas_r 0 - x) <= 1 / 100000 * Rabs x -> nth_error (fp_path fp) i = Some b ->
       predict m (u_p u) X o WNone SelNone (SelOne x) = Some (PVec (col b))).
Proof.
  intros solve u P1 P2 l1s alphas mi ra na se h a folds rows r X o HW H Ho m col.
  destruct (C43_refit _ _ _ _ _ _ _ _ _ _ _ _ _ _ _ HW H) as [_ [_ [_ [_ [_ [EA _]]]]]].
  destruct (cv_fit_inv _ _ _ _ _ _ _ _ _ _ _ _ _ _ _ H) as [us [ub [EU [_ [_ [EUb [EFP [EC EL]]]]]]]].
  rewrite norm_rows_map, rows_path_norm in EFP by exact HW.
  pose proof (all_opt_length _ _ EU) as LU. rewrite map_length in LU.
  assert (Hbi : (cv_best_l1 r < length l1s)%nat) by (rewrite <- LU; apply nth_error_Some; congruence).
  pose proof (all_opt_nth _ l1s us _ 0 u EU Hbi) as A1. cbn beta in A1. rewrite (nth_error_nth _ _ u EUb), <- EL in A1.
  destruct (C43_fits_on_rows _ _ _ _ _ _ _ _ EFP) as [v [g [HV [HF [HA _]]]]].
  pose proof (rows_path_length _ _ _ _ _ _ _ _ EFP) as LP.
  exists ub, v, g. split; [apply at_l1_spec, A1|]. split; [exact HV|]. cbv zeta.
  exists (cv_refit r). split; [exact HF|]. split; [exact LP|].
  assert (CV : m_search m = true \/ m_cv m = true) by (right; reflexivity).
  assert (COL : forall b, map (fun i => predicted m b (nth i X xrow0) (offset_at o i) 1) (seq 0 (length X)) = col b).
  { intros b. apply map_ext. intros i. unfold predicted. cbn [m cv_estimator m_link m_p]. ring. }
  assert (MP : length (m_path m) = length (m_alphas m)) by (cbn [m cv_estimator m_path m_alphas]; rewrite HA; exact LP).
  split; [|split; [|split; [|split]]].
  - rewrite <- COL. exact (C44_row_local m X o WNone SelNone (cv_coef r) Ho I (or_introl eq_refl) eq_refl).
  - rewrite EC. apply nth_error_nth'. rewrite LP. apply nth_error_Some. congruence.
  - intros z b Hb. rewrite <- COL. exact (proj1 (C41_by_index m X o z Ho CV) b Hb).
  - intros x. rewrite <- HA. exact (proj2 (C41_by_alpha m X o x Ho CV MP)).
  - intros i x b H1 H2 H3. rewrite <- COL. rewrite <- HA in H1, H2. exact (proj1 (C41_by_alpha m X o x Ho CV MP) i b H1 H2 H3).
Qed.
Print Assumptions C43_predict.

Example C43_search_nonvacuous : cv_inputs_ok ex43_u P1Identity P2Identity [1 / 2; 1] ex43_rows /\
  convex_pair (u_fam ex43_u) (u_link ex43_u) /\ start_ok ex43_u StartNone /\
  exists ui fp, with_l1_ratio ex43_u P1Identity P2Identity (1 / 2) ui /\
    0 < lsum (map r_w (rows_at ex43_rows (fd_train (nth 0 ex43_folds (mkFold [] []))))) /\
    rows_path (cd_path_solver (fun _ => 0%N)) ui ex43_se false StartNone [2; 1] (rows_at ex43_rows (fd_train (nth 0 ex43_folds (mkFold [] [])))) = Some fp.
Proof.
  split.
  { unfold cv_inputs_ok. split; [exact I|]. split; [|split; [cbn; lra|split; [intros l [<-|[<-|[]]]; lra|split; [intros; cbn; lra|]]]].
    - intros r [<-|[<-|[<-|[<-|[]]]]]; split; try exact I; cbn; lra.
    - intros v. cbn. pose proof (Rle_0_sqr (v 0%nat)) as Q. unfold Rsqr in Q. lra. }
  split; [exact I|]. split.
  { left. split; [reflexivity|]. intros j _. split; discriminate. }
  destruct (at_l1 ex43_u P1Identity P2Identity (1 / 2)) as [ui|] eqn:E; [|discriminate].
  exists ui. set (tr := rows_at ex43_rows (fd_train (nth 0 ex43_folds (mkFold [] [])))).
  assert (G : exists fp, rows_path (cd_path_solver (fun _ => 0%N)) ui ex43_se false StartNone [2; 1] tr = Some fp).
  { unfold rows_path. assert (EI : u_ic (with_rows ui tr) = false) by (cbn in E; injection E as <-; reflexivity).
    unfold start_guess. rewrite EI. apply C42_defined. discriminate. }
  destruct G as [fp G]. exists fp. split; [apply at_l1_spec, E|]. split; [cbn; lra|exact G].
Qed.
