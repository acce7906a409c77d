(** Theorems C79: the convergence diagnostics and n_iter_. *)
From Coq Require Import String List ZArith. Import ListNotations.
From Verif Require Import Base M_Std M_Valid M_Fit M_Diag S_Diag S_Std L_Dist3 L_Fit L_Mono P_LS L_KKT L_Solver L_Solver2 L_Solver3 L_Std P_Solver P_Std P_Fit L_Score.
From Verif Require Import M_Solver S_Solver.
Local Open Scope R_scope.

Lemma rows_history pb inner : forall n fuel (hist : nat -> state), (n <= fuel)%nat ->
  (forall k, (k < n)%nat -> irls_step pb inner (hist k) = Some (hist (S k)) /\ st_conv (hist k) = false /\
     (st_niter (hist k) < pb_max_iter pb)%Z) ->
  (st_conv (hist n) = true \/ (pb_max_iter pb <= st_niter (hist n))%Z) ->
  irls_rows pb inner fuel (hist 0%nat) = map (fun k => diag_of_state pb (hist k)) (seq 0 (S n)).
Proof.
  induction n as [|n IH]; intros fuel hist Hf Hs He.
  - destruct fuel as [|f]; [reflexivity|]. cbn [irls_rows seq map].
    replace (Z.ltb (st_niter (hist 0%nat)) (pb_max_iter pb) && negb (st_conv (hist 0%nat)))%bool with false; [reflexivity|].
    symmetry. destruct He as [-> | He]; [apply Bool.andb_false_r|].
    rewrite (proj2 (Z.ltb_ge _ _)) by lia. reflexivity.
  - destruct fuel as [|f]; [lia|]. cbn [irls_rows]. destruct (Hs 0%nat ltac:(lia)) as [E0 [C0 N0]].
    rewrite (proj2 (Z.ltb_lt _ _) N0), C0, E0. cbn [andb negb].
    rewrite (IH f (fun k => hist (S k))); [|lia|intros k Hk; apply Hs; lia|exact He].
    change (seq 0 (S (S n))) with (0%nat :: seq 1 (S n)). rewrite <- seq_shift. cbn [map]. rewrite map_map. reflexivity.
Qed.

Lemma mrows_history pb inner q P2b lf lm : forall fuel m mf, mono_loop pb inner q P2b lf lm fuel m = Some mf ->
  (forall m1 m2, mono_step pb inner q P2b lf lm m1 = Some m2 -> st_niter (ms_st m2) = (st_niter (ms_st m1) + 1)%Z) ->
  exists n, st_niter (ms_st mf) = (st_niter (ms_st m) + Z.of_nat n)%Z /\
    map dg_niter (mono_rows pb inner q P2b lf lm fuel m) = map (fun k => (st_niter (ms_st m) + Z.of_nat k)%Z) (seq 0 (S n)) /\
    last (map dg_conv (mono_rows pb inner q P2b lf lm fuel m)) 0 = st_norm (ms_st mf) /\
    (forall d, last (mono_rows pb inner q P2b lf lm fuel m) d = diag_of_state pb (ms_st mf)).
Proof.
  induction fuel as [|f IH]; intros m mf E HN.
  - injection E as <-. exists 0%nat. cbn [mono_rows map seq last]. repeat split; try (f_equal; lia). cbn. f_equal. lia.
  - cbn [mono_loop] in E. cbn [mono_rows].
    destruct (Z.ltb (st_niter (ms_st m)) (pb_max_iter pb) && negb (st_conv (ms_st m)))%bool.
    + destruct (mono_step pb inner q P2b lf lm m) as [m'|] eqn:ES; [|discriminate].
      destruct (IH m' mf E HN) as [n [A [B [C D]]]]. pose proof (HN _ _ ES) as N. exists (S n).
      assert (NE : mono_rows pb inner q P2b lf lm f m' <> []) by (destruct f; discriminate).
      split; [rewrite A, N; lia|]. split.
      { cbn [map]. rewrite B, N. change (seq 0 (S (S n))) with (0%nat :: seq 1 (S n)). rewrite <- seq_shift, map_cons, map_map.
        f_equal; [unfold diag_of_state; cbn [dg_niter]; lia|]. apply map_ext. intros k. lia. }
      split.
      { cbn [map]. rewrite <- C. destruct (mono_rows pb inner q P2b lf lm f m'); [congruence|reflexivity]. }
      intros d. rewrite <- (D d). destruct (mono_rows pb inner q P2b lf lm f m'); [congruence|reflexivity].
    + injection E as <-. exists 0%nat. cbn [map seq last]. repeat split; try (f_equal; lia). cbn. f_equal. lia.
Qed.

Lemma run_rows pb inner P2 c sf w : irls_solver pb inner P2 c = Some (sf, w) ->
  exists n hist, run_history pb inner P2 c n hist /\ hist n = sf /\ st_niter sf = Z.of_nat n /\
    (Z.of_nat n <= Z.max 0 (pb_max_iter pb))%Z /\
    (forall k, (k <= n)%nat -> st_niter (hist k) = Z.of_nat k) /\
    (forall k, (k < n)%nat -> ~ stop_test pb (hist k)) /\
    (w = false <-> stop_test pb sf) /\ (w = true -> Z.of_nat n = Z.max 0 (pb_max_iter pb)) /\
    irls_rows pb inner (S (Z.to_nat (pb_max_iter pb))) (init_state pb P2 false c)
      = map (fun k => diag_of_state pb (hist k)) (seq 0 (S n)).
Proof.
  intros E. pose proof E as E'. unfold irls_solver in E.
  destruct (irls_loop _ _ _ _) as [s|] eqn:EL; [|discriminate]. injection E as -> <-.
  destruct (init_count pb P2 false c) as [I1 I2].
  destruct (loop_history pb inner _ _ _ EL ltac:(rewrite I1; lia)) as [n [hist [H0 [Hn [Hs [Hk [Hd Hc]]]]]]].
  assert (RH : run_history pb inner P2 c n hist) by (split; [exact H0|intros k Hk'; apply Hs; exact Hk']).
  destruct (C27_iteration_accounting _ _ _ _ _ _ E') as [n' [hist' [[H0' Hs'] [Hn' [N1 [N2 [N3 [N4 [N5 N6]]]]]]]]].
  assert (NI : st_niter sf = Z.of_nat n) by (rewrite <- Hn, Hk by lia; rewrite I1; lia).
  assert (n' = n) by lia. subst n'.
  assert (EH : forall k, (k <= n)%nat -> hist' k = hist k).
  { induction k as [|k IH]; intros Hk'; [rewrite H0, H0'; reflexivity|].
    pose proof (Hs' k ltac:(lia)) as Q. rewrite (IH ltac:(lia)) in Q. destruct (Hs k ltac:(lia)) as [Q' _]. congruence. }
  exists n, hist. split; [exact RH|]. split; [exact Hn|]. split; [exact NI|]. split; [exact N2|].
  split; [intros k Hk'; rewrite Hk by lia; rewrite I1; lia|].
  split; [intros k Hk'; rewrite <- EH by lia; apply N4; exact Hk'|].
  split; [exact N5|]. split; [exact N6|].
  rewrite <- H0. apply rows_history; [lia|exact Hs|rewrite Hn; exact Hc].
Qed.

Lemma diag_stop pb s : (st_norm s, st_max s) = norm_min_subgrad (seq 0 (nc pb)) (st_coef s) (fun k => - st_score s k)
     (pb_P1 pb) (pb_ic pb) (pb_lb pb) (pb_ub pb) ->
  (stop_test pb s <-> dg_conv (diag_of_state pb s) < pb_gtol pb \/
     exists t, pb_stol pb = Some t /\ dg_step (diag_of_state pb s) < t).
Proof. intros E. unfold stop_test. rewrite <- E. reflexivity. Qed.

(** the standardized intercept in terms of the result *)
Lemma first_coef u v : u_ic u = true ->
  v 0%nat = fst (user_result u v) + rsum (u_p u) (fun j => u_means u j * snd (user_result u v) j).
Proof.
  intros E. unfold user_result, unpack, unstandardize. rewrite E. cbn [fst snd].
  replace (rsum (u_p u) (fun j => u_means u j * one_over (u_stds u j) * v (S j)))
    with (rsum (u_p u) (fun j => u_means u j * (v (S j) * one_over (u_stds u j)))); [ring|].
  apply rsum_ext. intros j _. ring.
Qed.

Definition inner_for (s : solver) (pb : problem) (l : libs) : inner_solver :=
  match s with SCd => cd_solver pb (lib_seed l) | _ => ls_solver pb (lib_pos l) end.

Lemma fit_rows s u se q l guess a b0 b w1 w2 : s = SLs \/ s = SCd ->
  fit_with s u se q l guess a = Some (b0, b, w1, w2) ->
  let pb := std_problem u (solve_settings s u se) in
  let start := get_start_coef (u_p u) (u_ic u) (u_means u) (u_stds u) guess (u_lb u) (u_ub u) a in
  exists sf n hist, irls_solver pb (inner_for s pb l) (std_problem_P2 u) start = Some (sf, w1) /\
    user_result u (st_coef sf) = (b0, b) /\ w2 = Nat.ltb 0 (st_lswarn sf) /\
    run_history pb (inner_for s pb l) (std_problem_P2 u) start n hist /\ hist n = sf /\
    (Z.of_nat n <= Z.max 0 (pb_max_iter pb))%Z /\
    (forall k, (k <= n)%nat -> st_niter (hist k) = Z.of_nat k) /\
    (forall k, (k < n)%nat -> ~ stop_test pb (hist k)) /\
    (w1 = false <-> stop_test pb sf) /\ (w1 = true -> Z.of_nat n = Z.max 0 (pb_max_iter pb)) /\
    solve_diagnostics s u se q l start
      = Some (Z.of_nat n, Some (map (fun k => diag_of_state pb (hist k)) (seq 0 (S n)))).
Proof.
  intros Hs E pb start. unfold fit_with in E. fold start in E.
  destruct (solve s u se q l start) as [[[v x1] x2]|] eqn:ES; [|discriminate]. injection E as E -> ->.
  assert (K : exists sf, irls_solver pb (inner_for s pb l) (std_problem_P2 u) start = Some (sf, w1) /\ st_coef sf = v /\ w2 = Nat.ltb 0 (st_lswarn sf)).
  { unfold solve in ES. cbv zeta in ES. fold pb in ES.
    destruct Hs as [-> | ->]; cbn [inner_for] in *; destruct (irls_solver _ _ _ _) as [[sf w]|]; try discriminate;
      injection ES as <- -> <-; exists sf; auto. }
  destruct K as [sf [EI [Ev Ew]]]. rewrite <- Ev in E.
  destruct (run_rows _ _ _ _ _ _ EI) as [n [hist [RH [Hn [N1 [N2 [N3 [N4 [N5 [N6 N7]]]]]]]]]].
  exists sf, n, hist. repeat (split; [first [assumption|reflexivity]|]).
  unfold solve_diagnostics. rewrite ES. cbv zeta. fold pb.
  destruct Hs as [-> | ->]; cbn [inner_for] in *; rewrite EI, N1, N7; reflexivity.
Qed.

Lemma limit_eq s u se : s = SLs \/ s = SCd -> Z.max 0 (pb_max_iter (std_problem u (solve_settings s u se))) = iteration_limit u se.
Proof.
  intros Hs. unfold solve_settings, iteration_limit, normal_identity. cbn [std_problem pb_max_iter se_max_iter].
  destruct Hs as [-> | ->]; destruct (u_fam u); try reflexivity; destruct (u_link u); reflexivity.
Qed.

Lemma nth_rows pb (hist : nat -> state) n k : (k <= n)%nat ->
  nth k (map (fun k => diag_of_state pb (hist k)) (seq 0 (S n))) no_row = diag_of_state pb (hist k).
Proof.
  intros Hk. rewrite (nth_indep _ no_row (diag_of_state pb (hist 0%nat))) by (rewrite map_length, seq_length; lia).
  rewrite map_nth with (f := fun k => diag_of_state pb (hist k)). rewrite seq_nth by lia. reflexivity.
Qed.

(** C79: after a fit with irls-ls or irls-cd that returns intercept b0 and coefficients b, the diagnostics have
    n_iter_ + 1 rows numbered 0, ..., n_iter_, at most the iteration limit; row k describes the k-th iterate: its
    objective_fct is the documented objective of the iterate in the user's units up to a constant of the data (the
    same for all rows and all runs), its first_coef is the intercept for centred columns; the last iterate is the
    result.  No ConvergenceWarning is raised exactly if the last row passes the stopping test; no earlier row passes
    it; and if it is raised all allowed iterations were made. *)
Theorem C79_rows : forall u, user_ok u -> exists K, forall s se q l guess a b0 b w1 w2,
  0 <= se_approx se -> s = SLs \/ s = SCd -> fit_with s u se q l guess a = Some (b0, b, w1, w2) ->
  let start := get_start_coef (u_p u) (u_ic u) (u_means u) (u_stds u) guess (u_lb u) (u_ub u) a in
  exists n rows (it : nat -> R * (nat -> R)),
    solve_diagnostics s u se q l start = Some (Z.of_nat n, Some rows) /\
    length rows = S n /\ (Z.of_nat n <= iteration_limit u se)%Z /\ it 0%nat = user_result u start /\ it n = (b0, b) /\
    (forall k, (k <= n)%nat ->
       dg_niter (nth k rows no_row) = Z.of_nat k /\
       dg_obj (nth k rows no_row) = user_obj u (pen_scale u) (fst (it k)) (snd (it k)) + K /\
       (u_ic u = true -> dg_first (nth k rows no_row) = fst (it k) + rsum (u_p u) (fun j => u_means u j * snd (it k) j))) /\
    (forall k, (k < n)%nat -> ~ row_passes se (nth k rows no_row)) /\
    (w1 = false <-> row_passes se (nth n rows no_row)) /\
    (w1 = true -> Z.of_nat n = iteration_limit u se).
Proof.
  intros u Hok.
  exists (/ 2 * rsum (u_n u) (fun i => emd_k (u_fam u) (u_link u) (u_y u i) (u_w u i))).
  intros s se q l guess a b0 b w1 w2 HC Hs E start.
  destruct (fit_rows _ _ _ _ _ _ _ _ _ _ _ Hs E) as [sf [n [hist [EI [ER [EW [[H0 RH] [Hn [N2 [N3 [N4 [N5 [N6 N7]]]]]]]]]]]]].
  cbv zeta in *. fold start in EI, H0, N7. set (pb := std_problem u (solve_settings s u se)) in *.
  assert (RE : forall k, (k <= n)%nat -> coh pb (std_problem_P2 u) (hist k)).
  { intros k Hk. apply inv_coh. eapply reach_inv; [apply std_ok, Hok|exact HC|]. eapply (hist_reach _ _ _ _ _ _ H0 RH). exact Hk. }
  assert (SP : forall k, (k <= n)%nat -> (stop_test pb (hist k) <-> row_passes se (diag_of_state pb (hist k)))).
  { intros k Hk. rewrite (diag_stop pb (hist k) (coh_norm _ _ _ (RE k Hk))). reflexivity. }
  assert (LE : Z.max 0 (pb_max_iter pb) = iteration_limit u se) by (apply limit_eq; exact Hs). rewrite LE in N2, N6.
  exists n, (map (fun k => diag_of_state pb (hist k)) (seq 0 (S n))), (fun k => user_result u (st_coef (hist k))).
  split; [exact N7|]. split; [rewrite map_length, seq_length; reflexivity|]. split; [exact N2|].
  split; [rewrite H0, init_coef; reflexivity|].
  split; [rewrite Hn; exact ER|]. split.
  { intros k Hk. rewrite nth_rows by exact Hk. split; [apply N3; exact Hk|]. split.
    - unfold diag_of_state. cbn [dg_obj]. rewrite (coh_obj _ _ _ (RE k Hk)). unfold pb. rewrite obj_std. reflexivity.
    - intros IC. unfold diag_of_state. cbn [dg_first]. apply first_coef. exact IC. }
  split; [intros k Hk; rewrite nth_rows by lia; rewrite <- SP by lia; apply N4; exact Hk|].
  split; [|exact N6]. rewrite nth_rows by lia. rewrite <- SP by lia. rewrite Hn. exact N5.
Qed.
Print Assumptions C79_rows.

Lemma warn_grows pb inner (hist : nat -> state) n : (forall k, (k < n)%nat -> irls_step pb inner (hist k) = Some (hist (S k))) ->
  forall k, (k <= n)%nat -> (st_lswarn (hist k) <= st_lswarn (hist n))%nat.
Proof.
  intros H k Hk. induction Hk as [|m Hk IH]; [lia|].
  destruct (irls_step_facts _ _ _ _ (H m ltac:(lia))) as [d [cyc [_ F]]].
  destruct (sf_ls _ _ _ _ _ _ F) as [_ [_ [_ [_ [_ [_ Q]]]]]].
  assert (st_lswarn (hist k) <= st_lswarn (hist m))%nat by (apply IH; intros; apply H; lia). lia.
Qed.

(** C79: with irls-cd and a pair of family and link whose weights are positive, if no line search warned the
    objective_fct column decreases up to relative machine precision. *)
Theorem C79_objective_descends : forall u se q l guess a b0 b w1 n rows, user_ok u -> 0 <= se_approx se ->
  safe_pair (u_fam u) (u_link u) -> seeds_ok (lib_seed l) -> start_ok u a ->
  fit_with SCd u se q l guess a = Some (b0, b, w1, false) ->
  solve_diagnostics SCd u se q l (get_start_coef (u_p u) (u_ic u) (u_means u) (u_stds u) guess (u_lb u) (u_ub u) a)
    = Some (n, Some rows) ->
  forall k, (S k < length rows)%nat ->
    dg_obj (nth (S k) rows no_row) <= dg_obj (nth k rows no_row) + Rabs (dg_obj (nth k rows no_row) * se_eps se).
Proof.
  intros u se q l guess a b0 b w1 n rows Hok HC Hsafe Hseed Hst E ED k Hk.
  destruct (fit_rows _ _ _ _ _ _ _ _ _ _ _ (or_intror eq_refl) E) as [sf [n' [hist [EI [ER [EW [[H0 RH] [Hn [N2 [N3 [N4 [N5 [N6 N7]]]]]]]]]]]]].
  cbv zeta in *. rewrite ED in N7. assert (RW : rows = map (fun k => diag_of_state (std_problem u (solve_settings SCd u se)) (hist k)) (seq 0 (S n'))) by congruence. clear N7 ED. subst rows. rewrite map_length, seq_length in Hk.
  set (pb := std_problem u (solve_settings SCd u se)) in *.
  rewrite !nth_rows by lia. unfold diag_of_state. cbn [dg_obj].
  pose proof (hist_reach _ _ _ _ _ _ H0 RH) as RE.
  assert (Pok : pb_ok pb) by (apply std_ok, Hok).
  destruct (C28_objective_descends pb (lib_seed l) (std_problem_P2 u) (get_start_coef (u_p u) (u_ic u) (u_means u) (u_stds u) guess (u_lb u) (u_ub u) a) (hist k) (hist (S k)) Pok HC) as [L|L].
  - apply Hok.
  - exact Hsafe.
  - apply std_P2_sym, Hok.
  - apply std_P2_psd, Hok.
  - exact Hseed.
  - apply start_in_box, Hst.
  - apply RE. lia.
  - apply RH. lia.
  - exfalso. pose proof (warn_grows pb _ hist n' RH (S k) ltac:(lia)) as G. rewrite Hn in G.
    symmetry in EW. apply Nat.ltb_ge in EW. lia.
  - pose proof (inv_coh _ _ _ (reach_inv _ _ _ _ _ Pok HC (RE k ltac:(lia)))) as C0.
    pose proof (inv_coh _ _ _ (reach_inv _ _ _ _ _ Pok HC (RE (S k) ltac:(lia)))) as C1.
    rewrite (coh_obj _ _ _ C0) in *. rewrite (coh_obj _ _ _ C1). change (pb_eps pb) with (se_eps se) in L. lra.
Qed.
Print Assumptions C79_objective_descends.

(** C79: n_cycles never decreases (irls-ls: it is the row number), and every row but the first reports a line search
    with at most 19 halvings. *)
Theorem C79_counts : forall s u se q l guess a b0 b w1 w2 n rows, s = SLs \/ s = SCd -> user_ok u ->
  0 <= se_approx se ->
  fit_with s u se q l guess a = Some (b0, b, w1, w2) ->
  solve_diagnostics s u se q l (get_start_coef (u_p u) (u_ic u) (u_means u) (u_stds u) guess (u_lb u) (u_ub u) a)
    = Some (n, Some rows) ->
  dg_ncycles (nth 0 rows no_row) = 0%nat /\ dg_nls (nth 0 rows no_row) = None /\
  forall k, (S k < length rows)%nat ->
    (dg_ncycles (nth k rows no_row) <= dg_ncycles (nth (S k) rows no_row))%nat /\
    (s = SLs -> dg_ncycles (nth (S k) rows no_row) = S k) /\
    exists j, dg_nls (nth (S k) rows no_row) = Some j /\ (j <= 19)%nat.
Proof.
  intros s u se q l guess a b0 b w1 w2 n rows Hs Hok HC E ED.
  destruct (fit_rows _ _ _ _ _ _ _ _ _ _ _ Hs E) as [sf [n' [hist [EI [ER [EW [[H0 RH] [Hn [N2 [N3 [N4 [N5 [N6 N7]]]]]]]]]]]]].
  cbv zeta in *. rewrite ED in N7. assert (RW : rows = map (fun k => diag_of_state (std_problem u (solve_settings s u se)) (hist k)) (seq 0 (S n'))) by congruence. clear N7 ED. subst rows. rewrite map_length, seq_length.
  set (pb := std_problem u (solve_settings s u se)) in *.
  assert (Z0 : st_ncycles (hist 0%nat) = 0%nat).
  { rewrite H0. unfold init_state. destruct (eta_mu_objective _ _ _ _ _ _) as [[[? ?] ?] ?].
    destruct (update_quadratic _ _ _ _) as [[? ?] ?]. destruct (check_convergence _ _ _ _) as [[[? ?] ?] ?]. reflexivity. }
  rewrite nth_rows by lia. split; [exact Z0|]. split.
  { unfold diag_of_state. cbn [dg_nls]. rewrite N3 by lia. reflexivity. }
  assert (CY : forall k, (k < n')%nat -> exists cyc, st_ncycles (hist (S k)) = (st_ncycles (hist k) + cyc)%nat /\ (s = SLs -> cyc = 1%nat)).
  { intros k Hk. destruct (irls_step_facts _ _ _ _ (RH k Hk)) as [d [cyc [Ed F]]]. exists cyc. split; [apply (sf_ncyc _ _ _ _ _ _ F)|].
    intros ->. cbn [inner_for] in Ed. unfold ls_solver in Ed. destruct (pb_has_bounds pb); [discriminate|].
    destruct (Nat.eqb _ _); [|discriminate]. destruct (lib_pos l _ _ _); [|discriminate]. injection Ed as _ <-. reflexivity. }
  intros k Hk. rewrite !nth_rows by lia. split; [|split].
  - unfold diag_of_state. cbn [dg_ncycles]. destruct (CY k ltac:(lia)) as [cyc [-> _]]. lia.
  - intros Hls. unfold diag_of_state. cbn [dg_ncycles].
    assert (G : forall m, (m <= n')%nat -> st_ncycles (hist m) = m).
    { induction m as [|m IH]; intros Hm; [exact Z0|]. destruct (CY m ltac:(lia)) as [cyc [Q1 Q2]]. rewrite (Q2 Hls) in Q1.
      rewrite Q1, IH by lia. lia. }
    apply G. lia.
  - unfold diag_of_state. cbn [dg_nls]. rewrite N3 by lia. exists (st_nls (hist (S k))). split.
    + destruct (Z.eqb_spec (Z.of_nat (S k)) 0); [lia|reflexivity].
    + destruct (irls_step_facts _ _ _ _ (RH k ltac:(lia))) as [d [cyc [Ed F]]].
      destruct (sf_ls _ _ _ _ _ _ F) as [_ [_ [_ [_ [_ [Q _]]]]]]. rewrite Q.
      pose proof (hist_reach _ _ _ _ _ _ H0 RH) as RE.
      pose proof (inv_coh _ _ _ (reach_inv pb _ _ _ _ (std_ok u _ Hok) HC (RE k ltac:(lia)))) as C0.
      destruct (line_search_spec pb (st_P2 (hist k)) (st_coef (hist k)) (st_score (hist k)) (st_eta (hist k)) (st_obj (hist k)) d
        (std_ok u _ Hok) (coh_eta _ _ _ C0)) as [_ [L _]]. exact L.
Qed.
Print Assumptions C79_counts.

(** C79: what report_diagnostics prints after such a fit: the table indexed by the iterations 0, ..., n_iter_ with the
    intercept column as above (NaN without an intercept).  Before a fit, or after a fit with another solver, a message. *)
Theorem C79_report : forall s u se q l guess a b0 b w1 w2, user_ok u -> 0 <= se_approx se -> s = SLs \/ s = SCd ->
  fit_with s u se q l guess a = Some (b0, b, w1, w2) ->
  let start := get_start_coef (u_p u) (u_ic u) (u_means u) (u_stds u) guess (u_lb u) (u_ub u) a in
  exists n rows (it : nat -> R * (nat -> R)),
    solve_diagnostics s u se q l start = Some (Z.of_nat n, Some rows) /\ it n = (b0, b) /\
    get_formatted_diagnostics (u_ic u) false None (Some (Some rows)) =
      Table (map Z.of_nat (seq 0 (S n)))
        [("convergence"%string, map (fun k => Some (dg_conv (nth k rows no_row))) (seq 0 (S n)));
         ("n_cycles"%string, map (fun k => Some (INR (dg_ncycles (nth k rows no_row)))) (seq 0 (S n)));
         ("intercept"%string, map (fun k => if u_ic u then Some (fst (it k) + rsum (u_p u) (fun j => u_means u j * snd (it k) j)) else None) (seq 0 (S n)))].
Proof.
  intros s u se q l guess a b0 b w1 w2 Hok HC Hs E start.
  destruct (C79_rows u Hok) as [K H].
  destruct (H s se q l guess a b0 b w1 w2 HC Hs E) as [n [rows [it [A [B [C [D [D' [F _]]]]]]]]]. fold start in A.
  exists n, rows, it. split; [exact A|]. split; [exact D'|].
  assert (MR : forall (T : Type) (f : diag_row -> T), map f rows = map (fun k => f (nth k rows no_row)) (seq 0 (S n))).
  { intros T f. rewrite <- B. clear. induction rows as [|r rows IH]; [reflexivity|].
    cbn [length seq]. rewrite <- seq_shift. cbn [map nth]. rewrite map_map, IH. reflexivity. }
  unfold get_formatted_diagnostics. cbn [keep_columns String.eqb Ascii.eqb Bool.eqb column_cells].
  rewrite !(MR _ _). f_equal.
  - apply map_ext_in. intros k Hk. apply in_seq in Hk. apply F. lia.
  - f_equal. f_equal. f_equal. f_equal. apply map_ext_in. intros k Hk. apply in_seq in Hk.
    destruct (u_ic u) eqn:IC; [|reflexivity]. f_equal. apply F; [lia|reflexivity].
Qed.
Print Assumptions C79_report.

(** C79: the full report: every column is the quantity of its name, row by row; the number of line searches is missing in the row
    of the start; custom columns are served in the order asked for, and a name that is not a column is an error. *)
Theorem C79_full_report : forall ic rows,
  get_formatted_diagnostics ic true None (Some (Some rows)) =
    Table (map dg_niter rows)
      [("convergence"%string, map (fun r => Some (dg_conv r)) rows);
       ("objective_fct"%string, map (fun r => Some (dg_obj r)) rows);
       ("L1(coef)"%string, map (fun r => Some (dg_l1 r)) rows);
       ("L2(coef)"%string, map (fun r => Some (dg_l2 r)) rows);
       ("L2(step)"%string, map (fun r => Some (dg_step r)) rows);
       ("first_coef"%string, map (fun r => Some (dg_first r)) rows);
       ("n_active_cols"%string, map (fun r => Some (INR (dg_ncols r))) rows);
       ("n_cycles"%string, map (fun r => Some (INR (dg_ncycles r))) rows);
       ("n_line_search"%string, map (fun r => match dg_nls r with Some n => Some (INR n) | None => None end) rows);
       ("intercept"%string, map (fun r => if ic then Some (dg_first r) else None) rows)] /\
  forall full names ix cols,
    (get_formatted_diagnostics ic full (Some names) (Some (Some rows)) = Table ix cols ->
       ix = map dg_niter rows /\ map fst cols = names /\
       forall c, In c cols -> exists fcols, get_formatted_diagnostics ic true None (Some (Some rows)) = Table ix fcols /\ In c fcols) /\
    (get_formatted_diagnostics ic full (Some names) (Some (Some rows)) = NoColumn <->
       exists n, In n names /\ n <> "intercept"%string /\ ~ In n base_columns).
Proof.
  intros ic rows. assert (FT : get_formatted_diagnostics ic true None (Some (Some rows)) = Table (map dg_niter rows) _) by reflexivity.
  split; [exact FT|].
  set (cell n := if String.eqb n "intercept" then Some (map (fun x => if ic then Some (dg_first x) else None) rows) else column_cells n rows).
  assert (CI : forall n, n <> "intercept"%string /\ ~ In n base_columns -> cell n = None).
  { intros n [N1 N2]. unfold cell. rewrite (proj2 (String.eqb_neq _ _) N1). unfold column_cells.
    repeat match goal with |- context [String.eqb n ?c] => let E := fresh in destruct (String.eqb n c) eqn:E;
      [apply String.eqb_eq in E; exfalso; apply N2; subst n; cbn; tauto | clear E] end. reflexivity. }
  assert (CS : forall n, n = "intercept"%string \/ In n base_columns -> exists c, cell n = Some c).
  { intros n [->|H]; [eexists; reflexivity|]. cbn in H. repeat destruct H as [<-|H]; try (eexists; reflexivity). destruct H. }
  assert (CD : forall n, (n = "intercept"%string \/ In n base_columns) \/ (n <> "intercept"%string /\ ~ In n base_columns)).
  { intros n. destruct (string_dec n "intercept"); [tauto|]. destruct (in_dec string_dec n base_columns); tauto. }
  assert (KS : forall names l, keep_columns ic rows names = Some l -> map fst l = names /\ forall c, In c l -> cell (fst c) = Some (snd c)).
  { induction names as [|n r IH]; intros l E; cbn [keep_columns] in E; [injection E as <-; split; [reflexivity | intros c []]|].
    fold (cell n) in E. destruct (cell n) as [c0|] eqn:E0; [|discriminate]. destruct (keep_columns ic rows r) as [l'|]; [|discriminate]. injection E as <-.
    destruct (IH l' eq_refl) as [A B]. split; [cbn; f_equal; exact A|]. intros c [<-|H]; [exact E0 | exact (B c H)]. }
  assert (KN : forall names, keep_columns ic rows names = None <-> exists n, In n names /\ n <> "intercept"%string /\ ~ In n base_columns).
  { induction names as [|n r IH]; cbn [keep_columns]; [split; [discriminate | intros [n [[] _]]]|]. fold (cell n).
    destruct (CD n) as [K|K].
    - destruct (CS n K) as [c ->]. destruct (keep_columns ic rows r) as [l'|].
      + split; [discriminate|]. intros [m [[<-|Hm] Hn]]; [tauto|]. assert (Some l' = None) by (apply IH; exists m; tauto). discriminate.
      + split; [|reflexivity]. intros _. destruct (proj1 IH eq_refl) as [m Hm]. exists m. cbn. tauto.
    - rewrite (CI n K). split; [|reflexivity]. intros _. exists n. cbn. tauto. }
  intros full names ix cols. cbn [get_formatted_diagnostics]. destruct (keep_columns ic rows names) as [l|] eqn:E.
  - split.
    + intros Q. injection Q as <- <-. destruct (KS names l E) as [A B]. split; [reflexivity|]. split; [exact A|].
      intros [n c] Hc. eexists. split; [exact FT|]. specialize (B _ Hc). cbn [fst snd] in B.
      destruct (CD n) as [[->|H]|H]; [| |rewrite (CI n H) in B; discriminate].
      * injection B as <-. cbn. tauto.
      * cbn in H. repeat (destruct H as [<-|H]; [injection B as <-; cbn; tauto|]). destruct H.
    + split; [discriminate|]. intros X. apply KN in X. congruence.
  - split; [discriminate|]. split; [|reflexivity]. intros _. apply KN. exact E.
Qed.
Print Assumptions C79_full_report.

Theorem C79_messages : forall ic full custom,
  get_formatted_diagnostics ic full custom None = Message "Model has not been fit, so no diagnostics exist." /\
  forall s u se q l start n d, s = SClosed \/ s = SLbfgs \/ s = STrust -> solve_diagnostics s u se q l start = Some (n, d) ->
    get_formatted_diagnostics ic full custom (Some d) = Message "solver does not report diagnostics".
Proof.
  intros ic full custom. split; [reflexivity|]. intros s u se q l start n d Hs E. unfold solve_diagnostics in E.
  destruct (solve s u se q l start); [|discriminate].
  destruct Hs as [-> |[-> | ->]]; injection E as _ <-; reflexivity.
Qed.
Print Assumptions C79_messages.

(** C79 for irls-ls-monotonic: the rows are numbered 0, ..., n_iter_, the last one describes the result. *)
Theorem C79_monotonic : forall u se q l guess a b0 b w1 w2,
  fit_with SMono u se (Some q) l guess a = Some (b0, b, w1, w2) ->
  let start := get_start_coef (u_p u) (u_ic u) (u_means u) (u_stds u) guess (u_lb u) (u_ub u) a in
  exists n rows, solve_diagnostics SMono u se (Some q) l start = Some (Z.of_nat n, Some rows) /\
    map dg_niter rows = map Z.of_nat (seq 0 (S n)) /\
    (u_ic u = true -> dg_first (last rows no_row) = b0 + rsum (u_p u) (fun j => u_means u j * b j)) /\
    (w1 = false -> row_passes se (last rows no_row)).
Proof.
  intros u se q l guess a b0 b w1 w2 E start. unfold fit_with in E. fold start in E.
  destruct (solve SMono u se (Some q) l start) as [[[v x1] x2]|] eqn:ES; [|discriminate]. injection E as E -> ->.
  unfold solve_diagnostics. rewrite ES. unfold solve in ES. cbv zeta in *. cbn [option_map] in *.
  set (pb := std_problem u (solve_settings SMono u se)) in *.
  destruct (monotonic_irls_solver _ _ _ _ _ _ _ _) as [[[m y1] y2]|] eqn:EM; [|discriminate]. injection ES as <- <- _.
  unfold monotonic_irls_solver in EM. destruct (existsb _ _) eqn:EB; [discriminate|].
  destruct (update_constraint_penalty _ _ _ _ _ _) as [[P2 base] ch] eqn:EP.
  destruct (mono_loop _ _ _ _ _ _ _ _) as [m'|] eqn:EL; [|discriminate]. injection EM as -> <- <-.
  destruct (mrows_history _ _ _ _ _ _ _ _ _ EL) as [n [A [B [_ D]]]].
  { intros m1 m2 EE. apply (mf_niter _ _ _ _ _ _ _ (mono_step_facts _ _ _ _ _ _ _ _ EE)). }
  destruct (init_count pb P2 true start) as [I1 _]. cbn [ms_st] in A, B. rewrite I1 in *.
  eexists n, _. split; [do 3 f_equal; lia|]. split; [rewrite B; apply map_ext; intros; lia|]. split.
  - intros IC. rewrite D. unfold diag_of_state. cbn [dg_first]. rewrite (first_coef u) by exact IC. rewrite E. reflexivity.
  - intros W. rewrite D. apply orb_false_iff in W. destruct W as [W _]. apply negb_false_iff in W.
    destruct (mono_loop_reach pb _ _ _ _ _ _ _ _ _ _ (mreach_init _ _ _ _ _ _ _ _ _ _ _ EP) EL) as [_ HH].
    destruct HH as [m0 [_ S0]].
    + cbn [ms_st]. unfold init_state. destruct (eta_mu_objective _ _ _ _ _ _) as [[[? ?] ?] ?].
      destruct (update_quadratic _ _ _ _) as [[? ?] ?]. destruct (check_convergence _ _ _ _) as [[[? ?] ?] ?]. reflexivity.
    + exact W.
    + pose proof (mono_step_facts _ _ _ _ _ _ _ _ S0) as F.
      destruct (proj1 (mf_conv _ _ _ _ _ _ _ F) W) as [T _]. exact T.
Qed.
Print Assumptions C79_monotonic.

(** A least-squares problem with columns that are not centred: rows (0, 0), (1, 9/5), started at the solution. *)
Definition ex79_u : user :=
  mkUser 2 1 (fun i _ => INR i) (fun i => INR i * (9 / 5))
         (fun _ => / 2) (fun _ => 0) true NormalF IdentityL (fun _ => 0) (P2diag (fun _ => 0)) (fun _ => None) (fun _ => None) false.
Definition ex79_se : settings := mkSettings 100 1000 (1 / 10000) None 0 None false false 1000000 (1 / 1000000000).
Definition ex79_start : start_arg := StartParams (fun k => match k with O => 0 | _ => 9 / 5 end).
Lemma ex79_means j : u_means ex79_u j = / 2.
Proof. unfold u_means, col_means, wmean. simpl. field. Qed.
Lemma ex79_stds j : u_stds ex79_u j = / 2.
Proof.
  unfold u_stds, col_stds, wmean. simpl.
  match goal with |- sqrt ?x = _ => replace x with (/ 2 * / 2) by field end. apply sqrt_square. lra.
Qed.
Lemma ex79_ok : user_ok ex79_u.
Proof.
  split; [exact I|]. split; [intros; exact I|]. split; [intros; simpl; lra|]. split; [intros; simpl; lra|]. split.
  - intros i j Hi Hj. simpl in Hi, Hj. replace i with j by lia. reflexivity.
  - intros v. simpl. lra.
Qed.
Lemma ex79_fit : forall l guess, exists b0 b, fit_with SCd ex79_u ex79_se None l guess ex79_start = Some (b0, b, false, false) /\
  b0 = 0 /\ b 0%nat = 9 / 5.
Proof.
  intros l guess. set (se := solve_settings SCd ex79_u ex79_se). set (pb := std_problem ex79_u se).
  set (st := get_start_coef (u_p ex79_u) (u_ic ex79_u) (u_means ex79_u) (u_stds ex79_u) guess (u_lb ex79_u) (u_ub ex79_u) ex79_start).
  assert (S0 : st 0%nat = 9 / 10).
  { change (0 + rsum 1 (fun j => u_means ex79_u j * one_over (u_stds ex79_u j) * (9 / 5 * u_stds ex79_u j)) = 9 / 10). cbn [rsum].
    rewrite ex79_means, ex79_stds, ex57_inv. field. }
  assert (S1 : st 1%nat = 9 / 10) by (change (9 / 5 * u_stds ex79_u 0%nat = 9 / 10); rewrite ex79_stds; field).
  assert (B : snd (user_result ex79_u st) 0%nat = 9 / 5) by (rewrite result_coef, ex79_stds, ex57_inv; cbn [ex79_u u_ic ioff Nat.add]; rewrite S1; field).
  assert (F0 : fst (user_result ex79_u st) = 0).
  { pose proof (first_coef ex79_u st eq_refl) as Q. rewrite S0 in Q. change (u_p ex79_u) with 1%nat in Q. cbn [rsum] in Q.
    rewrite B, ex79_means in Q. lra. }
  assert (X : forall i, (i < 2)%nat -> eta_of pb st i = u_y ex79_u i).
  { intros i Hi. unfold pb. rewrite eta_std. unfold user_eta. change (u_p ex79_u) with 1%nat. cbn [rsum]. rewrite F0, B. simpl. ring. }
  destruct (irls_solver pb (cd_solver pb (lib_seed l)) (std_problem_P2 ex79_u) st) as [[sf w]|] eqn:ES; [|exfalso; eapply C27_cd_always_returns; eauto].
  assert (Rc : reach pb (cd_solver pb (lib_seed l)) (std_problem_P2 ex79_u) st (init_state pb (std_problem_P2 ex79_u) false st)) by constructor.
  assert (Pok : pb_ok pb) by (apply std_ok, ex79_ok).
  pose proof (inv_coh _ _ _ (reach_inv _ _ _ _ _ Pok (Rle_refl 0 : 0 <= pb_approx pb) Rc)) as C.
  pose proof (init_coef pb (std_problem_P2 ex79_u) false st) as Ec.
  assert (LW : st_lswarn (init_state pb (std_problem_P2 ex79_u) false st) = 0%nat).
  { unfold init_state. destruct (eta_mu_objective _ _ _ _ _ _) as [[[? ?] ?] ?].
    destruct (update_quadratic _ _ _ _) as [[? ?] ?]. destruct (check_convergence _ _ _ _) as [[[? ?] ?] ?]. reflexivity. }
  set (s0 := init_state pb (std_problem_P2 ex79_u) false st) in *.
  assert (G : forall k, (k < 2)%nat -> st_score s0 k = 0).
  { intros k Hk. rewrite (coh_score _ _ _ C) by exact Hk. rewrite Ec. unfold score_of.
    rewrite rsum_zero.
    - rewrite rsum_zero; [ring|]. intros m Hm. unfold p2_full. change (pb_ic pb) with true. cbn [std_problem_P2 std_P2 ex79_u u_scale u_P2 p2_entry].
      destruct m, k; try ring. destruct (Nat.eqb _ _); ring.
    - intros i Hi. unfold mean_of. rewrite X by exact Hi. unfold gradient_row. change (pb_fam pb) with NormalF. change (pb_link pb) with IdentityL. cbn.
      unfold inverse1; simpl. ring. }
  assert (T : stop_test pb s0).
  { left.
    change (Rabs (- st_score s0 0%nat) + Rabs (subgrad_term (st_coef s0 1%nat) (- st_score s0 1%nat) (pb_P1 pb 0%nat) (pb_lb pb 0%nat) (pb_ub pb 0%nat)) < 1 / 10000).
    rewrite !G by lia. rewrite Ec, S1. unfold subgrad_term. rewrite (proj2 (Reqb_false (9 / 10) 0)) by lra.
    assert (P0 : pb_P1 pb 0%nat = 0) by (unfold pb; simpl; unfold std_P1; simpl; ring). rewrite P0.
    replace (- 0 + fsign (9 / 10) * 0) with 0 by ring.
    rewrite !(proj2 (Rltb_false 0 0)) by lra. rewrite andb_false_r, (proj2 (Rltb_false 0 0)) by lra. rewrite andb_false_r, Ropp_0, !Rabs_R0. lra. }
  destruct (stop_at_start _ _ _ _ _ _ ES T) as [-> ->].
  exists (fst (user_result ex79_u st)), (snd (user_result ex79_u st)). split; [|split; [exact F0|exact B]].
  unfold fit_with, solve. cbv zeta. fold st se pb. rewrite ES. fold s0. rewrite Ec, LW. destruct (user_result ex79_u st); reflexivity.
Qed.

(** finding F38: the column that report_diagnostics labels "intercept" is the intercept for centred columns, not
    intercept_: here intercept_ is 0 and the last row says 9/10. *)
Theorem C79_intercept_refuted : forall l guess, exists u se a b0 b n rows, user_ok u /\ u_ic u = true /\
  fit_with SCd u se None l guess a = Some (b0, b, false, false) /\
  solve_diagnostics SCd u se None l (get_start_coef (u_p u) (u_ic u) (u_means u) (u_stds u) guess (u_lb u) (u_ub u) a)
    = Some (n, Some rows) /\
  b0 = 0 /\ dg_first (last rows no_row) = 9 / 10.
Proof.
  intros l guess. destruct (ex79_fit l guess) as [b0 [b [E [E0 E1]]]].
  destruct (C79_rows ex79_u ex79_ok) as [K H].
  destruct (H SCd ex79_se None l guess ex79_start b0 b false false (Rle_refl 0) (or_intror eq_refl) E)
    as [n [rows [it [A [B [_ [_ [D [F _]]]]]]]]].
  exists ex79_u, ex79_se, ex79_start, b0, b, (Z.of_nat n), rows.
  split; [exact ex79_ok|]. split; [reflexivity|]. split; [exact E|]. split; [exact A|]. split; [exact E0|].
  destruct (F n (le_n n)) as [_ [_ F3]]. specialize (F3 eq_refl). rewrite D in F3. cbn [fst snd] in F3.
  assert (EL : last rows no_row = nth n rows no_row).
  { replace n with (length rows - 1)%nat by lia. clear. induction rows as [|r rows IH]; [reflexivity|].
    destruct rows as [|r' rows]; [reflexivity|]. cbn [length last] in *. rewrite IH.
    replace (S (S (length rows)) - 1)%nat with (S (S (length rows) - 1)) by lia. reflexivity. }
  rewrite EL, F3, E0. change (u_p ex79_u) with 1%nat. cbn [rsum]. rewrite E1, ex79_means. field.
Qed.
Print Assumptions C79_intercept_refuted.

Example C79_nonvacuous : forall l guess, exists b0 b, user_ok ex79_u /\ 0 <= se_approx ex79_se /\
  safe_pair (u_fam ex79_u) (u_link ex79_u) /\ start_ok ex79_u ex79_start /\
  fit_with SCd ex79_u ex79_se None l guess ex79_start = Some (b0, b, false, false).
Proof.
  intros l guess. destruct (ex79_fit l guess) as [b0 [b [E _]]]. exists b0, b.
  split; [exact ex79_ok|]. split; [exact (Rle_refl 0)|]. split; [exact I|]. split; [|exact E].
  right. intros j x _ [H|H]; discriminate.
Qed.
