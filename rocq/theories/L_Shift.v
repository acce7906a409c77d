(** Lemmas for C90: with the intercept lowered by t and the offset raised by t, least-squares IRLS makes the same
    steps. *)
From Coq Require Import List Lia Lra FunctionalExtensionality ZArith. Import ListNotations.
From Verif Require Import Base M_Std M_Valid M_Fit S_Shift.
From Verif Require Import M_Solver.
Local Open Scope R_scope.

Ltac fe := apply functional_extensionality; intro.

Definition shifted_pb (t : R) (pb : problem) : problem :=
  mkPb (pb_n pb) (pb_p pb) (pb_X pb) (pb_y pb) (pb_w pb) (fun i => pb_off pb i + t) (pb_ic pb) (pb_fam pb) (pb_link pb)
       (pb_P1 pb) (pb_max_iter pb) (pb_max_inner pb) (pb_gtol pb) (pb_stol pb) (pb_approx pb) (pb_fixed_tol pb) (pb_random pb)
       (pb_lb pb) (pb_ub pb) (pb_has_bounds pb) (pb_large pb) (pb_eps pb).

Section Shift.
Variable pb : problem.
Variable t : R.
Hypothesis IC : pb_ic pb = true.
Notation pb' := (shifted_pb t pb).
Notation sh := (lower0 t).

Lemma lin_pred_sh c i : lin_pred pb (sh c) i = lin_pred pb c i - t.
Proof. unfold lin_pred. rewrite IC. cbn [ioff lower0 Nat.add]. ring. Qed.
Lemma make_coef_P2_sh P2 c : make_coef_P2 pb P2 (sh c) = make_coef_P2 pb P2 c.
Proof.
  fe. unfold make_coef_P2. rewrite IC. cbn [ioff]. destruct x as [|x]; [reflexivity|].
  destruct (Nat.ltb (S x) 1); [reflexivity|]. destruct P2; reflexivity.
Qed.
Lemma l1_pen_sh c : l1_pen pb (sh c) = l1_pen pb c.
Proof. unfold l1_pen. rewrite IC. reflexivity. Qed.
Lemma dot_cP2_sh P2 c : dot (nc pb) (make_coef_P2 pb P2 c) (sh c) = dot (nc pb) (make_coef_P2 pb P2 c) c.
Proof.
  unfold dot. apply rsum_ext. intros [|i] _; [|reflexivity]. unfold make_coef_P2. rewrite IC. cbn [ioff Nat.ltb Nat.leb]. ring.
Qed.
Lemma objective_sh P2 xd f c eta : eta_mu_objective pb P2 xd f (sh c) eta = eta_mu_objective pb P2 xd f c eta.
Proof. unfold eta_mu_objective. rewrite make_coef_P2_sh, l1_pen_sh, dot_cP2_sh. reflexivity. Qed.
Lemma vadd_sh c d : vadd (sh c) d = sh (vadd c d).
Proof. fe. unfold vadd, lower0. destruct x; ring. Qed.
Definition sh_ls (r : ls_result) : ls_result :=
  mkLs (sh (ls_coef r)) (ls_step r) (ls_eta r) (ls_mu r) (ls_obj r) (ls_cP2 r) (ls_k r) (ls_warn r) (ls_factor r).
Lemma ls_loop_sh P2 c score eta obj d xd bound m : forall k f,
  ls_loop pb P2 (sh c) score eta obj d xd bound m k f = sh_ls (ls_loop pb P2 c score eta obj d xd bound m k f).
Proof.
  induction m as [|m IH]; intros k f; cbn [ls_loop]; rewrite vadd_sh, objective_sh;
    destruct (eta_mu_objective pb P2 xd f (vadd c (vscale f d)) eta) as [[[e mu] o] cp].
  all: destruct (forallb _ _ && _)%bool; [reflexivity|]; destruct (Rleb (Rabs (o - obj)) _ && _)%bool; [reflexivity|].
  - reflexivity.
  - apply IH.
Qed.
Lemma line_search_sh P2 c score eta obj d : line_search pb P2 (sh c) score eta obj d = sh_ls (line_search pb P2 c score eta obj d).
Proof.
  unfold line_search. replace (ls_bound pb (sh c) score d) with (ls_bound pb c score d); [apply ls_loop_sh|].
  unfold ls_bound. rewrite vadd_sh, !l1_pen_sh. reflexivity.
Qed.
Lemma norm_loop_sh coef grad P1 lb ub act : forall nm mx,
  norm_loop act (sh coef) grad P1 true lb ub nm mx = norm_loop act coef grad P1 true lb ub nm mx.
Proof.
  induction act as [|i act IH]; intros nm mx; [reflexivity|]. cbn [norm_loop]. cbn [ioff]. destruct (Nat.ltb_spec i 1) as [H|H]; [apply IH|].
  destruct i as [|i]; [lia|]. cbn [lower0]. apply IH.
Qed.
Lemma check_sh c step score : check_convergence pb (sh c) step score = check_convergence pb c step score.
Proof. unfold check_convergence, norm_min_subgrad. rewrite IC, norm_loop_sh. reflexivity. Qed.
Lemma active_sh c score mx : identify_active_set pb (sh c) score mx = identify_active_set pb c score mx.
Proof. unfold identify_active_set. f_equal. f_equal. apply filter_ext. intros j. unfold is_active. rewrite IC. reflexivity. Qed.

Definition sh_st (s : state) : state :=
  mkSt (sh (st_coef s)) (st_step s) (st_eta s) (st_mu s) (st_obj s) (st_score s) (st_hrows s) (st_old_hrows s)
       (st_hess s) (st_hinit s) (st_act s) (st_old_act s) (st_conv s) (st_norm s) (st_max s) (st_itol s)
       (st_niter s) (st_ncycles s) (st_nls s) (st_P2 s) (st_diag s) (st_lswarn s).
(** the inner solver does not look at the intercept *)
Definition inner_sh (inner : inner_solver) : Prop := forall s H, inner (sh_st s) H = inner s H.
Lemma init_sh P2 mono c : init_state pb' P2 mono (sh c) = sh_st (init_state pb P2 mono c).
Proof.
  unfold init_state.
  replace (fun i => lin_pred pb' (sh c) i + pb_off pb' i) with (fun i => lin_pred pb c i + pb_off pb i).
  2:{ fe. change (lin_pred pb' (sh c) x) with (lin_pred pb (sh c) x). rewrite lin_pred_sh. cbn [shifted_pb pb_off]. ring. }
  change (eta_mu_objective pb') with (eta_mu_objective pb). rewrite objective_sh.
  destruct (eta_mu_objective pb P2 _ 1 c (fun _ => 0)) as [[[e mu] o] cp].
  change (update_quadratic pb') with (update_quadratic pb). destruct (update_quadratic pb e mu cp) as [[g sc] h].
  change (check_convergence pb') with (check_convergence pb). rewrite check_sh. change (pb_stol pb') with (pb_stol pb). change (nc pb') with (nc pb).
  destruct (check_convergence pb c _ sc) as [[[cv nm] mx] it]. reflexivity.
Qed.
Lemma prepare_sh s : prepare pb (sh_st s) = let '(s1, H) := prepare pb s in (sh_st s1, H).
Proof.
  unfold prepare. cbn [sh_st st_coef st_score st_max st_act st_hess st_hinit st_hrows st_old_hrows st_P2]. rewrite active_sh.
  destruct (update_hessian pb _ _ _ _ _ _ _) as [[[a b] c0] d]. reflexivity.
Qed.
Lemma irls_step_sh inner s : inner_sh inner -> irls_step pb inner (sh_st s) = option_map sh_st (irls_step pb inner s).
Proof.
  intros HI. unfold irls_step. rewrite prepare_sh. destruct (prepare pb s) as [s1 H]. rewrite HI.
  destruct (inner s1 H) as [[d cyc]|]; [|reflexivity]. cbn [sh_st st_P2 st_coef st_score st_eta st_obj]. rewrite line_search_sh.
  set (r := line_search pb (st_P2 s1) (st_coef s1) (st_score s1) (st_eta s1) (st_obj s1) d).
  cbn [sh_ls ls_eta ls_mu ls_cP2 ls_coef ls_step ls_obj ls_k ls_warn].
  destruct (update_quadratic pb (ls_eta r) (ls_mu r) (ls_cP2 r)) as [[g sc] h]. rewrite check_sh.
  destruct (check_convergence pb (ls_coef r) (ls_step r) sc) as [[[cv nm] mx] it]. reflexivity.
Qed.
Lemma irls_loop_sh inner : inner_sh inner -> forall fuel s, irls_loop pb inner fuel (sh_st s) = option_map sh_st (irls_loop pb inner fuel s).
Proof.
  intros HI. induction fuel as [|f IH]; intros s; cbn [irls_loop]; [reflexivity|].
  change (st_niter (sh_st s)) with (st_niter s). change (st_conv (sh_st s)) with (st_conv s).
  destruct (Z.ltb (st_niter s) (pb_max_iter pb) && negb (st_conv s))%bool; [|reflexivity].
  rewrite irls_step_sh by exact HI. destruct (irls_step pb inner s); [apply IH|reflexivity].
Qed.
Lemma ls_loop_pb P2 c score eta obj d xd bound m : forall k f,
  ls_loop pb' P2 c score eta obj d xd bound m k f = ls_loop pb P2 c score eta obj d xd bound m k f.
Proof.
  induction m as [|m IH]; intros k f; cbn [ls_loop]; change (eta_mu_objective pb') with (eta_mu_objective pb);
    destruct (eta_mu_objective pb P2 xd f (vadd c (vscale f d)) eta) as [[[e mu] o] cp];
    change (pb_large pb') with (pb_large pb); change (pb_n pb') with (pb_n pb); change (pb_eps pb') with (pb_eps pb);
    change (trial_grad_norm pb') with (trial_grad_norm pb); change (nc pb') with (nc pb).
  - reflexivity.
  - rewrite IH. reflexivity.
Qed.
Lemma line_search_pb P2 c score eta obj d : line_search pb' P2 c score eta obj d = line_search pb P2 c score eta obj d.
Proof. unfold line_search. change (lin_pred pb') with (lin_pred pb). change (ls_bound pb') with (ls_bound pb). apply ls_loop_pb. Qed.
Lemma irls_step_pb inner s : irls_step pb' inner s = irls_step pb inner s.
Proof.
  unfold irls_step. change (prepare pb') with (prepare pb). destruct (prepare pb s) as [s1 H]. destruct (inner s1 H) as [[d cyc]|]; [|reflexivity].
  cbv zeta. rewrite line_search_pb. reflexivity.
Qed.
Lemma irls_loop_pb inner : forall f s, irls_loop pb' inner f s = irls_loop pb inner f s.
Proof.
  induction f as [|f IH]; intros s; cbn [irls_loop]; [reflexivity|]. change (pb_max_iter pb') with (pb_max_iter pb).
  rewrite irls_step_pb. destruct (_ && _)%bool; [|reflexivity]. destruct (irls_step pb inner s); [apply IH|reflexivity].
Qed.
Lemma mono_step_pb inner q P2 lf lm m : mono_step pb' inner q P2 lf lm m = mono_step pb inner q P2 lf lm m.
Proof.
  unfold mono_step. change (any_gt pb') with (any_gt pb). change (update_constraint_penalty pb') with (update_constraint_penalty pb).
  destruct (update_constraint_penalty pb q P2 _ _ _) as [[P base] ch]. rewrite irls_step_pb. reflexivity.
Qed.
Lemma mono_loop_pb inner q P2 lf lm : forall f m, mono_loop pb' inner q P2 lf lm f m = mono_loop pb inner q P2 lf lm f m.
Proof.
  induction f as [|f IH]; intros m; cbn [mono_loop]; [reflexivity|]. change (pb_max_iter pb') with (pb_max_iter pb).
  rewrite mono_step_pb. destruct (_ && _)%bool; [|reflexivity]. destruct (mono_step pb inner q P2 lf lm m); [apply IH|reflexivity].
Qed.
(** pb' differs from pb in the offset only, which a running iteration does not read *)
Lemma irls_solver_sh inner P2 c : inner_sh inner ->
  irls_solver pb' inner P2 (sh c) = option_map (fun r => (sh_st (fst r), snd r)) (irls_solver pb inner P2 c).
Proof.
  intros HI. unfold irls_solver. rewrite init_sh. change (pb_max_iter pb') with (pb_max_iter pb).
  rewrite irls_loop_pb. rewrite irls_loop_sh by exact HI.
  destruct (irls_loop pb inner _ _); reflexivity.
Qed.
Lemma ls_sh solve : inner_sh (ls_solver pb solve).
Proof. intros s H. reflexivity. Qed.

Lemma iq_val_sh q c r : iq_val pb q (sh c) r = iq_val pb q c r.
Proof. unfold iq_val. rewrite IC. reflexivity. Qed.
Lemma any_gt_sh q c x : any_gt pb q (sh c) x = any_gt pb q c x.
Proof.
  unfold any_gt. induction (seq 0 (iq_m q)) as [|r l IH]; [reflexivity|]. cbn [existsb]. rewrite iq_val_sh, IH. reflexivity.
Qed.
Lemma ucp_sh q P2 b c lam : update_constraint_penalty pb q P2 b (sh c) lam = update_constraint_penalty pb q P2 b c lam.
Proof.
  unfold update_constraint_penalty, build_monotonic_penalty. rewrite any_gt_sh. destruct (any_gt pb q c 0); [|reflexivity].
  rewrite (filter_ext (fun r => Rltb 0 (iq_val pb q (sh c) r)) (fun r => Rltb 0 (iq_val pb q c r))) by (intros r; rewrite iq_val_sh; reflexivity).
  reflexivity.
Qed.
Definition sh_ms (m : mstate) : mstate := mkMs (sh_st (ms_st m)) (ms_lam m) (ms_base m).
Lemma mono_step_sh inner q P2 lf lm m : inner_sh inner ->
  mono_step pb inner q P2 lf lm (sh_ms m) = option_map sh_ms (mono_step pb inner q P2 lf lm m).
Proof.
  intros HI. unfold mono_step. change (st_coef (ms_st (sh_ms m))) with (sh (st_coef (ms_st m))). rewrite any_gt_sh.
  change (ms_lam (sh_ms m)) with (ms_lam m). change (ms_base (sh_ms m)) with (ms_base m). cbv zeta.
  set (lam := if any_gt pb q (st_coef (ms_st m)) 0 then _ else _). rewrite ucp_sh.
  destruct (update_constraint_penalty pb q P2 (ms_base m) (st_coef (ms_st m)) lam) as [[P base] ch].
  change (st_hinit (ms_st (sh_ms m))) with (st_hinit (ms_st m)).
  change (set_P2 (ms_st (sh_ms m)) P (if ch then false else st_hinit (ms_st m)))
    with (sh_st (set_P2 (ms_st m) P (if ch then false else st_hinit (ms_st m)))).
  rewrite irls_step_sh by exact HI. destruct (irls_step pb inner _) as [s|]; [|reflexivity]. cbn [option_map sh_st st_conv st_coef]. rewrite any_gt_sh.
  destruct (st_conv s && any_gt pb q (st_coef s) (1 / 1000000))%bool; reflexivity.
Qed.
Lemma mono_loop_sh inner q P2 lf lm : inner_sh inner -> forall fuel m,
  mono_loop pb inner q P2 lf lm fuel (sh_ms m) = option_map sh_ms (mono_loop pb inner q P2 lf lm fuel m).
Proof.
  intros HI. induction fuel as [|f IH]; intros m; cbn [mono_loop]; [reflexivity|].
  change (st_niter (ms_st (sh_ms m))) with (st_niter (ms_st m)). change (st_conv (ms_st (sh_ms m))) with (st_conv (ms_st m)).
  destruct (Z.ltb _ _ && _)%bool; [|reflexivity]. rewrite mono_step_sh by exact HI.
  destruct (mono_step pb inner q P2 lf lm m); [apply IH|reflexivity].
Qed.
Lemma mono_solver_sh inner q P2 ls lm lf c : inner_sh inner ->
  monotonic_irls_solver pb' inner q P2 ls lm lf (sh c)
  = option_map (fun r => (sh_ms (fst (fst r)), snd (fst r), snd r)) (monotonic_irls_solver pb inner q P2 ls lm lf c).
Proof.
  intros HI. unfold monotonic_irls_solver. destruct (existsb _ _); [reflexivity|].
  change (update_constraint_penalty pb') with (update_constraint_penalty pb). rewrite ucp_sh.
  destruct (update_constraint_penalty pb q P2 false c ls) as [[P base] ch]. rewrite init_sh.
  change (pb_max_iter pb') with (pb_max_iter pb).
  change (mkMs (sh_st (init_state pb P true c)) ls base) with (sh_ms (mkMs (init_state pb P true c) ls base)).
  rewrite mono_loop_pb. rewrite mono_loop_sh by exact HI. destruct (mono_loop pb inner _ _ _ _ _ _) as [m|]; [|reflexivity].
  cbn [option_map sh_ms ms_st sh_st st_conv st_coef fst snd]. change (any_gt pb') with (any_gt pb). rewrite any_gt_sh. reflexivity.
Qed.
End Shift.
