(** C88: exchanging the two outcomes of a logistic regression mirrors the fit. *)
From Coq Require Import List Lia Lra FunctionalExtensionality ZArith. Import ListNotations.
From Verif Require Import Base M_Link M_Dist M_Std M_Valid M_Fit L_Rows L_Std L_KKT S_Std S_Dist S_Solver L_FitAll P_FitAll S_Swap L_Swap.
From Verif Require Import M_Solver S_Solver.
Local Open Scope R_scope.

Lemma std_bounds_opp b s : std_bounds (neg_bounds b) s = neg_bounds (std_bounds b s).
Proof. fe. unfold std_bounds, neg_bounds. destruct (b x); [|reflexivity]. cbn [option_map]. f_equal. unfold Rdiv. ring. Qed.
Lemma swapped_problem u se : std_problem (swapped u) se = swapped_pb (std_problem u se).
Proof.
  unfold std_problem, swapped_pb. cbn [swapped u_n u_p u_X u_y u_w u_off u_ic u_fam u_link u_P1 u_lb u_ub u_scale].
  change (u_stds (swapped u)) with (u_stds u). change (u_means (swapped u)) with (u_means u).
  rewrite !std_bounds_opp. reflexivity.
Qed.
Lemma swapped_std_ineq q s : std_ineq (swapped_ineq q) s = swapped_ineq (std_ineq q s).
Proof. unfold std_ineq, swapped_ineq. cbn [iq_m iq_A iq_b]. f_equal. fe. fe. ring. Qed.
Lemma swapped_trust_ineq ic q : trust_ineq ic (swapped_ineq q) = swapped_ineq (trust_ineq ic q).
Proof.
  unfold trust_ineq, swapped_ineq. destruct ic; [|reflexivity]. cbn [iq_m iq_A iq_b]. f_equal. fe. fe. destruct x0; ring.
Qed.
Lemma std_ord u se : ordered_bounds u -> ord (pb_lb (std_problem u se)) (pb_ub (std_problem u se)).
Proof.
  intros H j l h. cbn [std_problem pb_lb pb_ub]. unfold std_bounds.
  destruct (u_lb u j) as [a|] eqn:E1; [|discriminate]. destruct (u_ub u j) as [b|] eqn:E2; [|discriminate].
  intros H1 H2. injection H1 as <-. injection H2 as <-. pose proof (H j a b E1 E2). pose proof (inv_pos u j).
  unfold Rdiv. apply Rmult_le_compat_r; [left; apply Rinv_0_lt_compat; assumption|assumption].
Qed.
Lemma pack_opp ic c0 c : pack ic (- c0) (negv c) = negv (pack ic c0 c).
Proof. fe. unfold pack, negv. destruct ic; [destruct x; reflexivity|reflexivity]. Qed.
Lemma clip_start_opp ic lb ub c : (forall j l h, lb j = Some l -> ub j = Some h -> l <= h) ->
  clip_start ic (neg_bounds ub) (neg_bounds lb) (negv c) = negv (clip_start ic lb ub c).
Proof.
  intros H. fe. unfold clip_start, negv. destruct (Nat.ltb x (ioff ic)); [reflexivity|]. cbv zeta.
  unfold neg_bounds. specialize (H (x - ioff ic)%nat).
  destruct (lb (x - ioff ic)%nat) as [l|], (ub (x - ioff ic)%nat) as [h|]; cbn [option_map clip_lo clip_hi]; unfold Rmin, Rmax;
    try (specialize (H l h eq_refl eq_refl)); repeat destruct (Rle_dec _ _); lra.
Qed.
Lemma start_opp u guess a : ordered_bounds u ->
  get_start_coef (u_p u) (u_ic u) (u_means u) (u_stds u) (- guess) (neg_bounds (u_ub u)) (neg_bounds (u_lb u)) (swapped_start a)
  = negv (get_start_coef (u_p u) (u_ic u) (u_means u) (u_stds u) guess (u_lb u) (u_ub u) a).
Proof.
  intros H. unfold get_start_coef. cbv zeta.
  set (std := fun v : nat -> R => if u_ic u then let '(c0, c) := unpack true v in
      let '(c0', c') := standardize_warm_start (u_p u) (u_means u) (Some (u_stds u)) c0 c in pack true c0' c' else v).
  assert (ST : forall v, std (negv v) = negv (std v)).
  { intros v. unfold std. destruct (u_ic u); [|reflexivity]. cbn [unpack standardize_warm_start]. rewrite <- pack_opp. f_equal.
    - unfold negv. rewrite (rsum_neg _ _ (fun j => u_means u j * one_over (u_stds u j) * (v (S j) * u_stds u j))) by (intros; ring). ring.
    - fe. unfold negv. ring. }
  rewrite <- (clip_start_opp _ _ _ _ H). f_equal.
  destruct a as [c0 c| |v]; cbn [swapped_start].
  - rewrite pack_opp. apply ST.
  - rewrite <- pack_opp. f_equal. fe. unfold negv. ring.
  - apply ST.
Qed.
Lemma result_opp u v : user_result (swapped u) (negv v) = (- fst (user_result u v), negv (snd (user_result u v))).
Proof.
  unfold user_result. change (u_ic (swapped u)) with (u_ic u). change (u_p (swapped u)) with (u_p u).
  change (u_stds (swapped u)) with (u_stds u). change (u_means (swapped u)) with (u_means u).
  unfold unpack, unstandardize. destruct (u_ic u); cbn [fst snd]; f_equal.
  - unfold negv. rewrite (rsum_neg _ _ (fun j => u_means u j * one_over (u_stds u j) * v (S j))) by (intros; ring). ring.
  - fe. unfold negv. ring.
  - unfold negv. rewrite (rsum_neg _ _ (fun j => u_means u j * one_over (u_stds u j) * v j)) by (intros; ring). ring.
  - fe. unfold negv. ring.
Qed.
Lemma swapped_settings s u se : solve_settings s (swapped u) se = solve_settings s u se.
Proof. reflexivity. Qed.

Lemma solve_opp s u se q l c : u_fam u = BinomialF -> u_link u = LogitL -> ordered_bounds u -> 1 <= se_large se -> libs_odd l ->
  solve s (swapped u) se (option_map swapped_ineq q) l (negv c)
  = option_map (fun r => (negv (fst (fst r)), snd (fst r), snd r)) (solve s u se q l c).
Proof.
  intros HF HL HO HG (LP & LB & LT). unfold solve. cbv zeta. rewrite swapped_settings, swapped_problem.
  set (pb := std_problem u (solve_settings s u se)).
  assert (F : pb_fam pb = BinomialF) by exact HF. assert (L : pb_link pb = LogitL) by exact HL.
  assert (G : 1 <= pb_large pb) by exact HG. assert (O : ord (pb_lb pb) (pb_ub pb)) by (apply std_ord; exact HO).
  change (std_problem_P2 (swapped u)) with (std_problem_P2 u). set (P2 := std_problem_P2 u).
  change (u_stds (swapped u)) with (u_stds u). change (normal_identity (swapped u)) with (normal_identity u).
  assert (NI : normal_identity u = false) by (unfold normal_identity; rewrite HF; reflexivity).
  assert (Q : option_map (fun q => std_ineq q (u_stds u)) (option_map swapped_ineq q) = option_map swapped_ineq (option_map (fun q => std_ineq q (u_stds u)) q)).
  { destruct q; [|reflexivity]. cbn [option_map]. rewrite swapped_std_ineq. reflexivity. }
  rewrite Q. set (q' := option_map (fun q => std_ineq q (u_stds u)) q).
  assert (IR : forall inner inner', inner_odd pb inner inner' ->
    match irls_solver (swapped_pb pb) inner' P2 (negv c) with Some (st, w) => Some (st_coef st, w, Nat.ltb 0 (st_lswarn st)) | None => None end
    = option_map (fun r => (negv (fst (fst r)), snd (fst r), snd r))
      match irls_solver pb inner P2 c with Some (st, w) => Some (st_coef st, w, Nat.ltb 0 (st_lswarn st)) | None => None end).
  { intros inner inner' HI. pose proof (irls_solver_opp pb F L G inner inner' P2 c HI) as E.
    destruct (irls_solver pb inner P2 c) as [[t w]|], (irls_solver (swapped_pb pb) inner' P2 (negv c)) as [[t' w']|]; try contradiction; [|reflexivity].
    destruct E as [(step & _ & ->) <-]. reflexivity. }
  destruct s.
  - reflexivity.
  - rewrite NI. reflexivity.
  - apply IR, ls_odd, LP.
  - destruct q' as [k|]; [|reflexivity]. cbn [option_map].
    pose proof (mono_solver_opp pb F L G (ls_solver pb (lib_pos l)) (ls_solver (swapped_pb pb) (lib_pos l)) k P2 100000 1000000000 100 c
      (ls_odd pb (lib_pos l) LP)) as E.
    destruct (monotonic_irls_solver pb _ k P2 _ _ _ c) as [[[m w1] w2]|], (monotonic_irls_solver (swapped_pb pb) _ _ P2 _ _ _ _) as [[[m' w1'] w2']|];
      try contradiction; [|reflexivity].
    destruct E as [(step & _ & ->) [<- <-]]. reflexivity.
  - unfold lbfgs_solver. change (pb_gtol (swapped_pb pb)) with (pb_gtol pb). change (pb_max_iter (swapped_pb pb)) with (pb_max_iter pb). change (nc (swapped_pb pb)) with (nc pb).
    rewrite (LB (nc pb) (get_obj_and_derivative pb P2) (get_obj_and_derivative (swapped_pb pb) P2) c (pb_gtol pb) (pb_max_iter pb) (obj_opp pb F L P2)).
    reflexivity.
  - apply IR, cd_odd, O.
  - unfold trust_constr_solver. change (pb_gtol (swapped_pb pb)) with (pb_gtol pb). change (pb_max_iter (swapped_pb pb)) with (pb_max_iter pb). change (nc (swapped_pb pb)) with (nc pb). change (pb_ic (swapped_pb pb)) with (pb_ic pb).
    replace (option_map (trust_ineq (pb_ic pb)) (option_map swapped_ineq q')) with (option_map swapped_ineq (option_map (trust_ineq (pb_ic pb)) q'))
      by (destruct q'; [cbn [option_map]; rewrite swapped_trust_ineq; reflexivity|reflexivity]).
    rewrite (LT (nc pb) (get_obj_and_derivative pb P2) (get_obj_and_derivative (swapped_pb pb) P2) c _ (pb_gtol pb) (pb_max_iter pb) (obj_opp pb F L P2)).
    reflexivity.
Qed.

(** The fit to 1 - y (offset negated, bounds and constraints mirrored, starting values negated) is minus the fit to
    y, with the same warnings, for every solver; and it raises exactly when the other one does. *)
Theorem C88_swap : forall s u se q l guess a,
  u_fam u = BinomialF -> u_link u = LogitL -> ordered_bounds u -> 1 <= se_large se -> libs_odd l ->
  fit_with s (swapped u) se (option_map swapped_ineq q) l (- guess) (swapped_start a)
  = option_map (fun r => let '(b0, b, w1, w2) := r in (- b0, negv b, w1, w2)) (fit_with s u se q l guess a).
Proof.
  intros s u se q l guess a HF HL HO HG HL'. unfold fit_with. cbv zeta.
  change (u_ic (swapped u)) with (u_ic u). change (u_p (swapped u)) with (u_p u).
  change (u_stds (swapped u)) with (u_stds u). change (u_means (swapped u)) with (u_means u).
  change (u_lb (swapped u)) with (neg_bounds (u_ub u)). change (u_ub (swapped u)) with (neg_bounds (u_lb u)).
  rewrite (start_opp u guess a HO), (solve_opp s u se q l _ HF HL HO HG HL').
  destruct (solve s u se q l _) as [[[v w1] w2]|]; [|reflexivity]. cbn [option_map fst snd]. rewrite result_opp.
  destruct (user_result u v); reflexivity.
Qed.
Print Assumptions C88_swap.

Definition swapped_grow (g : grow) : grow := mkgrow (1 - g_y g) (g_w g) (- g_eta g).
Lemma gavg_swap l : lsumf g_w l <> 0 -> gavg g_y (map swapped_grow l) = 1 - gavg g_y l.
Proof.
  intros H. unfold gavg. rewrite !lsumf_map.
  rewrite (lsumf_ext _ (fun g => g_y (swapped_grow g) * g_w (swapped_grow g)) (fun g => g_w g - g_y g * g_w g)) by (intros; cbn; ring).
  rewrite lsumf_minus. change (lsumf (fun x => g_w (swapped_grow x)) l) with (lsumf g_w l). field. exact H.
Qed.
Lemma gavg_eta_swap l : gavg g_eta (map swapped_grow l) = - gavg g_eta l.
Proof.
  unfold gavg. rewrite !lsumf_map.
  rewrite (lsumf_ext _ (fun g => g_eta (swapped_grow g) * g_w (swapped_grow g)) (fun g => (-1) * (g_eta g * g_w g))) by (intros; cbn; ring).
  rewrite lsumf_scal. change (lsumf (fun x => g_w (swapped_grow x)) l) with (lsumf g_w l). unfold Rdiv. ring.
Qed.
Lemma all_equal_swap l : all_equal (map swapped_grow l) = all_equal l.
Proof.
  destruct l as [|g r]; [reflexivity|]. cbn [map all_equal]. induction r as [|h r IH]; [reflexivity|]. cbn [map forallb]. rewrite IH. f_equal.
  cbn [swapped_grow g_y]. destruct (Reqb (g_y h) (g_y g)) eqn:E; [apply Reqb_true in E; apply Reqb_true; lra|apply Reqb_false in E; apply Reqb_false; lra].
Qed.

(** The default starting value is mirrored too: guess_intercept on the exchanged data is minus the one on the data. *)
Theorem C88_guess : forall has_off l, lsumf g_w l <> 0 ->
  guess_intercept BinomialF LogitL has_off (map (fun g => mkgrow (1 - g_y g) (g_w g) (- g_eta g)) l)
  = option_map Ropp (guess_intercept BinomialF LogitL has_off l).
Proof.
  intros has_off l H. change (map (fun g => mkgrow (1 - g_y g) (g_w g) (- g_eta g)) l) with (map swapped_grow l).
  unfold guess_intercept. rewrite all_equal_swap. cbn [andb]. destruct (all_equal l); [reflexivity|]. cbn [option_map]. f_equal.
  rewrite (gavg_swap l H), gavg_eta_swap. replace (1 - (1 - gavg g_y l)) with (gavg g_y l) by ring. destruct has_off; ring.
Qed.
Print Assumptions C88_guess.


Lemma with_rows_swap u rows : with_rows (swapped u) (map swapped_row rows) = swapped (with_rows u rows).
Proof.
  unfold with_rows, swapped. cbn [u_n u_p u_X u_y u_w u_off u_ic u_fam u_link u_P1 u_P2 u_lb u_ub u_scale].
  rewrite map_length, map_map. cbn [swapped_row r_w].
  assert (N : forall i (A : Type) (F G : row -> A), (forall r, F (swapped_row r) = G r) -> F row0 = G row0 ->
     F (nth i (map swapped_row rows) row0) = G (nth i rows row0)).
  { intros i A F G H1 H2. destruct (Nat.ltb_spec i (length rows)) as [L|L].
    - rewrite (nth_indep _ row0 (swapped_row row0)) by (rewrite map_length; exact L). rewrite map_nth. apply H1.
    - rewrite !nth_overflow by (try rewrite map_length; exact L). exact H2. }
  f_equal; fe.
  - apply N; reflexivity.
  - unfold compl. destruct (Nat.ltb_spec x (length rows)) as [L|L].
    + rewrite (nth_indep _ row0 (swapped_row row0)) by (rewrite map_length; exact L). rewrite map_nth. reflexivity.
    + rewrite !nth_overflow by (try rewrite map_length; exact L). reflexivity.
  - unfold negv. apply (N x R r_off (fun r => - r_off r)); [reflexivity|cbn; ring].
Qed.
Lemma fit_cd_swap u se seed g a : u_fam u = BinomialF -> u_link u = LogitL -> ordered_bounds u -> 1 <= se_large se ->
  fit_cd (swapped u) se seed (- g) (swapped_start a)
  = option_map (fun r => let '(b0, b, w) := r in (- b0, negv b, w)) (fit_cd u se seed g a).
Proof.
  intros HF HL HO HG. unfold fit_cd. cbv zeta. rewrite swapped_problem.
  change (u_ic (swapped u)) with (u_ic u). change (u_p (swapped u)) with (u_p u).
  change (u_stds (swapped u)) with (u_stds u). change (u_means (swapped u)) with (u_means u).
  change (u_lb (swapped u)) with (neg_bounds (u_ub u)). change (u_ub (swapped u)) with (neg_bounds (u_lb u)).
  change (std_problem_P2 (swapped u)) with (std_problem_P2 u). rewrite (start_opp u g a HO).
  set (pb := std_problem u se). assert (F : pb_fam pb = BinomialF) by exact HF. assert (L : pb_link pb = LogitL) by exact HL.
  assert (G : 1 <= pb_large pb) by exact HG. assert (O : ord (pb_lb pb) (pb_ub pb)) by (apply std_ord; exact HO).
  set (c := get_start_coef _ _ _ _ _ _ _ _).
  pose proof (irls_solver_opp pb F L G _ _ (std_problem_P2 u) c (cd_odd pb seed O)) as E.
  destruct (irls_solver pb _ _ c) as [[t w]|], (irls_solver (swapped_pb pb) _ _ _) as [[t' w']|]; try contradiction; [|reflexivity].
  destruct E as [(step & _ & ->) <-]. cbn [option_map swapped_st st_coef]. rewrite result_opp. destruct (user_result u (st_coef t)); reflexivity.
Qed.

(** fit on a table of rows with any sample weights (not all zero), from the data to the coefficients, including the
    default starting value *)
Theorem C88_rows : forall u se seed has_off rows a,
  u_fam u = BinomialF -> u_link u = LogitL -> ordered_bounds u -> 1 <= se_large se -> lsum (map r_w rows) <> 0 ->
  fit_rows (swapped u) se seed has_off (map swapped_row rows) (swapped_start a)
  = option_map (fun r => let '(b0, b, w) := r in (- b0, negv b, w)) (fit_rows u se seed has_off rows a).
Proof.
  intros u se seed has_off rows a HF HL HO HG HW. unfold fit_rows. cbv zeta. rewrite with_rows_swap.
  change (u_ic (swapped u)) with (u_ic u). change (u_fam (swapped u)) with (u_fam u). change (u_link (swapped u)) with (u_link u).
  assert (Z : forall a, fit_cd (swapped (with_rows u rows)) se seed 0 (swapped_start a)
     = option_map (fun r => let '(b0, b, w) := r in (- b0, negv b, w)) (fit_cd (with_rows u rows) se seed 0 a)).
  { intros b. rewrite <- fit_cd_swap by assumption. rewrite Ropp_0. reflexivity. }
  destruct a as [c0 c| |v]; try (apply (Z (StartWarm c0 c))); try (apply (Z (StartParams v))). cbn [swapped_start].
  destruct (u_ic u); [|apply (Z StartNone)]. rewrite HF, HL.
  set (l := map (fun i => mkgrow (u_y (with_rows u rows) i) (u_w (with_rows u rows) i) (u_off (with_rows u rows) i)) (seq 0 (u_n (with_rows u rows)))).
  match goal with |- match guess_intercept _ _ _ ?m with _ => _ end = _ => replace m with (map (fun g => mkgrow (1 - g_y g) (g_w g) (- g_eta g)) l) end.
  - rewrite C88_guess.
    + destruct (guess_intercept BinomialF LogitL has_off l) as [g|]; [|reflexivity]. cbn [option_map].
      apply (fit_cd_swap (with_rows u rows) se seed g StartNone); assumption.
    + change (lsumf g_w (grows u rows) <> 0). rewrite grows_tot. unfold ravg.
      assert (T : wtot rows <> 0) by (unfold wtot; rewrite lsum_lsumf, lsumf_map in HW; exact HW).
      rewrite (lsumf_ext _ _ r_w) by (intros; ring). fold (wtot rows). intros E. apply T.
      apply Rmult_integral in E. destruct E as [E|E]; [exact E|]. exfalso. revert E. apply Rinv_neq_0_compat, T.
  - unfold l. rewrite map_map. apply map_ext_in. intros i Hi. apply in_seq in Hi. cbn [g_y g_w g_eta].
    change (u_y (swapped (with_rows u rows))) with (compl (u_n (with_rows u rows)) (u_y (with_rows u rows))).
    rewrite compl_lt by exact (proj2 Hi). reflexivity.
Qed.
Print Assumptions C88_rows.

(** What the exchanged fit predicts: the complementary probabilities, with the same clipping warning *)
Lemma existsb_map' {A B} (f : A -> B) g l : existsb g (map f l) = existsb (fun x => g (f x)) l.
Proof. induction l as [|a l IH]; [reflexivity|]. cbn. rewrite IH. reflexivity. Qed.
Lemma existsb_ext' {A} (f g : A -> bool) l : (forall x, f x = g x) -> existsb f l = existsb g l.
Proof. intros H. induction l as [|a l IH]; [reflexivity|]. cbn. rewrite IH, H. reflexivity. Qed.
Theorem C88_predict : forall etas,
  link_inverse LogitL (map Ropp etas)
  = (map (fun m => 1 - m) (fst (link_inverse LogitL etas)), snd (link_inverse LogitL etas)).
Proof.
  intros etas. unfold link_inverse. cbv zeta. rewrite map_map. cbn [raw_inverse].
  rewrite (map_ext (fun x => expit (- x)) (fun x => 1 - expit x)) by (intros; apply expit_opp).
  rewrite !existsb_map'.
  rewrite (existsb_ext' (fun x => Rltb (1 - eps50) (1 - expit x)) (fun x => Rltb (expit x) eps50)).
  2:{ intros x. destruct (Rltb (expit x) eps50) eqn:E; [apply Rltb_true in E; apply Rltb_true; lra|apply Rltb_false in E; apply Rltb_false; lra]. }
  rewrite (existsb_ext' (fun x => Rltb (1 - expit x) eps50) (fun x => Rltb (1 - eps50) (expit x))).
  2:{ intros x. destruct (Rltb (1 - eps50) (expit x)) eqn:E; [apply Rltb_true in E; apply Rltb_true; lra|apply Rltb_false in E; apply Rltb_false; lra]. }
  rewrite orb_comm. destruct (_ || _)%bool; cbn [fst snd]; rewrite !map_map; [|reflexivity].
  f_equal. apply map_ext. intros x. apply clip_compl, eps50_half.
Qed.
Print Assumptions C88_predict.

(** and it fits equally well: deviance, D^2 score and log-likelihood on exchanged outcomes and complementary
    probabilities are those of the original *)
Definition swapped_obs (o : obs) : obs := mkobs (1 - oy o) (ow o) (1 - omu o).
Theorem C88_quality : forall lg tw l phi, lsumf ow l <> 0 ->
  deviance BinomialF (map swapped_obs l) = deviance BinomialF l /\
  M_Dist.score BinomialF (map swapped_obs l) = M_Dist.score BinomialF l /\
  log_likelihood lg tw BinomialF phi (map swapped_obs l) = log_likelihood lg tw BinomialF phi l.
Proof.
  intros lg tw l phi H. split; [apply deviance_opp|]. split.
  - unfold M_Dist.score. assert (M : y_mean (map swapped_obs l) = 1 - y_mean l).
    { unfold y_mean. rewrite !lsumf_map.
      rewrite (lsumf_ext _ (fun o => oy (swapped_obs o) * ow (swapped_obs o)) (fun o => ow o - oy o * ow o)) by (intros; cbn; ring).
      rewrite lsumf_minus. change (lsumf (fun x => ow (swapped_obs x)) l) with (lsumf ow l). field. exact H. }
    rewrite M. replace (with_mu (1 - y_mean l) (map swapped_obs l)) with (map swapped_obs (with_mu (y_mean l) l))
      by (unfold with_mu; rewrite !map_map; reflexivity).
    assert (D : forall k, deviance BinomialF (map swapped_obs k) = deviance BinomialF k) by (intros; apply deviance_opp).
    rewrite !D. reflexivity.
  - cbn [log_likelihood]. f_equal. unfold binomial_ll. rewrite lsumf_map. apply lsumf_ext. intros o _. cbn [swapped_obs oy ow omu].
    replace (1 - (1 - oy o)) with (oy o) by ring. replace (1 - (1 - omu o)) with (omu o) by ring. ring.
Qed.
Print Assumptions C88_quality.

(** ** Not for the complementary log-log link *)
Definition ex88_u : user := mkUser 2 0 (fun _ _ => 0) (fun i => match i with O => 0 | _ => 1 end) (fun _ => / 2) (fun _ => 0) true
  BinomialF CloglogL (fun _ => 0) (P2diag (fun _ => 0)) (fun _ => None) (fun _ => None) false.
Lemma ex88_mean : inverse1 CloglogL (ln (ln 2)) = 1 / 2.
Proof.
  cbn [inverse1 raw_inverse]. unfold expm1.
  assert (0 < ln 2) by (rewrite <- ln_1; apply ln_increasing; lra).
  rewrite exp_ln by assumption. rewrite exp_Ropp, exp_ln by lra. unfold clip.
  pose proof eps50_half. assert (0 <= eps50).
  { unfold eps50, eps64. assert (0 < / 2 ^ 52) by (apply Rinv_0_lt_compat, pow_lt; lra). lra. }
  unfold Rmin, Rmax. repeat destruct (Rle_dec _ _); lra.
Qed.
Lemma ex88_fit u l : u = ex88_u \/ u = swapped ex88_u -> exists b,
  guess_intercept (u_fam u) (u_link u) false (map (fun i => mkgrow (u_y u i) (u_w u i) (u_off u i)) (seq 0 (u_n u))) = Some (ln (ln 2)) /\
  fit_with SCd u ex70_se None l (ln (ln 2)) StartNone = Some (ln (ln 2), b, false, false).
Proof.
  intros HU. exists (snd (user_result u (get_start_coef (u_p u) (u_ic u) (u_means u) (u_stds u) (ln (ln 2)) (u_lb u) (u_ub u) StartNone))).
  assert (YS : u_y u 0%nat + u_y u 1%nat = 1 /\ u_y u 0%nat <> u_y u 1%nat) by (destruct HU; subst u; cbn; split; lra).
  destruct YS as [YS YD].
  assert (E : u_n u = 2%nat /\ u_p u = 0%nat /\ u_fam u = BinomialF /\ u_link u = CloglogL /\ u_ic u = true /\
     (forall i, u_w u i = / 2) /\ (forall i, u_off u i = 0)).
  { destruct HU; subst u; repeat (split; [reflexivity|]); intros i; cbn; unfold negv; cbn; ring. }
  destruct E as (En & Ep & Ef & El & Ei & Ew & Eo). split.
  - rewrite En, Ef, El. cbn [seq map]. unfold guess_intercept. cbn [all_equal forallb g_y].
    rewrite (proj2 (Reqb_false (u_y u 1%nat) (u_y u 0%nat))) by lra. cbn [andb]. f_equal. rewrite !lsumf_cons, lsumf_nil. cbn [g_y g_w].
    rewrite !Ew. replace (u_y u 0%nat * / 2 + (u_y u 1%nat * / 2 + 0)) with (/ 2) by lra. cbn [link_fn]. unfold log1p. f_equal.
    replace (1 + - / 2) with (/ 2) by lra. rewrite ln_Rinv by lra. ring.
  - set (v := get_start_coef (u_p u) (u_ic u) (u_means u) (u_stds u) (ln (ln 2)) (u_lb u) (u_ub u) StartNone).
    assert (V0 : v 0%nat = ln (ln 2)).
    { unfold v, get_start_coef, clip_start. rewrite Ei. reflexivity. }
    assert (B0 : fst (user_result u v) = ln (ln 2)).
    { unfold user_result, unpack, unstandardize. rewrite Ei, Ep. cbn [fst rsum]. rewrite V0. ring. }
    set (se := solve_settings SCd u ex70_se). set (pb := std_problem u se).
    assert (IR : irls_solver pb (cd_solver pb (lib_seed l)) (std_problem_P2 u) v = Some (init_state pb (std_problem_P2 u) false v, false)).
    { apply irls_at_start.
      - split; [unfold pb; cbn [std_problem pb_fam]; rewrite Ef; exact I|]. split.
        + intros i Hi. destruct HU; subst u; destruct i as [|[|i]]; cbn in *; try lia; cbn; lra.
        + intros j. destruct HU; subst u; cbn; unfold std_P1; cbn; lra.
      - destruct HU; subst u; cbn; lra.
      - assert (NC : nc pb = 1%nat) by (unfold nc, pb; cbn [std_problem pb_ic pb_p]; rewrite Ei, Ep; reflexivity).
        rewrite NC. cbn [rsum]. unfold entry. assert (IC : pb_ic pb = true) by exact Ei. rewrite IC. cbn [ioff Nat.ltb Nat.leb].
        assert (XT : forall i, xt pb i 0%nat = 1) by (clear - Ei; intros i; unfold xt, pb; cbn [std_problem pb_ic]; rewrite Ei; reflexivity).
        assert (ET : forall i, eta_of pb v i = ln (ln 2)).
        { intros i. unfold eta_of. rewrite NC. cbn [rsum]. rewrite XT. change (pb_off pb i) with (u_off u i). rewrite Eo, V0. ring. }
        assert (SC : score_of pb (std_problem_P2 u) v 0%nat = 0).
        { unfold score_of. rewrite NC. unfold pb at 1. cbn [std_problem pb_n]. rewrite En. cbn [rsum]. unfold mean_of. rewrite !ET.
          unfold pb. cbn [std_problem pb_fam pb_link pb_y pb_w pb_ic]. rewrite Ef, El, Ei, !Ew.
          unfold gradient_row. cbn [search_mean]. rewrite ex88_mean. cbn [rowwise generic_rows fst]. cbv zeta.
          replace (u_y u 1%nat) with (1 - u_y u 0%nat) by lra.
          match goal with |- context [?a * (u_y u 0%nat - 1 / 2)] => set (D := a) end.
          rewrite !XT. cbn [p2_full]. clearbody D. field. }
        rewrite SC, Ropp_0, Rabs_R0. destruct HU; subst u; cbn; lra. }
    unfold fit_with. fold v. unfold solve. cbv zeta. fold se. fold pb. rewrite IR.
    assert (EC : forall pb P2, st_coef (init_state pb P2 false v) = v /\ st_lswarn (init_state pb P2 false v) = 0%nat).
    { intros pb0 P2. unfold init_state. destruct (eta_mu_objective _ _ _ _ _ _) as [[[? ?] ?] ?].
      destruct (update_quadratic _ _ _ _) as [[? ?] ?]. destruct (check_convergence _ _ _ _) as [[[? ?] ?] ?]. split; reflexivity. }
    destruct (EC pb (std_problem_P2 u)) as [-> ->]. rewrite <- B0 at 1. rewrite <- surjective_pairing. reflexivity.
Qed.
(** With the complementary log-log link exchanging the outcomes changes the fit: on the outcomes 0, 1 and no columns
    both fits return the intercept ln (ln 2) < 0 without a warning, not each other's negative. *)
Theorem C88_cloglog_refuted : forall l, exists u b0 b b0' b', 
  u_fam u = BinomialF /\ u_link u = CloglogL /\ ordered_bounds u /\ user_ok u /\
  (exists g, guess_intercept (u_fam u) (u_link u) false (map (fun i => mkgrow (u_y u i) (u_w u i) (u_off u i)) (seq 0 (u_n u))) = Some g /\
     fit_with SCd u ex70_se None l g StartNone = Some (b0, b, false, false)) /\
  (exists g, guess_intercept (u_fam u) (u_link u) false
       (map (fun i => mkgrow (u_y (swapped u) i) (u_w (swapped u) i) (u_off (swapped u) i)) (seq 0 (u_n u))) = Some g /\
     fit_with SCd (swapped u) ex70_se None l g StartNone = Some (b0', b', false, false)) /\
  b0' <> - b0.
Proof.
  intros l. destruct (ex88_fit ex88_u l (or_introl eq_refl)) as [b [G F]].
  destruct (ex88_fit (swapped ex88_u) l (or_intror eq_refl)) as [b' [G' F']].
  exists ex88_u, (ln (ln 2)), b, (ln (ln 2)), b'. split; [reflexivity|]. split; [reflexivity|]. split; [intros j x y H; discriminate|].
  split.
  { split; [exact I|]. split; [intros i Hi; cbn in *; destruct i; lra|]. split; [intros; cbn; lra|]. split; [intros; cbn; lra|].
    split; [intros i j Hi; cbn in Hi; lia|]. intros x. cbn. lra. }
  split; [exists (ln (ln 2)); split; [exact G|exact F]|]. split; [exists (ln (ln 2)); split; [exact G'|exact F']|].
  assert (0 < ln 2) by (rewrite <- ln_1; apply ln_increasing; lra).
  assert (ln 2 < 1).
  { rewrite <- (ln_exp 1). apply ln_increasing; [lra|]. pose proof (exp_ineq1 1 R1_neq_R0). lra. }
  assert (ln (ln 2) < 0) by (rewrite <- ln_1; apply ln_increasing; lra). lra.
Qed.
Print Assumptions C88_cloglog_refuted.

(** ** The hypotheses are met: routines that treat mirror images alike, and a fit with a bound, an offset and a
    prior start that runs through both coordinate descent and the conversion of units *)
Definition odd_libs : libs := mkLibs (fun _ => 0%N) (fun _ A b => Some (fun k => b k / A k k))
  (fun _ _ _ _ => None) (fun _ _ _ _ => 0) (fun _ _ x0 _ _ => mkLb x0 LbLimit) (fun _ _ x0 _ _ _ => mkTr x0 TrLimit).
Lemma odd_libs_odd : libs_odd odd_libs.
Proof.
  split; [|split].
  - intros n A b. cbn. f_equal. fe. unfold negv. unfold Rdiv. ring.
  - intros. reflexivity.
  - intros. reflexivity.
Qed.
Lemma cd_returns u se q l g a : fit_with SCd u se q l g a <> None.
Proof.
  unfold fit_with, solve. cbv zeta. set (pb := std_problem u _). set (c := get_start_coef _ _ _ _ _ _ _ _).
  assert (S1 : forall s, irls_step pb (cd_solver pb (lib_seed l)) s <> None).
  { intros s. unfold irls_step. destruct (prepare pb s) as [s1 H]. unfold cd_solver. cbv zeta.
    destruct (update_quadratic _ _ _ _) as [[? ?] ?]. destruct (check_convergence _ _ _ _) as [[[? ?] ?] ?]. discriminate. }
  assert (S2 : forall f s, irls_loop pb (cd_solver pb (lib_seed l)) f s <> None).
  { induction f as [|f IH]; intros s; cbn [irls_loop]; [discriminate|]. destruct (_ && _)%bool; [|discriminate].
    destruct (irls_step pb _ s) eqn:E; [apply IH|exfalso; exact (S1 _ E)]. }
  unfold irls_solver. destruct (irls_loop pb _ _ _) eqn:E; [discriminate|exfalso; exact (S2 _ _ E)].
Qed.
Definition ex88_v : user := mkUser 4 1 (fun i _ => INR i) (fun i => match i with 1%nat | 3%nat => 1 | _ => 0 end) (fun _ => / 4)
  (fun i => match i with O => 1 | _ => 0 end) true BinomialF LogitL (fun _ => 1 / 10) (P2diag (fun _ => 1 / 10))
  (fun _ => Some (-1)) (fun _ => Some 2) true.
Example ex88_swap : forall s,
  fit_with s (swapped ex88_v) ex70_se (Some (swapped_ineq (mkIneq 1 (fun _ _ => 1) (fun _ => 1)))) odd_libs (- (1 / 3)) (swapped_start (StartParams (fun k => INR k)))
  = option_map (fun r => let '(b0, b, w1, w2) := r in (- b0, negv b, w1, w2))
      (fit_with s ex88_v ex70_se (Some (mkIneq 1 (fun _ _ => 1) (fun _ => 1))) odd_libs (1 / 3) (StartParams (fun k => INR k)))
  /\ u_ub (swapped ex88_v) 0%nat = Some (- -1) /\ fit_with SCd ex88_v ex70_se None odd_libs (1 / 3) StartNone <> None.
Proof.
  intros s. split; [|split].
  - apply (C88_swap s ex88_v ex70_se (Some (mkIneq 1 (fun _ _ => 1) (fun _ => 1)))); [reflexivity|reflexivity| |cbn; lra|apply odd_libs_odd].
    intros j l h H1 H2. injection H1 as <-. injection H2 as <-. lra.
  - reflexivity.
  - apply cd_returns.
Qed.
