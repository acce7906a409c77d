(** C90: a constant added to the offset moves into the intercept. *)
From Coq Require Import List Lia Lra ZArith FunctionalExtensionality. Import ListNotations.
From Verif Require Import Base M_Link M_Dist M_Std M_Valid M_Fit L_KKT L_Std S_Dist S_Std S_Fit S_FitAll L_Score L_FitAll L_Gap L_Fit P_Score P_FitAll P_Fit P_Gauss S_Shift L_Shift.
From Verif Require Import M_Solver S_Solver.
Local Open Scope R_scope.

Lemma sh_eta t u b0 b i : user_eta (shifted t u) (b0 - t) b i = user_eta u b0 b i.
Proof. unfold user_eta. cbn [shifted u_p u_X u_off]. ring. Qed.
Lemma sh_eta' t u b0 b i : user_eta (shifted t u) b0 b i = user_eta u (b0 + t) b i.
Proof. unfold user_eta. cbn [shifted u_p u_X u_off]. ring. Qed.
Lemma sh_etaf t u b0 b : user_eta (shifted t u) b0 b = user_eta u (b0 + t) b.
Proof. apply functional_extensionality. intros i. apply sh_eta'. Qed.
Lemma sh_obj t u k b0 b : user_obj (shifted t u) k b0 b = user_obj u k (b0 + t) b.
Proof. unfold user_obj. rewrite (sh_etaf t u). reflexivity. Qed.
Lemma sh_dev t u b0 b b0' b' : pred_dev (shifted t u) b0 b b0' b' = pred_dev u (b0 + t) b (b0' + t) b'.
Proof. unfold pred_dev. rewrite !sh_etaf. reflexivity. Qed.
Lemma sh_close t u D b0 b b0' b' : std_close (shifted t u) D b0 b b0' b' <-> std_close u D (b0 + t) b (b0' + t) b'.
Proof.
  unfold std_close. change (u_p (shifted t u)) with (u_p u). change (u_means (shifted t u)) with (u_means u).
  change (u_ic (shifted t u)) with (u_ic u). change (col_scale (shifted t u)) with (col_scale u).
  replace (b0' + t - (b0 + t)) with (b0' - b0) by ring. reflexivity.
Qed.
Lemma sh_near t u e sl D b0 b : u_ic u = true -> near_optimal (shifted t u) e sl D b0 b -> near_optimal u e sl D (b0 + t) b.
Proof.
  intros IC [A N]. split; [intros H; congruence|]. intros b0' b' K HD Hic HK HX.
  specialize (N (b0' - t) b' K HD). rewrite sh_close, sh_dev, !sh_obj in N. replace (b0' - t + t) with b0' in N by ring.
  apply N; [intros H; cbn in H; congruence|exact HK|exact HX].
Qed.

(** The training objective (whatever multiplies the coefficients in the penalty) does not see the move. *)
Theorem C90_objective : forall t u k b0 b, user_obj (shifted t u) k (b0 - t) b = user_obj u k b0 b.
Proof. intros t u k b0 b. rewrite sh_obj. replace (b0 - t + t) with b0 by ring. reflexivity. Qed.
Print Assumptions C90_objective.

(** A silent fit of the shifted model, t added to its intercept, is as close to optimal for the original model as a
    fit of the original model would be (C70). *)
Theorem C90_near_optimal : forall s t u se q l guess a b0 b sl, u_ic u = true ->
  user_ok u -> 0 <= se_approx se -> se_stol se = None ->
  convex_pair (u_fam u) (u_link u) -> libs_sound sl l -> start_ok u a -> accepts s u q -> s <> SMono ->
  (s = SLbfgs \/ s = STrust -> unclipped u (b0 + t) b) ->
  fit_with s (shifted t u) se q l guess a = Some (b0, b, false, false) ->
  near_optimal u (fit_tol s u se) (match s, q with STrust, Some _ => sl | _, _ => 0 end) (admissible u q) (b0 + t) b /\
  user_feasible u b.
Proof.
  intros s t u se q l guess a b0 b sl IC Hok HC Hst Hc Hl Ha Hacc Hs Hu E.
  destruct (C70_silent_near_optimal s (shifted t u) se q l guess a b0 b sl) as (N & F & _); try assumption.
  - intros H L i Hi. rewrite sh_eta'. apply (Hu H L i Hi).
  - split; [apply (sh_near t u _ _ _ b0 b IC N)|exact F].
Qed.
Print Assumptions C90_near_optimal.

(** Two silent fits, one with the offset and one with the offset plus t, by any two solvers, agree: the objective,
    the coefficients as far as the L2 penalty determines them, the predictions. *)
Theorem C90_fits_agree : forall t u s1 s2 se1 se2 l1 l2 g1 g2 a1 a2 sl1 sl2 b0 b b0' b' D, u_ic u = true -> user_ok u ->
  0 <= se_approx se1 -> 0 <= se_approx se2 -> se_stol se1 = None -> se_stol se2 = None ->
  convex_pair (u_fam u) (u_link u) -> libs_sound sl1 l1 -> libs_sound sl2 l2 -> start_ok u a1 -> start_ok u a2 ->
  accepts s1 u None -> accepts s2 u None -> s1 <> SMono -> s2 <> SMono ->
  fit_with s1 u se1 None l1 g1 a1 = Some (b0, b, false, false) ->
  fit_with s2 (shifted t u) se2 None l2 g2 a2 = Some (b0', b', false, false) ->
  unclipped u b0 b -> unclipped u (b0' + t) b' ->
  0 <= D -> std_close u D b0 b (b0' + t) b' ->
  user_l2 u (pen_scale u) (fun j => b' j - b j)
    + / 2 * (pred_dev u b0 b (b0' + t) b' + pred_dev u (b0' + t) b' b0 b)
    <= (fit_tol s1 u se1 + fit_tol s2 u se2) * D /\
  user_obj u (pen_scale u) b0 b <= user_obj u (pen_scale u) (b0' + t) b' + fit_tol s1 u se1 * D /\
  user_obj u (pen_scale u) (b0' + t) b' <= user_obj u (pen_scale u) b0 b + fit_tol s2 u se2 * D.
Proof.
  intros t u s1 s2 se1 se2 l1 l2 g1 g2 a1 a2 sl1 sl2 b0 b b0' b' D IC Hok C1 C2 T1 T2 Hc L1 L2 A1 A2 K1 K2 M1 M2 E1 E2 U1 U2 HD HX.
  destruct (C70_silent_near_optimal s1 u se1 None l1 g1 a1 b0 b sl1 Hok C1 T1 Hc L1 A1 K1 M1 (fun _ => U1) E1) as [[I1 N1] [F1 _]].
  destruct (C90_near_optimal s2 t u se2 None l2 g2 a2 b0' b' sl2 IC Hok C2 T2 Hc L2 A2 K2 M2 (fun _ => U2) E2) as [[I2 N2] F2].
  specialize (N1 (b0' + t) b' D (conj F2 I) I2 HD HX). specialize (N2 b0 b D (conj F1 I) I1 HD (std_close_sym _ _ _ _ _ _ HX)).
  rewrite (user_l2_sym u (pen_scale u) (fun j => b' j - b j) (fun j => b j - b' j)) in N2 by (intros; ring).
  assert (P : 0 <= user_l2 u (pen_scale u) (fun j => b' j - b j)).
  { destruct Hok as [_ [_ [_ [_ [_ HP]]]]]. apply (HP (fun j => pen_scale u j * (b' j - b j))). }
  assert (Z1 : match s1, @None ineq with STrust, Some _ => sl1 | _, _ => 0 end = 0) by (destruct s1; reflexivity).
  assert (Z2 : match s2, @None ineq with STrust, Some _ => sl2 | _, _ => 0 end = 0) by (destruct s2; reflexivity).
  rewrite Z1 in N1. rewrite Z2 in N2.
  pose proof (pred_dev_nonneg u b0 b (b0' + t) b' Hok Hc).
  pose proof (pred_dev_nonneg u (b0' + t) b' b0 b Hok Hc). lra.
Qed.
Print Assumptions C90_fits_agree.

Lemma sh_start t u guess a : u_ic u = true ->
  get_start_coef (u_p u) (u_ic u) (u_means u) (u_stds u) (guess - t) (u_lb u) (u_ub u) (shifted_start t a)
  = lower0 t (get_start_coef (u_p u) (u_ic u) (u_means u) (u_stds u) guess (u_lb u) (u_ub u) a).
Proof.
  intros IC. apply functional_extensionality. intros k. unfold get_start_coef, clip_start. rewrite IC. cbn [ioff].
  destruct k as [|k]; destruct a; cbn [shifted_start lower0 Nat.ltb Nat.leb pack unpack standardize_warm_start]; try reflexivity; ring.
Qed.
Lemma sh_result t u v : u_ic u = true -> user_result (shifted t u) (lower0 t v) = (fst (user_result u v) - t, snd (user_result u v)).
Proof.
  intros IC. unfold user_result. change (u_ic (shifted t u)) with (u_ic u). rewrite IC. cbn [unpack lower0 unstandardize fst snd].
  change (u_p (shifted t u)) with (u_p u). change (u_means (shifted t u)) with (u_means u). change (u_stds (shifted t u)) with (u_stds u).
  f_equal. ring.
Qed.
(** With irls-ls and with monotonic constraints the two fits are the same run: every iterate, the warnings and the
    exceptions agree, and the result differs by t in the intercept only.  No assumption on the data, the link, the
    distribution or the linear solver; the starting intercept has to be lowered by t as well. *)
Theorem C90_exact : forall s t u se q l guess a, u_ic u = true -> s = SLs \/ s = SMono ->
  fit_with s (shifted t u) se q l (guess - t) (shifted_start t a)
  = option_map (fun r => let '(b0, b, w1, w2) := r in (b0 - t, b, w1, w2)) (fit_with s u se q l guess a).
Proof.
  intros s t u se q l guess a IC Hs. unfold fit_with.
  change (u_p (shifted t u)) with (u_p u). change (u_means (shifted t u)) with (u_means u). change (u_stds (shifted t u)) with (u_stds u).
  change (u_lb (shifted t u)) with (u_lb u). change (u_ub (shifted t u)) with (u_ub u). change (u_ic (shifted t u)) with (u_ic u).
  rewrite sh_start by exact IC. set (c := get_start_coef _ _ _ _ _ _ _ a). unfold solve. cbv zeta.
  change (solve_settings s (shifted t u) se) with (solve_settings s u se). set (se' := solve_settings s u se).
  change (std_problem (shifted t u) se') with (shifted_pb t (std_problem u se')).
  change (std_problem_P2 (shifted t u)) with (std_problem_P2 u). change (u_stds (shifted t u)) with (u_stds u).
  set (pb := std_problem u se'). assert (IP : pb_ic pb = true) by exact IC.
  destruct Hs; subst s.
  - change (ls_solver (shifted_pb t pb) (lib_pos l)) with (ls_solver pb (lib_pos l)).
    rewrite (irls_solver_sh pb t IP (ls_solver pb (lib_pos l)) (std_problem_P2 u) c (ls_sh pb t (lib_pos l))).
    destruct (irls_solver pb _ _ c) as [[st w]|]; cbn [option_map fst snd]; [|reflexivity].
    change (st_lswarn (sh_st t st)) with (st_lswarn st). change (st_coef (sh_st t st)) with (lower0 t (st_coef st)). rewrite sh_result by exact IC.
    destruct (user_result u (st_coef st)) as [b0 b]. reflexivity.
  - destruct q as [q|]; cbn [option_map]; [|reflexivity].
    change (ls_solver (shifted_pb t pb) (lib_pos l)) with (ls_solver pb (lib_pos l)).
    rewrite (mono_solver_sh pb t IP (ls_solver pb (lib_pos l)) (std_ineq q (u_stds u)) (std_problem_P2 u) 100000 1000000000 100 c (ls_sh pb t (lib_pos l))).
    destruct (monotonic_irls_solver pb _ _ _ _ _ _ c) as [[[m w1] w2]|]; cbn [option_map fst snd]; [|reflexivity].
    change (st_lswarn (ms_st (sh_ms t m))) with (st_lswarn (ms_st m)). change (st_coef (ms_st (sh_ms t m))) with (lower0 t (st_coef (ms_st m))).
    rewrite sh_result by exact IC. destruct (user_result u (st_coef (ms_st m))) as [b0 b]. reflexivity.
Qed.
Print Assumptions C90_exact.

Definition raise_row (t : R) (g : grow) : grow := mkgrow (g_y g) (g_w g) (g_eta g + t).
Lemma guess_rows_sh t u : guess_rows (shifted t u) = map (raise_row t) (guess_rows u).
Proof. unfold guess_rows. rewrite map_map. reflexivity. Qed.
Lemma all_equal_sh t l : all_equal (map (raise_row t) l) = all_equal l.
Proof.
  destruct l as [|g l]; [reflexivity|]. cbn [all_equal map]. induction l as [|h l IH]; [reflexivity|]. cbn [forallb map].
  cbn [raise_row g_y] in *. rewrite IH. reflexivity.
Qed.
Lemma gavg_y_sh t l : gavg g_y (map (raise_row t) l) = gavg g_y l.
Proof. unfold gavg. rewrite !lsumf_map. reflexivity. Qed.
Lemma gavg_eta_sh t l : lsumf g_w l <> 0 -> gavg g_eta (map (raise_row t) l) = gavg g_eta l + t.
Proof.
  intros H. unfold gavg. rewrite !lsumf_map. change (lsumf (fun x => g_w (raise_row t x)) l) with (lsumf g_w l).
  rewrite (lsumf_ext _ (fun x => g_eta (raise_row t x) * g_w (raise_row t x)) (fun x => g_eta x * g_w x + t * g_w x)) by (intros x _; cbn; ring).
  assert (E : lsumf (fun x => g_eta x * g_w x + t * g_w x) l = lsumf (fun x => g_eta x * g_w x) l + t * lsumf g_w l).
  { clear. induction l as [|g l IH]; [rewrite !lsumf_nil; ring|]. rewrite !lsumf_cons, IH. ring. }
  rewrite E. field. exact H.
Qed.
Lemma lsumf_pos' (l : list grow) f : (forall g, In g l -> 0 <= f g) -> (exists g, In g l /\ 0 < f g) -> 0 < lsumf f l.
Proof.
  induction l as [|h l IH]; intros H [g [Hg P]]; [destruct Hg|]. rewrite lsumf_cons.
  assert (N : 0 <= lsumf f l).
  { clear - H. induction l as [|k l IH]; [rewrite lsumf_nil; lra|]. rewrite lsumf_cons. pose proof (H k (or_intror (or_introl eq_refl))).
    assert (0 <= lsumf f l); [|lra]. apply IH. intros g [E|E]; apply H; [left; exact E|right; right; exact E]. }
  destruct Hg as [->|Hg]; [lra|]. pose proof (H h (or_introl eq_refl)).
  assert (0 < lsumf f l); [|lra]. apply IH; [intros k Hk; apply H; right; exact Hk|exists g; split; assumption].
Qed.
Lemma raise_power (e : grow -> R) p (w y : grow -> R) t l : (forall g, In g l -> 0 <= y g) -> (forall g, In g l -> 0 <= w g) -> (exists g, In g l /\ 0 < y g /\ 0 < w g) ->
  ln (lsumf (fun g => y g * Rpower (exp (e g + t)) p * w g) l) = ln (lsumf (fun g => y g * Rpower (exp (e g)) p * w g) l) + t * p.
Proof.
  intros Hy Hw [g [Hg [Y W]]].
  rewrite (lsumf_ext _ (fun g => y g * Rpower (exp (e g + t)) p * w g) (fun g => exp (t * p) * (y g * Rpower (exp (e g)) p * w g))).
  - rewrite lsumf_scal, ln_mult, ln_exp; [ring|apply exp_pos|].
    apply lsumf_pos'.
    + intros h Hh. apply Rmult_le_pos; [apply Rmult_le_pos; [apply Hy, Hh|apply Rlt_le; unfold Rpower; apply exp_pos]|apply Hw, Hh].
    + exists g. split; [exact Hg|]. apply Rmult_lt_0_compat; [apply Rmult_lt_0_compat; [exact Y|unfold Rpower; apply exp_pos]|exact W].
  - intros h _. unfold Rpower. rewrite !ln_exp. replace (p * (e h + t)) with (t * p + p * e h) by ring. rewrite exp_plus. ring.
Qed.

(** The default start: for the identity, log and logit links the intercept guess moves by exactly t, so a default
    start satisfies C90_exact's premiss. *)
Theorem C90_guess : forall f lk t l, lk = IdentityL \/ lk = LogL \/ lk = LogitL ->
  (forall g, In g l -> 0 <= g_w g) -> (exists g, In g l /\ 0 < g_w g) ->
  (lk = LogL -> (forall g, In g l -> 0 <= g_y g) /\ exists g, In g l /\ 0 < g_y g /\ 0 < g_w g) ->
  guess_intercept f lk true (map (raise_row t) l) = option_map (fun g => g - t) (guess_intercept f lk true l).
Proof.
  intros f lk t l Hlk Hw Hp HL.
  assert (W : lsumf g_w l <> 0) by (apply Rgt_not_eq, lsumf_pos'; assumption).
  unfold guess_intercept. rewrite all_equal_sh. destruct Hlk as [ -> | [ -> | -> ] ]; cbn [andb];
    [|destruct (all_equal l); [reflexivity|]..]; cbn [option_map]; rewrite ?gavg_y_sh.
  - rewrite gavg_eta_sh by exact W. f_equal. ring.
  - f_equal. rewrite !lsumf_map. cbn [raise_row g_y g_w g_eta]. destruct (HL eq_refl) as [Y [g [Hg [Y1 W1]]]].
    rewrite (raise_power g_eta (1 - guess_power f) g_w g_y t l Y Hw (ex_intro _ g (conj Hg (conj Y1 W1)))).
    assert (E : forall e, lsumf (fun x => Rpower (exp (e x)) (2 - guess_power f) * g_w x) l = lsumf (fun x => 1 * Rpower (exp (e x)) (2 - guess_power f) * g_w x) l).
    { intros e. apply lsumf_ext. intros x _. ring. }
    rewrite (E (fun x => g_eta x + t)), (E g_eta).
    rewrite (raise_power g_eta (2 - guess_power f) g_w (fun _ => 1) t l); [ring|intros; lra|exact Hw|exists g; split; [exact Hg|split; [lra|exact W1]]].
  - rewrite gavg_eta_sh by exact W. f_equal. ring.
Qed.
Print Assumptions C90_guess.

(** For every other link the guess does not read the offset, so the default starts of the two fits differ by t in
    the linear predictor (finding F48). *)
Theorem C90_guess_other_links : forall f lk t has l, lk <> IdentityL -> lk <> LogL -> lk <> LogitL ->
  guess_intercept f lk has (map (raise_row t) l) = guess_intercept f lk has l.
Proof.
  intros f lk t has l H1 H2 H3. unfold guess_intercept. rewrite all_equal_sh.
  destruct lk; try congruence; cbn [andb]; (destruct (all_equal l); [reflexivity|]); rewrite lsumf_map; reflexivity.
Qed.
Print Assumptions C90_guess_other_links.

(** The whole statement for a fit from the default start. *)
Theorem C90_default_start : forall s t u se q l g, u_ic u = true -> s = SLs \/ s = SMono ->
  u_link u = IdentityL \/ u_link u = LogL \/ u_link u = LogitL ->
  (forall i, (i < u_n u)%nat -> 0 <= u_w u i) -> (exists i, (i < u_n u)%nat /\ 0 < u_w u i) ->
  (u_link u = LogL -> (forall i, (i < u_n u)%nat -> 0 <= u_y u i) /\ exists i, (i < u_n u)%nat /\ 0 < u_y u i /\ 0 < u_w u i) ->
  guess_intercept (u_fam u) (u_link u) true (guess_rows u) = Some g ->
  exists g', guess_intercept (u_fam u) (u_link u) true (guess_rows (shifted t u)) = Some g' /\
  fit_with s (shifted t u) se q l g' StartNone
  = option_map (fun r => let '(b0, b, w1, w2) := r in (b0 - t, b, w1, w2)) (fit_with s u se q l g StartNone).
Proof.
  intros s t u se q l g IC Hs Hlk Hw [i [Hi Wi]] HL G. exists (g - t).
  assert (IN : forall i, (i < u_n u)%nat -> In (mkgrow (u_y u i) (u_w u i) (u_off u i)) (guess_rows u)).
  { intros k Hk. unfold guess_rows. apply in_map_iff. exists k. split; [reflexivity|]. apply in_seq. lia. }
  assert (NI : forall x, In x (guess_rows u) -> exists k, (k < u_n u)%nat /\ x = mkgrow (u_y u k) (u_w u k) (u_off u k)).
  { intros x Hx. unfold guess_rows in Hx. apply in_map_iff in Hx. destruct Hx as [k [<- Hk]]. apply in_seq in Hk. exists k. split; [lia|reflexivity]. }
  split; [|apply (C90_exact s t u se q l g StartNone IC Hs)].
  rewrite guess_rows_sh, C90_guess, G; [reflexivity|exact Hlk| | |].
  - intros x Hx. destruct (NI x Hx) as [k [Hk ->]]. apply Hw, Hk.
  - exists (mkgrow (u_y u i) (u_w u i) (u_off u i)). split; [apply IN, Hi|exact Wi].
  - intros E. destruct (HL E) as [Y [k [Hk P]]]. split.
    + intros x Hx. destruct (NI x Hx) as [j [Hj ->]]. apply Y, Hj.
    + exists (mkgrow (u_y u k) (u_w u k) (u_off u k)). split; [apply IN, Hk|exact P].
Qed.
Print Assumptions C90_default_start.

(** offset=None and an offset of zeros give the same default start. *)
Theorem C90_no_offset : forall f lk l, (forall g, In g l -> g_eta g = 0) -> 0 < lsumf g_w l ->
  (lk = LogL -> 0 < lsumf (fun g => g_y g * g_w g) l) ->
  guess_intercept f lk false l = guess_intercept f lk true l.
Proof.
  intros f lk l H0 W HL. unfold guess_intercept. destruct (_ && all_equal l)%bool; [reflexivity|]. f_equal.
  assert (G : gavg g_eta l = 0).
  { unfold gavg. replace (lsumf (fun g => g_eta g * g_w g) l) with 0; [unfold Rdiv; ring|]. symmetry. apply lsumf_zero. intros g Hg. rewrite H0 by exact Hg. ring. }
  destruct lk; try reflexivity; rewrite ?G; try ring.
  specialize (HL eq_refl). unfold gavg, Rdiv. rewrite ln_mult, ln_Rinv; [|exact W|exact HL|apply Rinv_0_lt_compat, W].
  assert (E : forall p, lsumf (fun g => Rpower (exp (g_eta g)) p * g_w g) l = lsumf g_w l).
  { intros p. apply lsumf_ext. intros g Hg. rewrite (H0 g Hg). unfold Rpower. rewrite ln_exp, Rmult_0_r, exp_0. ring. }
  rewrite E. replace (lsumf (fun g => g_y g * Rpower (exp (g_eta g)) (1 - guess_power f) * g_w g) l) with (lsumf (fun g => g_y g * g_w g) l); [ring|].
  apply lsumf_ext. intros g Hg. rewrite (H0 g Hg). unfold Rpower. rewrite ln_exp, Rmult_0_r, exp_0. ring.
Qed.
Print Assumptions C90_no_offset.

(** A silent least-squares fit from the default start and the silent fit of the same data with offset 3. *)
Example ex90_nonvacuous : exists b0 b,
  u_ic (exu None) = true /\ user_ok (exu None) /\ convex_pair (u_fam (exu None)) (u_link (exu None)) /\ libs_sound 0 exact_libs /\
  start_ok (exu None) StartNone /\ accepts SLs (exu None) None /\
  guess_intercept NormalF IdentityL true (guess_rows (exu None)) = Some 0 /\
  guess_intercept NormalF IdentityL true (guess_rows (shifted 3 (exu None))) = Some (-3) /\
  fit_with SLs (exu None) ex70_se None exact_libs 0 StartNone = Some (b0, b, false, false) /\
  fit_with SLs (shifted 3 (exu None)) ex70_se None exact_libs (0 - 3) StartNone = Some (b0 - 3, b, false, false) /\
  std_close (exu None) 0 b0 b (b0 - 3 + 3) b /\ unclipped (exu None) b0 b.
Proof.
  destruct C72_nonvacuous as (b0 & b & E & _). destruct (C70_nonvacuous SLs ltac:(discriminate) ltac:(discriminate)) as (_ & _ & _ & Hok & HL & _ & HA & _).
  exists b0, b. split; [reflexivity|]. split; [exact Hok|]. split; [exact I|]. split; [exact HL|].
  split; [left; split; [reflexivity|]; intros j _; split; discriminate|]. split; [exact HA|].
  split; [cbn; unfold gavg, lsumf; cbn; f_equal; field|]. split; [cbn; unfold gavg, lsumf; cbn; f_equal; field|].
  split; [exact E|]. split; [|split; [|discriminate]].
  - pose proof (C90_exact SLs 3 (exu None) ex70_se None exact_libs 0 StartNone eq_refl (or_introl eq_refl)) as H.
    cbn [shifted_start] in H. rewrite H, E. reflexivity.
  - replace (b0 - 3 + 3) with b0 by ring. split.
    + intros _. rewrite rsum_zero by (intros; ring). replace (b0 - b0 + 0) with 0 by ring. rewrite Rabs_R0. lra.
    + intros j _. replace (b j - b j) with 0 by ring. rewrite Rabs_R0. lra.
Qed.
