(** C109: least squares fits are linear in the responses. *)
From Coq Require Import List Lia Lra Arith. Import ListNotations.
From Verif Require Import Base M_Link M_Dist M_Std M_Valid M_Fit L_KKT L_Std L_Solver3 S_Dist S_Std S_Fit S_FitAll L_Dist L_Dist4 L_Score L_FitAll L_Gap L_Obj L_Fit P_Dist P_Score P_FitAll P_Train P_Order P_Shrink P_Ones P_Recode.
From Verif Require Import M_Solver S_Solver S_Response P_Response P_Weight S_Separation P_Separation S_Optimum P_Optimum S_Linear.
Local Open Scope R_scope.

Lemma ridge_pen u b : no_l1 u -> user_pen u (pen_scale u) b = / 2 * user_l2 u (pen_scale u) b.
Proof. intros H. unfold user_pen. rewrite (rsum_zero (u_p u)); [ring|]. intros j Hj. rewrite H by exact Hj. ring. Qed.
Lemma l2_expand u b h t : user_ok u ->
  user_l2 u (pen_scale u) (fun j => b j + t * h j) = user_l2 u (pen_scale u) b + 2 * t * l2_product u b h + t ^ 2 * user_l2 u (pen_scale u) h.
Proof.
  intros (_ & _ & _ & _ & SY & _).
  assert (E : rsum (u_p u) (fun i => rsum (u_p u) (fun j => (pen_scale u i * h i) * p2_entry (u_P2 u) i j * (pen_scale u j * b j))) = l2_product u b h).
  { rewrite rsum_swap. unfold l2_product. apply rsum_ext. intros i Hi. apply rsum_ext. intros j Hj. rewrite (SY j i Hj Hi). ring. }
  replace (2 * t * l2_product u b h) with (t * l2_product u b h + t * l2_product u b h) by ring. rewrite <- E at 2. unfold l2_product, user_l2.
  rewrite <- !rsum_scal, <- !rsum_plus. apply rsum_ext. intros i _. rewrite <- !rsum_scal, <- !rsum_plus. apply rsum_ext. intros j _. ring.
Qed.
Lemma ridge_dev u b0 b : user_ok u -> u_fam u = NormalF -> u_link u = IdentityL ->
  user_half_dev u b0 b = / 2 * rsum (u_n u) (fun i => u_w u i * (u_y u i - user_eta u b0 b i) ^ 2).
Proof.
  intros Hok Ef El. rewrite half_dev_rows; [|exact Hok|rewrite Ef, El; exact I]. rewrite <- rsum_scal. apply rsum_ext. intros i _.
  unfold row_half_dev. rewrite Ef, El. cbn [unit_deviance mean_at]. ring.
Qed.
(** The objective along a direction, exactly. *)
Lemma ridge_expand u b0 b h0 h t : user_ok u -> ridge_model u ->
  user_obj u (pen_scale u) (b0 + t * h0) (fun j => b j + t * h j) = user_obj u (pen_scale u) b0 b
  - t * (rsum (u_n u) (fun i => u_w u i * (u_y u i - user_eta u b0 b i) * tilt u h0 h i) - l2_product u b h)
  + / 2 * t ^ 2 * (rsum (u_n u) (fun i => u_w u i * tilt u h0 h i ^ 2) + user_l2 u (pen_scale u) h).
Proof.
  intros Hok (Ef & El & N1 & _). rewrite !obj_split, !ridge_pen, !ridge_dev, l2_expand by assumption.
  rewrite (rsum_ext (u_n u) (fun i => u_w u i * (u_y u i - user_eta u (b0 + t * h0) (fun j => b j + t * h j) i) ^ 2)
    (fun i => u_w u i * (u_y u i - user_eta u b0 b i) ^ 2 - (2 * t) * (u_w u i * (u_y u i - user_eta u b0 b i) * tilt u h0 h i) + t ^ 2 * (u_w u i * tilt u h0 h i ^ 2))).
  - rewrite rsum_plus, rsum_minus, !rsum_scal. field.
  - intros i _. rewrite tilt_eta. ring.
Qed.
Lemma quad_zero a c : 0 <= c -> (forall t, t * a <= / 2 * t ^ 2 * c) -> a = 0.
Proof.
  intros Hc H. destruct (Req_dec a 0) as [E|N]; [exact E|exfalso].
  specialize (H (a / (c + 1))). assert (P : 0 < a ^ 2) by (apply pow2_gt_0; exact N).
  assert (K : a / (c + 1) * a = a ^ 2 * / (c + 1)) by (field; lra). 
  assert (K2 : / 2 * (a / (c + 1)) ^ 2 * c = a ^ 2 * / (c + 1) * (/ 2 * (c * / (c + 1)))) by (field; lra).
  rewrite K, K2 in H. assert (Q : 0 < / (c + 1)) by (apply Rinv_0_lt_compat; lra).
  assert (C1 : c * / (c + 1) <= 1) by (apply Rmult_le_reg_r with (c + 1); [lra|]; rewrite Rmult_assoc, Rinv_l by lra; lra).
  assert (0 < a ^ 2 * / (c + 1)) by (apply Rmult_lt_0_compat; assumption). nra.
Qed.

(** The optimum of a least squares model is characterised by the normal equations. *)
Theorem C109_normal_equations : forall u b0 b, user_ok u -> ridge_model u -> (optimum u b0 b <-> normal_equations u b0 b).
Proof.
  intros u b0 b Hok HR. assert (FE : forall b, user_feasible u b).
  { intros c j Hj. destruct HR as (_ & _ & _ & NB). destruct (NB j Hj) as [-> ->]. split; discriminate. }
  assert (CN : forall h0 h, 0 <= rsum (u_n u) (fun i => u_w u i * tilt u h0 h i ^ 2) + user_l2 u (pen_scale u) h).
  { intros h0 h. pose proof (l2_nonneg u h Hok). pose proof Hok as (_ & _ & W & _).
    pose proof (rsum_nonneg (u_n u) (fun i => u_w u i * tilt u h0 h i ^ 2) ltac:(intros i Hi; apply Rmult_le_pos; [apply W, Hi|apply pow2_ge_0])). lra. }
  split.
  - intros [[A0 _] O]. split; [exact A0|]. intros h0 h H0. apply Rminus_diag_uniq.
    apply quad_zero with (c := rsum (u_n u) (fun i => u_w u i * tilt u h0 h i ^ 2) + user_l2 u (pen_scale u) h); [apply CN|]. intros t.
    specialize (O (b0 + t * h0) (fun j => b j + t * h j)). rewrite (ridge_expand u b0 b h0 h t Hok HR) in O.
    assert (A : allowed u (b0 + t * h0) (fun j => b j + t * h j)) by (split; [intros E; rewrite (A0 E), (H0 E); ring|apply FE]).
    specialize (O A). lra.
  - intros [A0 N]. split; [split; [exact A0|apply FE]|]. intros b0' b' [B0 _].
    pose proof (ridge_expand u b0 b (b0' - b0) (fun j => b' j - b j) 1 Hok HR) as E.
    rewrite (N (b0' - b0) (fun j => b' j - b j)) in E by (intros Z; rewrite (A0 Z), (B0 Z); ring).
    pose proof (CN (b0' - b0) (fun j => b' j - b j)) as C.
    assert (X : user_obj u (pen_scale u) b0' b' = user_obj u (pen_scale u) (b0 + 1 * (b0' - b0)) (fun j => b j + 1 * (b' j - b j))).
    { replace (b0 + 1 * (b0' - b0)) with b0' by ring. apply user_obj_ext; [reflexivity|]. intros j. ring. }
    rewrite X, E. lra.
Qed.
Print Assumptions C109_normal_equations.

Lemma ok_with_y_off u y off : user_ok u -> u_fam u = NormalF -> user_ok (with_y_off u y off).
Proof. intros (F & _ & W & P & S1 & S2) Ef. repeat split; try assumption. cbn. rewrite Ef. intros; exact I. Qed.
(** Superposition: the optimum for a combination of responses (and offsets) is the combination of the optima. *)
Theorem C109_superposition : forall u y off y' off' p q b0 b b0' b', user_ok u -> ridge_model u ->
  optimum (with_y_off u y off) b0 b -> optimum (with_y_off u y' off') b0' b' ->
  optimum (with_y_off u (fun i => p * y i + q * y' i) (fun i => p * off i + q * off' i)) (p * b0 + q * b0') (fun j => p * b j + q * b' j).
Proof.
  intros u y off y' off' p q b0 b b0' b' Hok HR O1 O2. pose proof HR as (Ef & _).
  apply C109_normal_equations in O1; [|apply ok_with_y_off; assumption|exact HR]. apply C109_normal_equations in O2; [|apply ok_with_y_off; assumption|exact HR].
  apply C109_normal_equations; [apply ok_with_y_off; assumption|exact HR|]. destruct O1 as [A1 N1]. destruct O2 as [A2 N2].
  split; [intros E; rewrite (A1 E), (A2 E); ring|]. intros h0 h H0. specialize (N1 h0 h H0). specialize (N2 h0 h H0).
  assert (L : l2_product u (fun j => p * b j + q * b' j) h = p * l2_product u b h + q * l2_product u b' h).
  { unfold l2_product. rewrite <- !rsum_scal, <- rsum_plus. apply rsum_ext. intros i _. rewrite <- !rsum_scal, <- rsum_plus. apply rsum_ext. intros j _. ring. }
  change (l2_product (with_y_off u (fun i => p * y i + q * y' i) (fun i => p * off i + q * off' i)) (fun j => p * b j + q * b' j) h) with (l2_product u (fun j => p * b j + q * b' j) h).
  rewrite L. change (l2_product u b h) with (l2_product (with_y_off u y off) b h). change (l2_product u b' h) with (l2_product (with_y_off u y' off') b' h).
  rewrite <- N1, <- N2. cbn [with_y_off u_n]. rewrite <- !rsum_scal, <- rsum_plus. apply rsum_ext. intros i _.
  cbn [with_y_off u_w u_y]. unfold tilt, user_eta. cbn [with_y_off u_p u_X u_off].
  rewrite (rsum_ext (u_p u) (fun j => u_X u i j * (p * b j + q * b' j)) (fun j => p * (u_X u i j * b j) + q * (u_X u i j * b' j))) by (intros; ring).
  rewrite rsum_plus, !rsum_scal. ring.
Qed.
Print Assumptions C109_superposition.

(** For the fits themselves, by whatever solvers: linear up to the tolerances; exactly linear with the closed form. *)
Theorem C109_fits : forall u m y off y' off' p q s s1 s2 se se1 se2 b0 b b0' b' c0 c S0, user_ok u -> ridge_model u -> curved u m ->
  silent s1 (with_y_off u y off) se1 b0 b -> silent s2 (with_y_off u y' off') se2 b0' b' ->
  silent s (with_y_off u (fun i => p * y i + q * y' i) (fun i => p * off i + q * off' i)) se c0 c ->
  1 + rsum (u_p u) (fun j => Rabs (u_means u j)) <= S0 -> (forall j, (j < u_p u)%nat -> col_scale u j <= S0) ->
  let e := 2 * (fit_tol s u se + Rabs p * fit_tol s1 u se1 + Rabs q * fit_tol s2 u se2) * S0 / m in
  Rabs (c0 - (p * b0 + q * b0')) <= e /\ forall j, (j < u_p u)%nat -> Rabs (c j - (p * b j + q * b' j)) <= e.
Proof.
  intros u m y off y' off' p q s s1 s2 se se1 se2 b0 b b0' b' c0 c S0 Hok HR HC F1 F2 F3 HM HS e. pose proof HR as (Ef & El & _ & NB).
  assert (Hc : convex_pair (u_fam u) (u_link u)) by (rewrite Ef, El; exact I).
  assert (AL : exists b0 b, allowed u b0 b). { exists 0, (fun _ => 0). split; [reflexivity|]. intros j Hj. destruct (NB j Hj) as [-> ->]. split; discriminate. }
  assert (OKY : forall y off, user_ok (with_y_off u y off)) by (intros; apply ok_with_y_off; assumption).
  destruct (C108_exists (with_y_off u y off) m (OKY y off) Hc HC AL) as [d0 [d O1]].
  destruct (C108_exists (with_y_off u y' off') m (OKY y' off') Hc HC AL) as [d0' [d' O2]].
  pose proof (C109_superposition u y off y' off' p q d0 d d0' d' Hok HR O1 O2) as O3.
  destruct (C108_fits_near (with_y_off u y off) m s1 se1 b0 b d0 d S0 (OKY y off) Hc HC F1 O1 HM HS) as [X1 Y1].
  destruct (C108_fits_near (with_y_off u y' off') m s2 se2 b0' b' d0' d' S0 (OKY y' off') Hc HC F2 O2 HM HS) as [X2 Y2].
  destruct (C108_fits_near (with_y_off u (fun i => p * y i + q * y' i) (fun i => p * off i + q * off' i)) m s se c0 c _ _ S0 (OKY _ _) Hc HC F3 O3 HM HS) as [X3 Y3].
  change (fit_tol s1 (with_y_off u y off) se1) with (fit_tol s1 u se1) in *.
  change (fit_tol s2 (with_y_off u y' off') se2) with (fit_tol s2 u se2) in *.
  change (fit_tol s (with_y_off u (fun i => p * y i + q * y' i) (fun i => p * off i + q * off' i)) se) with (fit_tol s u se) in *.
  assert (K : forall z x x' d d', Rabs (z - (p * d + q * d')) <= 2 * fit_tol s u se * S0 / m -> Rabs (x - d) <= 2 * fit_tol s1 u se1 * S0 / m ->
     Rabs (x' - d') <= 2 * fit_tol s2 u se2 * S0 / m -> Rabs (z - (p * x + q * x')) <= e).
  { clear. intros z x x' d d' H1 H2 H3. replace (z - (p * x + q * x')) with ((z - (p * d + q * d')) + (- (p * (x - d)) + - (q * (x' - d')))) by ring.
    eapply Rle_trans; [apply Rabs_triang|]. pose proof (Rabs_triang (- (p * (x - d))) (- (q * (x' - d')))) as T.
    rewrite !Rabs_Ropp, !Rabs_mult in T.
    pose proof (Rmult_le_compat_l (Rabs p) _ _ (Rabs_pos p) H2). pose proof (Rmult_le_compat_l (Rabs q) _ _ (Rabs_pos q) H3).
    unfold e, Rdiv in *. lra. }
  split; [apply (K c0 b0 b0' d0 d0' X3 X1 X2)|]. intros j Hj. apply (K (c j) (b j) (b' j) (d j) (d' j) (Y3 j Hj) (Y1 j Hj) (Y2 j Hj)).
Qed.
Print Assumptions C109_fits.

(** Leverage: raising one response by t raises the prediction of that row by something between 0 and t (closed form). *)
Theorem C109_leverage : forall u y' se se' b0 b b0' b' i, user_ok u -> ridge_model u ->
  silent SClosed u se b0 b -> silent SClosed (with_y u y') se' b0' b' ->
  (i < u_n u)%nat -> (forall k, (k < u_n u)%nat -> k <> i -> y' k = u_y u k) -> u_y u i <= y' i -> 0 < u_w u i ->
  0 <= user_eta u b0' b' i - user_eta u b0 b i <= y' i - u_y u i.
Proof.
  intros u y' se se' b0 b b0' b' i Hok (Ef & El & _ & _) S1 S2 Hi HE Hy Hw.
  destruct (close_somewhere u b0 b b0' b') as [D [HD HX]].
  assert (Hc : convex_pair (u_fam u) (u_link u)) by (rewrite Ef, El; exact I).
  assert (SU : forall k, (k < u_n u)%nat -> support (u_fam u) (y' k)) by (intros; rewrite Ef; exact I).
  pose proof (C104_gaussian u y' SClosed SClosed se se' b0 b b0' b' D Hok Ef El S1 S2 HD HX) as G. cbn [fit_tol] in G.
  rewrite (rsum_single (u_n u) i (fun i => u_w u i * (y' i - u_y u i) ^ 2)) in G; [|exact Hi|intros k Hk Nk; rewrite (HE k Hk Nk); ring].
  pose proof (l2_nonneg u (fun j => b' j - b j) Hok) as P.
  pose proof (rsum_ge_one (u_n u) (fun i => u_w u i * (user_eta u b0' b' i - user_eta u b0 b i) ^ 2) i
    ltac:(intros k Hk; apply Rmult_le_pos; [apply Hok, Hk|apply pow2_ge_0]) Hi) as R1. cbv beta in R1.
  set (d := user_eta u b0' b' i - user_eta u b0 b i) in *. set (t := y' i - u_y u i) in *.
  assert (SQ : d ^ 2 <= t ^ 2). { apply Rmult_le_reg_l with (u_w u i); [exact Hw|]. lra. }
  assert (T0 : 0 <= t) by (unfold t; lra).
  assert (UP : d <= t) by nra.
  split; [|exact UP]. destruct (Rle_lt_or_eq_dec _ _ Hy) as [L|E].
  - pose proof (proj2 (C104_own_row u y' SClosed SClosed se se' b0 b b0' b' D i Hok SU Hc S1 S2 HD HX Hi HE L Hw) eq_refl eq_refl) as M.
    rewrite El in M. cbn [mean_at] in M. unfold d. lra.
  - assert (t = 0) by (unfold t; lra). nra.
Qed.
Print Assumptions C109_leverage.

(** Non-vacuity: the three rows of C100 with responses y, y' and 2 y - y'. *)
Example ex109_nonvacuous : exists b0 b b0' b' c0 c, let y := u_y ex100_u in let o := fun _ : nat => 0 in
  user_ok ex100_u /\ ridge_model ex100_u /\ curved ex100_u (/ 4) /\
  silent SClosed (with_y_off ex100_u y o) ex70_se b0 b /\ silent SClosed (with_y_off ex100_u ex104_y o) ex70_se b0' b' /\
  silent SClosed (with_y_off ex100_u (fun i => 2 * y i + -1 * ex104_y i) (fun i => 2 * o i + -1 * o i)) ex70_se c0 c /\
  silent SClosed ex100_u ex70_se b0 b /\ silent SClosed (with_y ex100_u ex104_y) ex70_se b0' b' /\ 0 < u_w ex100_u 0.
Proof.
  assert (K : forall y off, user_ok (with_y_off ex100_u y off)) by (intros; apply ok_with_y_off; [exact ex100_ok|reflexivity]).
  destruct (closed_silent (with_y_off ex100_u (u_y ex100_u) (fun _ => 0)) (K _ _) eq_refl eq_refl (fun _ _ => eq_refl) (fun _ => conj eq_refl eq_refl)) as [b0 [b E1]].
  destruct (closed_silent (with_y_off ex100_u ex104_y (fun _ => 0)) (K _ _) eq_refl eq_refl (fun _ _ => eq_refl) (fun _ => conj eq_refl eq_refl)) as [b0' [b' E2]].
  destruct (closed_silent (with_y_off ex100_u (fun i => 2 * u_y ex100_u i + -1 * ex104_y i) (fun i => 2 * 0 + -1 * 0)) (K _ _) eq_refl eq_refl (fun _ _ => eq_refl) (fun _ => conj eq_refl eq_refl)) as [c0 [c E3]].
  exists b0, b, b0', b', c0, c. cbv zeta. split; [exact ex100_ok|].
  split; [split; [reflexivity|]; split; [reflexivity|]; split; [intros j _; reflexivity|intros j _; split; reflexivity]|].
  split. { destruct ex108_nonvacuous as (_ & _ & _ & _ & _ & C & _). exact C. }
  split; [exact E1|]. split; [exact E2|]. split; [exact E3|]. split; [exact E1|]. split; [exact E2|]. cbn. lra.
Qed.
Print Assumptions ex109_nonvacuous.
