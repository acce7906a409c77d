(** C107: fits to separated data. *)
From Coq Require Import List Lia Lra Arith. Import ListNotations.
From Coquelicot Require Import Coquelicot.
From Verif Require Import Base M_Link M_Dist M_Std M_Valid M_Fit L_KKT L_Std L_Solver3 S_Dist S_Std S_Fit S_FitAll L_Dist L_Dist4 L_Score L_FitAll L_Gap L_Obj L_Fit P_Dist P_Score P_FitAll P_Train P_Order.
From Verif Require Import M_Solver S_Solver S_Response P_Response P_Weight S_Separation.
Local Open Scope R_scope.

Lemma residual_cont f lk y (e : R) : family_ok f -> convex_pair f lk -> continuous (residual f lk y) e.
Proof.
  intros Hf Hc. apply (ex_derive_continuous (residual f lk y)).
  destruct f as [p| | | | | | |th]; destruct lk; simpl in Hc; try (exfalso; exact Hc); unfold residual, mean_at; auto_derive; auto.
  - pose proof (exp_pos (- e)). repeat split; lra.
  - cbn in Hf. pose proof (exp_pos e). assert (0 < th * exp e) by (apply Rmult_lt_0_compat; assumption). repeat split; lra.
Qed.
Lemma cont_scale (f : R -> R) a d x : continuous f x -> continuous (fun t => a * (f t * d)) x.
Proof.
  intros H. apply (continuous_mult (fun _ => a) (fun t => f t * d)); [apply continuous_const|].
  apply (continuous_mult f (fun _ => d)); [exact H|apply continuous_const].
Qed.
Lemma rsum_cont n (f : nat -> R -> R) x : (forall i, (i < n)%nat -> continuous (f i) x) -> continuous (fun t => rsum n (fun i => f i t)) x.
Proof.
  induction n as [|n IH]; intros H; cbn [rsum]; [apply continuous_const|].
  apply (continuous_plus (fun t => rsum n (fun i => f i t)) (f n)); [apply IH; intros; apply H; lia|apply H; lia].
Qed.
Lemma le_from_right (f : R -> R) B : continuous f 0 -> (forall t, 0 < t -> f t <= B) -> f 0 <= B.
Proof.
  intros Hc H. apply Rnot_lt_le. intros L. 
  destruct (Hc (fun y => B < y)) as [d Hd].
  { exists (mkposreal (f 0 - B) ltac:(lra)). intros y Hy. unfold ball in Hy. cbn in Hy. unfold AbsRing_ball, abs, minus, plus, opp in Hy. cbn in Hy.
    apply Rabs_def2 in Hy. lra. }
  specialize (Hd (d / 2)). pose proof (cond_pos d). specialize (H (d / 2) ltac:(lra)).
  assert (B < f (d / 2)); [|lra]. apply Hd. unfold ball. cbn. unfold AbsRing_ball, abs, minus, plus, opp. cbn. rewrite Rabs_pos_eq; lra.
Qed.
Lemma pen_unpenalised u b : unpenalised u -> user_pen u (pen_scale u) b = 0.
Proof.
  intros [H1 H2]. unfold user_pen, user_l2. rewrite !rsum_zero; [ring| |].
  - intros j Hj. rewrite H1 by exact Hj. ring.
  - intros i Hi. apply rsum_zero. intros j Hj. rewrite H2 by assumption. ring.
Qed.
Lemma tilt_eta u b0 b c0 c t i : user_eta u (b0 + t * c0) (fun j => b j + t * c j) i = user_eta u b0 b i + t * tilt u c0 c i.
Proof.
  unfold user_eta, tilt. rewrite (rsum_ext _ _ (fun j => u_X u i j * b j + t * (u_X u i j * c j))) by (intros; ring).
  rewrite rsum_plus, rsum_scal. ring.
Qed.
Lemma tilt_close u b0 b c0 c L t : 0 <= t -> std_close u L 0 (fun _ => 0) c0 c -> std_close u (t * L) b0 b (b0 + t * c0) (fun j => b j + t * c j).
Proof.
  intros Ht [H1 H2]. split.
  - intros E. specialize (H1 E). rewrite (rsum_ext _ _ (fun j => t * (u_means u j * (c j - 0)))) by (intros; ring). rewrite rsum_scal.
    replace (b0 + t * c0 - b0 + t * rsum (u_p u) (fun j => u_means u j * (c j - 0))) with (t * (c0 - 0 + rsum (u_p u) (fun j => u_means u j * (c j - 0)))) by ring.
    rewrite Rabs_mult, (Rabs_pos_eq t) by exact Ht. apply Rmult_le_compat_l; assumption.
  - intros j Hj. specialize (H2 j Hj). replace (b j + t * c j - b j) with (t * (c j - 0)) by ring. rewrite Rabs_mult, (Rabs_pos_eq t) by exact Ht.
    replace (col_scale u j * (t * Rabs (c j - 0))) with (t * (col_scale u j * Rabs (c j - 0))) by ring. apply Rmult_le_compat_l; assumption.
Qed.
(** One-sided slope of the deviance along a direction: at most the weighted residuals after the step. *)
Lemma dev_slope u b0 b c0 c t : user_ok u -> convex_pair (u_fam u) (u_link u) -> 0 < t ->
  t * rsum (u_n u) (fun i => u_w u i * (residual (u_fam u) (u_link u) (u_y u i) (user_eta u b0 b i + t * tilt u c0 c i) * tilt u c0 c i))
  <= user_half_dev u b0 b - user_half_dev u (b0 + t * c0) (fun j => b j + t * c j).
Proof.
  intros Hok Hc Ht. rewrite !half_dev_rows by assumption. rewrite <- rsum_scal, <- rsum_minus. apply rsum_le. intros i Hi.
  pose proof Hok as (Hf & Hy & Hw & _). unfold row_half_dev. rewrite tilt_eta. set (e := user_eta u b0 b i). set (d := tilt u c0 c i).
  pose proof (half_gap (u_fam u) (u_link u) (u_y u i) (e + t * d) e Hf (Hy i Hi) Hc) as G.
  pose proof (unit_half (u_fam u) (u_link u) (u_y u i) (e + t * d) e Hf (Hy i Hi) Hc) as U.
  assert (M : 0 <= pred_weight (u_fam u) (u_y u i) (mean_at (u_link u) (e + t * d))
      * (half_at (u_fam u) (u_link u) (mean_at (u_link u) (e + t * d)) e - half_at (u_fam u) (u_link u) (mean_at (u_link u) (e + t * d)) (e + t * d))).
  { apply Rmult_le_pos; [apply (pred_weight_nonneg _ _ _ _ Hf (Hy i Hi) Hc)|].
    rewrite <- (unit_half _ _ _ _ _ Hf (mean_support _ _ _ Hc) Hc). pose proof (unit_min (u_fam u) (u_link u) (e + t * d) e Hf Hc). lra. }
  specialize (Hw i Hi). set (r := residual _ _ _ _) in *. 
  replace (t * (u_w u i * (r * d))) with (u_w u i * (t * (r * d))) by ring. rewrite <- Rmult_minus_distr_l. apply Rmult_le_compat_l; [exact Hw|].
  replace (r * (e - (e + t * d))) with (- (t * (r * d))) in G by ring. lra.
Qed.

(** The score equations of an unpenalised fit in every direction, for every solver. *)
Theorem C107_score_any_direction : forall u s se b0 b c0 c L,
  user_ok u -> convex_pair (u_fam u) (u_link u) -> unpenalised u -> no_bounds u -> silent s u se b0 b ->
  (u_ic u = false -> c0 = 0) -> 0 <= L -> std_close u L 0 (fun _ => 0) c0 c ->
  Rabs (rsum (u_n u) (fun i => u_w u i * (residual (u_fam u) (u_link u) (u_y u i) (user_eta u b0 b i) * tilt u c0 c i))) <= fit_tol s u se * L.
Proof.
  intros u s se b0 b c0 c L Hok Hc Hu Hb S1 I0 HL HX. destruct (silent_near s u se b0 b Hok Hc S1) as [[J0 N] F].
  assert (ONE : forall c0 c, (u_ic u = false -> c0 = 0) -> std_close u L 0 (fun _ => 0) c0 c ->
     rsum (u_n u) (fun i => u_w u i * (residual (u_fam u) (u_link u) (u_y u i) (user_eta u b0 b i) * tilt u c0 c i)) <= fit_tol s u se * L).
  { clear c0 c I0 HX. intros c0 c I0 HX.
    pose (g := fun t => rsum (u_n u) (fun i => u_w u i * (residual (u_fam u) (u_link u) (u_y u i) (user_eta u b0 b i + t * tilt u c0 c i) * tilt u c0 c i))).
    assert (G0 : rsum (u_n u) (fun i => u_w u i * (residual (u_fam u) (u_link u) (u_y u i) (user_eta u b0 b i) * tilt u c0 c i)) = g 0).
    { apply rsum_ext. intros i _. rewrite Rmult_0_l, Rplus_0_r. reflexivity. }
    rewrite G0. apply le_from_right.
    - apply rsum_cont. intros i Hi. apply (cont_scale (fun t => residual (u_fam u) (u_link u) (u_y u i) (user_eta u b0 b i + t * tilt u c0 c i))).
      apply (continuous_comp (fun t => user_eta u b0 b i + t * tilt u c0 c i) (residual (u_fam u) (u_link u) (u_y u i))).
      + apply (ex_derive_continuous (fun t => user_eta u b0 b i + t * tilt u c0 c i)). auto_derive. exact I.
      + apply residual_cont; [apply Hok|exact Hc].
    - intros t Ht. specialize (N (b0 + t * c0) (fun j => b j + t * c j) (t * L)).
      assert (FE : user_feasible u (fun j => b j + t * c j)).
      { intros j Hj. destruct (Hb j Hj) as [-> ->]. split; intros ? E; discriminate E. }
      specialize (N (conj FE I)). rewrite !obj_split, !pen_unpenalised in N by exact Hu.
      pose proof (pred_dev_nonneg u b0 b (b0 + t * c0) (fun j => b j + t * c j) Hok Hc).
      pose proof (l2_nonneg u (fun j => b j + t * c j - b j) Hok).
      pose proof (dev_slope u b0 b c0 c t Hok Hc Ht) as D. fold (g t) in D.
      assert (T : t * g t <= t * (fit_tol s u se * L)); [|apply Rmult_le_reg_l in T; [exact T|exact Ht]].
      specialize (N ltac:(intros E; rewrite (J0 E), (I0 E); ring) ltac:(apply Rmult_le_pos; lra) (tilt_close u b0 b c0 c L t ltac:(lra) HX)). lra. }
  apply Rabs_le. split; [|apply ONE; assumption].
  assert (HN : std_close u L 0 (fun _ => 0) (- c0) (fun j => - c j)).
  { destruct HX as [X1 X2]. split.
    - intros E. specialize (X1 E). rewrite (rsum_ext _ _ (fun j => -1 * (u_means u j * (c j - 0)))) by (intros; ring). rewrite rsum_scal.
      rewrite <- Rabs_Ropp. eapply Rle_trans; [|exact X1]. right. f_equal. ring.
    - intros j Hj. specialize (X2 j Hj). replace (- c j - 0) with (- (c j - 0)) by ring. rewrite Rabs_Ropp. exact X2. }
  specialize (ONE (- c0) (fun j => - c j) ltac:(intros E; rewrite (I0 E); ring) HN).
  rewrite (rsum_ext _ _ (fun i => -1 * (u_w u i * (residual (u_fam u) (u_link u) (u_y u i) (user_eta u b0 b i) * tilt u c0 c i)))), rsum_scal in ONE.
  - lra.
  - intros i Hi. replace (tilt u (- c0) (fun j => - c j) i) with (- tilt u c0 c i); [ring|].
    unfold tilt. rewrite (rsum_ext _ (fun j => u_X u i j * - c j) (fun j => -1 * (u_X u i j * c j))) by (intros; ring). rewrite rsum_scal. ring.
Qed.
Print Assumptions C107_score_any_direction.

Lemma unopposed_sign f lk y e d : family_ok f -> convex_pair f lk -> lk <> IdentityL -> unopposed f y d -> d <> 0 -> 0 < residual f lk y e * d.
Proof.
  intros Hf Hc Hl HO Nz. pose proof (exp_pos e) as Pe. pose proof (exp_pos (- e)) as Pn. destruct HO as [O|[[-> Hd]|[-> [-> Hd]]]]; [contradiction| |].
  - assert (N : residual f lk 0 e < 0); [|nra].
    destruct f as [p| | | | | | |th]; destruct lk; simpl in Hc; try (exfalso; exact Hc); try contradiction; cbn [residual mean_at].
    + pose proof (exp_pos ((1 - p) * e)). nra.
    + lra.
    + nra.
    + assert (0 < / (1 + exp (- e))) by (apply Rinv_0_lt_compat; lra). lra.
    + cbn in Hf. assert (0 < th * exp e) by (apply Rmult_lt_0_compat; assumption).
      assert (0 < / (1 + th * exp e)) by (apply Rinv_0_lt_compat; lra). unfold Rdiv. nra.
  - assert (N : 0 < residual BinomialF lk 1 e); [|nra].
    destruct lk; simpl in Hc; try (exfalso; exact Hc). cbn [residual mean_at].
    assert (/ (1 + exp (- e)) < / 1) by (apply Rinv_lt_contravar; lra). lra.
Qed.
Lemma unopposed_term f lk y e d : family_ok f -> convex_pair f lk -> lk <> IdentityL -> unopposed f y d ->
  residual f lk y e * d = Rabs (residual f lk y e) * Rabs d.
Proof.
  intros Hf Hc Hl HO. destruct (Req_dec d 0) as [-> |N]; [rewrite Rabs_R0; ring|].
  pose proof (unopposed_sign f lk y e d Hf Hc Hl HO N). rewrite <- Rabs_mult, Rabs_pos_eq; lra.
Qed.

(** Along a direction that no row speaks against, an unpenalised fit without warning has removed the residuals. *)
Theorem C107_separated : forall u s se b0 b c0 c L,
  user_ok u -> convex_pair (u_fam u) (u_link u) -> u_link u <> IdentityL -> unpenalised u -> no_bounds u -> silent s u se b0 b ->
  separating u c0 c L ->
  rsum (u_n u) (fun i => u_w u i * (Rabs (residual (u_fam u) (u_link u) (u_y u i) (user_eta u b0 b i)) * Rabs (tilt u c0 c i))) <= fit_tol s u se * L.
Proof.
  intros u s se b0 b c0 c L Hok Hc Hl Hu Hb S1 (I0 & HL & HX & HO).
  pose proof (C107_score_any_direction u s se b0 b c0 c L Hok Hc Hu Hb S1 I0 HL HX) as H.
  eapply Rle_trans; [|eapply Rle_trans; [apply Rle_abs|exact H]]. right. apply rsum_ext. intros i Hi.
  rewrite unopposed_term; [reflexivity|apply Hok|exact Hc|exact Hl|apply HO, Hi].
Qed.
Print Assumptions C107_separated.

Lemma tol_nonneg s u se b0 b : silent s u se b0 b -> 0 <= fit_tol s u se.
Proof. intros (l & g & a & sl & _ & _ & H & _). destruct s; cbn; try lra; apply Rmult_le_pos; try exact H; apply pos_INR. Qed.

(** Logistic regression on completely separated classes: the fit predicts the training data perfectly up to the tolerance,
    row by row, and the linear predictors are as large as that requires. *)
Theorem C107_logistic : forall u s se b0 b c0 c L m,
  user_ok u -> u_fam u = BinomialF -> u_link u = LogitL -> unpenalised u -> no_bounds u -> silent s u se b0 b ->
  separating u c0 c L -> 0 < m -> (forall i, (i < u_n u)%nat -> m <= Rabs (tilt u c0 c i)) ->
  rsum (u_n u) (fun i => u_w u i * Rabs (u_y u i - mean_at LogitL (user_eta u b0 b i))) <= fit_tol s u se * L / m /\
  forall i, (i < u_n u)%nat -> u_w u i * m <= 2 * (fit_tol s u se * L) * exp (Rabs (user_eta u b0 b i)).
Proof.
  intros u s se b0 b c0 c L m Hok Ef El Hu Hb S1 HS Hm HM.
  assert (Hc : convex_pair (u_fam u) (u_link u)) by (rewrite Ef, El; exact I).
  pose proof (C107_separated u s se b0 b c0 c L Hok Hc ltac:(congruence) Hu Hb S1 HS) as H. rewrite Ef, El in H. cbn [residual] in H.
  assert (W : forall i, (i < u_n u)%nat -> 0 <= u_w u i) by apply Hok.
  assert (A : m * rsum (u_n u) (fun i => u_w u i * Rabs (u_y u i - mean_at LogitL (user_eta u b0 b i))) <= fit_tol s u se * L).
  { eapply Rle_trans; [|exact H]. rewrite <- rsum_scal. apply rsum_le. intros i Hi.
    replace (m * (u_w u i * Rabs (u_y u i - mean_at LogitL (user_eta u b0 b i)))) with (u_w u i * (Rabs (u_y u i - mean_at LogitL (user_eta u b0 b i)) * m)) by ring.
    apply Rmult_le_compat_l; [apply W, Hi|]. apply Rmult_le_compat_l; [apply Rabs_pos|apply HM, Hi]. }
  split.
  - apply Rmult_le_reg_l with m; [exact Hm|]. replace (m * (fit_tol s u se * L / m)) with (fit_tol s u se * L) by (field; lra). exact A.
  - intros i Hi. set (e := user_eta u b0 b i) in *.
    assert (R1 : u_w u i * Rabs (u_y u i - mean_at LogitL e) * m <= fit_tol s u se * L).
    { eapply Rle_trans; [|exact A]. rewrite Rmult_comm. apply Rmult_le_compat_l; [lra|].
      apply (rsum_ge_one (u_n u) (fun i => u_w u i * Rabs (u_y u i - mean_at LogitL (user_eta u b0 b i))) i); [|exact Hi].
      intros k Hk. apply Rmult_le_pos; [apply W, Hk|apply Rabs_pos]. }
    assert (R2 : 1 <= 2 * Rabs (u_y u i - mean_at LogitL e) * exp (Rabs e)).
    { destruct HS as (_ & _ & _ & HO). specialize (HO i Hi). specialize (HM i Hi). pose proof (exp_pos e) as Pe. pose proof (exp_pos (- e)) as Pn.
      assert (X1 : 1 <= exp (Rabs e)) by (pose proof (exp_ineq1_le (Rabs e)); pose proof (Rabs_pos e); lra).
      assert (X2 : exp e <= exp (Rabs e) /\ exp (- e) <= exp (Rabs e)).
      { assert (EM : forall x y, x <= y -> exp x <= exp y) by (intros x y [Q| ->]; [left; apply exp_increasing, Q|lra]).
        split; apply EM; [apply Rle_abs|rewrite <- Rabs_Ropp; apply Rle_abs]. }
      assert (Q : mean_at LogitL e = / (1 + exp (- e))) by reflexivity.
      assert (Q' : 1 - mean_at LogitL e = / (1 + exp e)) by (rewrite Q, exp_Ropp; field; lra).
      destruct HO as [O|[[-> _]|[_ [-> _]]]].
      + rewrite O, Rabs_R0 in HM. lra.
      + rewrite Q. replace (0 - / (1 + exp (- e))) with (- / (1 + exp (- e))) by ring. rewrite Rabs_Ropp, Rabs_pos_eq by (left; apply Rinv_0_lt_compat; lra).
        apply Rmult_le_reg_l with (1 + exp (- e)); [lra|]. replace ((1 + exp (- e)) * (2 * / (1 + exp (- e)) * exp (Rabs e))) with (2 * exp (Rabs e)) by (field; lra). lra.
      + rewrite Q', Rabs_pos_eq by (left; apply Rinv_0_lt_compat; lra).
        apply Rmult_le_reg_l with (1 + exp e); [lra|]. replace ((1 + exp e) * (2 * / (1 + exp e) * exp (Rabs e))) with (2 * exp (Rabs e)) by (field; lra). lra. }
    pose proof (exp_pos (Rabs e)) as P. set (r := Rabs (u_y u i - mean_at LogitL e)) in *. specialize (W i Hi).
    apply Rle_trans with (u_w u i * m * (2 * r * exp (Rabs e))).
    + rewrite <- Rmult_1_r at 1. apply Rmult_le_compat_l; [apply Rmult_le_pos; lra|exact R2].
    + replace (u_w u i * m * (2 * r * exp (Rabs e))) with (2 * (u_w u i * r * m) * exp (Rabs e)) by ring.
      apply Rmult_le_compat_r; [lra|]. lra.
Qed.
Print Assumptions C107_logistic.

(** With tolerance 0 no solver ever reports convergence on separated data ... *)
Theorem C107_never_converges : forall u s se b0 b c0 c L k,
  user_ok u -> convex_pair (u_fam u) (u_link u) -> u_link u <> IdentityL -> unpenalised u -> no_bounds u ->
  separating u c0 c L -> (k < u_n u)%nat -> 0 < u_w u k -> tilt u c0 c k <> 0 ->
  fit_tol s u se = 0 -> ~ silent s u se b0 b.
Proof.
  intros u s se b0 b c0 c L k Hok Hc Hl Hu Hb HS Hk Hw Ht E S1.
  pose proof (C107_separated u s se b0 b c0 c L Hok Hc Hl Hu Hb S1 HS) as H. rewrite E, Rmult_0_l in H.
  assert (W : forall i, (i < u_n u)%nat -> 0 <= u_w u i) by apply Hok.
  assert (P : 0 < u_w u k * (Rabs (residual (u_fam u) (u_link u) (u_y u k) (user_eta u b0 b k)) * Rabs (tilt u c0 c k))).
  { apply Rmult_lt_0_compat; [exact Hw|]. destruct HS as (_ & _ & _ & HO). specialize (HO k Hk).
    rewrite <- unopposed_term; [apply unopposed_sign; try assumption|..]; try assumption; apply Hok. }
  pose proof (rsum_ge_one (u_n u) (fun i => u_w u i * (Rabs (residual (u_fam u) (u_link u) (u_y u i) (user_eta u b0 b i)) * Rabs (tilt u c0 c i))) k
    ltac:(intros i Hi; apply Rmult_le_pos; [apply W, Hi|apply Rmult_le_pos; apply Rabs_pos]) Hk) as G.
  cbv beta in G. lra.
Qed.
Print Assumptions C107_never_converges.

(** ... and that is right: there is no optimum to converge to.  Every choice of coefficients is strictly improved by a
    step in the separating direction. *)
Theorem C107_no_optimum : forall u b0 b c0 c L k t,
  user_ok u -> convex_pair (u_fam u) (u_link u) -> u_link u <> IdentityL -> unpenalised u ->
  separating u c0 c L -> (k < u_n u)%nat -> 0 < u_w u k -> tilt u c0 c k <> 0 -> 0 < t ->
  user_obj u (pen_scale u) (b0 + t * c0) (fun j => b j + t * c j) < user_obj u (pen_scale u) b0 b.
Proof.
  intros u b0 b c0 c L k t Hok Hc Hl Hu (I0 & HL & HX & HO) Hk Hw Ht T.
  rewrite !obj_split, !pen_unpenalised by exact Hu. pose proof (dev_slope u b0 b c0 c t Hok Hc T) as D.
  set (g := rsum (u_n u) _) in D. assert (G : 0 < g); [|assert (0 < t * g) by (apply Rmult_lt_0_compat; assumption); lra].
  assert (W : forall i, (i < u_n u)%nat -> 0 <= u_w u i) by apply Hok.
  eapply Rlt_le_trans; [|apply (rsum_ge_one (u_n u) (fun i => u_w u i * (residual (u_fam u) (u_link u) (u_y u i) (user_eta u b0 b i + t * tilt u c0 c i) * tilt u c0 c i)) k); [|exact Hk]].
  - cbv beta. apply Rmult_lt_0_compat; [exact Hw|]. apply unopposed_sign; try assumption; [apply Hok|apply HO, Hk].
  - intros i Hi. apply Rmult_le_pos; [apply W, Hi|]. rewrite unopposed_term; [|apply Hok|exact Hc|exact Hl|apply HO, Hi].
    apply Rmult_le_pos; apply Rabs_pos.
Qed.
Print Assumptions C107_no_optimum.

(** Two rows, one column, classes separated by the sign of x: the fit from zero coefficients with gradient_tol 1 stops at once. *)
Definition ex107_u : user :=
  mkUser 2 1 (fun i _ => match i with O => -1 | _ => 1 end) (fun i => match i with O => 0 | _ => 1 end) (fun _ => / 2) (fun _ => 0)
    false BinomialF LogitL (fun _ => 0) (P2diag (fun _ => 0)) (fun _ => None) (fun _ => None) false.
Definition ex107_se : settings := mkSettings 100 1000 1 None 0 None false false 1000000 (1 / 1000000000).
Lemma ex107_ok : user_ok ex107_u.
Proof.
  split; [exact I|]. split; [intros [|i] Hi; cbn; lra|]. split; [intros; cbn; lra|]. split; [intros; cbn; lra|]. split.
  - intros i j Hi Hj. cbn in Hi, Hj. replace i with j by lia. reflexivity.
  - intros v. cbn. lra.
Qed.
Lemma ex107_std : one_over (u_stds ex107_u 0) = 1.
Proof.
  assert (E : u_stds ex107_u 0 = 1).
  { unfold u_stds, col_stds. cbn. match goal with |- sqrt ?x = 1 => replace x with 1 by field end. apply sqrt_1. }
  rewrite E. unfold one_over. rewrite (proj2 (Rltb_false _ _)); [field|]. rewrite Rabs_R1. unfold std_threshold. lra.
Qed.
Lemma ex107_silent : exists b, silent SCd ex107_u ex107_se 0 b.
Proof.
  set (u := ex107_u). pose proof ex107_ok as Hok. fold u in Hok.
  set (v := get_start_coef (u_p u) (u_ic u) (u_means u) (u_stds u) 0 (u_lb u) (u_ub u) StartNone).
  assert (V1 : v 0%nat = 0) by reflexivity.
  assert (B1 : forall j, snd (user_result u v) j = v j * one_over (u_stds u j)) by (intros; apply result_coef).
  assert (B0 : fst (user_result u v) = 0) by (apply result_no_intercept; reflexivity).
  assert (EI : forall i, user_eta u (fst (user_result u v)) (snd (user_result u v)) i = 0).
  { intros i. unfold user_eta. rewrite B0. change (u_p u) with 1%nat. cbn [rsum]. rewrite B1, V1. cbn. ring. }
  assert (F2 : forall l, (l < u_p u)%nat -> p2_entry (u_P2 u) l 0%nat = 0) by (intros l' _; cbn; destruct l'; cbn; ring).
  assert (IR : irls_solver (std_problem u (solve_settings SCd u ex107_se)) (cd_solver (std_problem u (solve_settings SCd u ex107_se)) (lib_seed exact_libs)) (std_problem_P2 u) v
     = Some (init_state (std_problem u (solve_settings SCd u ex107_se)) (std_problem_P2 u) false v, false)).
  { apply irls_at_start; [apply std_ok, Hok|cbn; lra|]. set (se := solve_settings SCd u ex107_se).
    change (nc (std_problem u se)) with 1%nat. cbn [rsum]. unfold entry.
    change (pb_ic (std_problem u se)) with false. cbn [ioff Nat.ltb Nat.leb Nat.sub].
    change (pb_lb (std_problem u se) 0%nat) with (@None R). change (pb_ub (std_problem u se) 0%nat) with (@None R).
    pose proof (score_column u se v 0 Nat.lt_0_1 F2 I) as SC. change (ioff (u_ic u) + 0)%nat with 0%nat in SC. rewrite SC. clear SC.
    change (u_n u) with 2%nat. rewrite (rsum_ext 2 _ (fun i => / 2 * (u_y u i - / 2) * (u_X u i 0))).
    2: { intros i Hi. rewrite EI. change (one_over (u_stds u 0)) with (one_over (u_stds ex107_u 0)). rewrite ex107_std.
         change (u_means u 0) with 0. change (u_w u i) with (/ 2). cbn [u ex107_u u_fam u_link residual mean_at]. rewrite Ropp_0, exp_0.
         replace (1 + 1) with 2 by ring. ring. }
    rewrite V1. cbn [rsum u ex107_u u_y u_X].
    match goal with |- 0 + Rabs (subgrad_term 0 ?y ?q None None) < _ => replace y with (- / 2) by field; set (q1 := q) end.
    assert (Q1 : q1 = 0) by (unfold q1; cbn; ring). rewrite Q1. unfold subgrad_term, fsign.
    change (pb_gtol (std_problem u se)) with 1. rewrite (proj2 (Reqb_true 0 0)) by reflexivity.
    match goal with |- 0 + Rabs ?x < 1 => assert (Rabs x <= / 2) end; [|lra]. 
    cbn [at_bound andb]. rewrite (proj2 (Reqb_false (- / 2) 0)) by lra. rewrite (proj2 (Rltb_false 0 (- / 2))) by lra.
    rewrite (Rabs_left (- / 2)) by lra. unfold fmax. rewrite (proj2 (Rltb_true 0 (- - / 2 - 0))) by lra. rewrite Rabs_left by lra; lra. }
  assert (EC : forall pb P2, st_coef (init_state pb P2 false v) = v /\ st_lswarn (init_state pb P2 false v) = 0%nat).
  { intros pb P2. unfold init_state. destruct (eta_mu_objective _ _ _ _ _ _) as [[[? ?] ?] ?].
    destruct (update_quadratic _ _ _ _) as [[? ?] ?]. destruct (check_convergence _ _ _ _) as [[[? ?] ?] ?]. split; reflexivity. }
  exists (snd (user_result u v)). exists exact_libs, 0, StartNone, 0.
  split; [cbn; lra|]. split; [reflexivity|]. split; [cbn; lra|]. split; [apply exact_libs_sound; lra|].
  split; [right; intros j x _ [H|H]; discriminate H|].
  split; [split; [congruence|intros H; exfalso; apply H; reflexivity]|]. split; [discriminate|]. split.
  - intros _ i Hi. rewrite <- B0 at 1 2. rewrite EI. cbn [mean_at]. rewrite Ropp_0, exp_0. unfold eps50, eps64. split; lra.
  - unfold fit_with. fold v. unfold solve. cbv zeta. rewrite IR.
    destruct (EC (std_problem u (solve_settings SCd u ex107_se)) (std_problem_P2 u)) as [-> ->].
    rewrite <- B0 at 1. rewrite <- surjective_pairing. reflexivity.
Qed.
Example ex107_nonvacuous : exists s se b0 b c0 c L,
  user_ok ex107_u /\ unpenalised ex107_u /\ no_bounds ex107_u /\ silent s ex107_u se b0 b /\ separating ex107_u c0 c L /\
  (forall i, (i < u_n ex107_u)%nat -> 1 <= Rabs (tilt ex107_u c0 c i)) /\
  (* and at tolerance 0 every other hypothesis of C107_never_converges holds *)
  (0 < u_n ex107_u)%nat /\ 0 < u_w ex107_u 0 /\ tilt ex107_u c0 c 0 <> 0.
Proof.
  destruct ex107_silent as [b Hb]. exists SCd, ex107_se, 0, b, 0, (fun _ => 1), 1.
  assert (T : forall i, tilt ex107_u 0 (fun _ => 1) i = match i with O => -1 | _ => 1 end).
  { intros i. unfold tilt. destruct i; cbn; ring. }
  split; [exact ex107_ok|]. split.
  { split; [intros j _; reflexivity|]. intros i j Hi Hj. cbn. destruct (Nat.eqb i j); reflexivity. }
  split; [intros j _; split; reflexivity|]. split; [exact Hb|]. split.
  { split; [reflexivity|]. split; [lra|]. split.
    - split; [discriminate|]. intros j Hj. cbn in Hj. replace j with 0%nat by lia. rewrite col_scale_inv.
      rewrite ex107_std, Rinv_1, Rminus_0_r, Rabs_R1. lra.
    - intros i Hi. rewrite T. destruct i; cbn; [right; left; split; lra|right; right; repeat split; lra]. }
  split; [intros i _; rewrite T; destruct i; [rewrite Rabs_left; lra|rewrite Rabs_R1; lra]|].
  split; [cbn; lia|]. split; [cbn; lra|]. rewrite T. lra.
Qed.
Print Assumptions ex107_nonvacuous.

