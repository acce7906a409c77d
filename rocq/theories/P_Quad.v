(** C115: quadratic convergence of irls-ls in logistic regression. *)
From Coq Require Import List Lia Lra Arith ZArith Classical_Prop. Import ListNotations.
From Verif Require Import L_Link L_Dist L_Dist2 L_Dist3 L_Dist4 L_CD L_CDb L_KKT L_Hess L_Solver L_Solver2 L_Solver3 L_Obj L_LS L_Psd L_Gap L_FitAll P_Solver P_LS P_Gauss S_Psd S_Pace P_Pace S_Quad.
From Verif Require Import M_Solver S_Solver.
Local Open Scope R_scope.

(** ** one row *)
Definition curv_slope (w x : R) : R := w * (expit x * (1 - expit x) * (1 - 2 * expit x)).
Lemma expit_derive x : is_derive expit x (expit x * (1 - expit x)).
Proof.
  unfold expit. pose proof (exp_pos (- x)). auto_derive; [lra|]. field. lra.
Qed.
Lemma curv_derive y w x : is_derive (fun e => hessian_row BinomialF LogitL y w e (raw_inverse LogitL e)) x (curv_slope w x).
Proof.
  unfold hessian_row, rowwise, binomial_logit_rows, curv_slope. cbn [snd raw_inverse].
  eapply dR_eq; [apply (dR_mult (fun e => w * expit e) (fun e => 1 - expit e) x (w * (expit x * (1 - expit x))) (0 - expit x * (1 - expit x)))|ring].
  - apply dR_scal, expit_derive.
  - apply dR_minus; [apply dR_const | apply expit_derive].
Qed.
Lemma slope_bound w x : 0 <= w -> - (w * / 10) <= curv_slope w x <= w * / 10.
Proof.
  intros Hw. unfold curv_slope. pose proof (expit_bounds x) as B. set (p := expit x) in *.
  assert (Q : - / 10 <= p * (1 - p) * (1 - 2 * p) <= / 10).
  { set (u := 1 - 2 * p). replace (p * (1 - p) * u) with (/ 4 * (u - u ^ 3)) by (unfold u; field).
    assert (-1 < u < 1) by (unfold u; lra). pose proof (pow2_ge_0 (u - 577/1000)). pose proof (pow2_ge_0 (u + 577/1000)).
    split; nra. }
  split; [|apply Rmult_le_compat_l; lra]. replace (- (w * / 10)) with (w * - / 10) by ring. apply Rmult_le_compat_l; lra.
Qed.

Lemma gradient_two y w a b : 0 <= w ->
  Rabs (- gradient_row BinomialF LogitL y w b (raw_inverse LogitL b) - - gradient_row BinomialF LogitL y w a (raw_inverse LogitL a)
        - hessian_row BinomialF LogitL y w a (raw_inverse LogitL a) * (b - a)) <= w * / 20 * (b - a) ^ 2.
Proof.
  intros Hw. set (G := fun e => - gradient_row BinomialF LogitL y w e (raw_inverse LogitL e)). set (h := fun e => hessian_row BinomialF LogitL y w e (raw_inverse LogitL e)).
  assert (D1 : forall x, is_derive G x (h x)) by (intros x; eapply dR_eq; [apply dR_opp, hessian_row_is_derive; exact I | unfold h; ring]).
  assert (D2 : forall x, is_derive h x (curv_slope w x)) by (intros; apply curv_derive).
  pose proof (upper_parabola G h (curv_slope w) (w * / 10) D1 D2 (fun x => proj2 (slope_bound w x Hw)) a b) as U.
  pose proof (upper_parabola (fun x => - G x) (fun x => - h x) (fun x => - curv_slope w x) (w * / 10) (fun x => dR_opp _ _ _ (D1 x)) (fun x => dR_opp _ _ _ (D2 x))
    (fun x => ltac:(pose proof (slope_bound w x Hw); lra)) a b) as L.
  change (Rabs (G b - G a - h a * (b - a)) <= w * / 20 * (b - a) ^ 2). apply Rabs_le. lra.
Qed.

Lemma row_three y w a b : 0 <= y <= 1 -> 0 <= w ->
  / 2 * (w * devrow BinomialF y (search_mean BinomialF LogitL b)) <=
  / 2 * (w * devrow BinomialF y (search_mean BinomialF LogitL a)) + - gradient_row BinomialF LogitL y w a (raw_inverse LogitL a) * (b - a)
  + / 2 * hessian_row BinomialF LogitL y w a (raw_inverse LogitL a) * (b - a) ^ 2 + w * / 60 * Rabs (b - a) ^ 3.
Proof.
  intros Hy Hw. set (F := fun e => / 2 * (w * devrow BinomialF y (search_mean BinomialF LogitL e))).
  set (G := fun e => - gradient_row BinomialF LogitL y w e (raw_inverse LogitL e)). set (h := fun e => hessian_row BinomialF LogitL y w e (raw_inverse LogitL e)).
  assert (D0 : forall x, is_derive F x (G x)).
  { intros x. apply row_derive; [exact I | exact Hy | apply (convex_pair_dev_ok BinomialF LogitL y I) | apply (convex_pair_regular BinomialF LogitL x I)]. }
  change (F b <= F a + G a * (b - a) + / 2 * h a * (b - a) ^ 2 + w * / 60 * Rabs (b - a) ^ 3).
  assert (P : forall x, Rabs (G x - G a - h a * (x - a)) <= w * / 20 * (x - a) ^ 2) by (intros x; apply gradient_two, Hw).
  assert (DP : forall s x, is_derive (fun x => F a + G a * (x - a) + / 2 * h a * (x - a) ^ 2 + s * (w * / 60) * (x - a) ^ 3 - F x) x
     (G a + h a * (x - a) + s * (w * / 20) * (x - a) ^ 2 - G x)).
  { intros s x. apply dR_minus; [|apply D0]. auto_derive; [exact I|]. field. }
  destruct (Rle_lt_dec a b) as [L|L].
  - rewrite (Rabs_right (b - a)) by lra.
    pose proof (derive_nonneg_mono _ _ a b L (fun x _ => DP 1 x)) as M. cbv beta in M.
    assert (M1 := M ltac:(intros x Hx; pose proof (P x) as Px; apply Rabs_le_between in Px; lra)). clear M. lra.
  - rewrite (Rabs_left (b - a)) by lra.
    pose proof (derive_nonneg_mono _ _ b a (Rlt_le _ _ L) (fun x _ => dR_opp _ _ _ (DP (-1) x))) as M. cbv beta in M.
    assert (M1 := M ltac:(intros x Hx; pose proof (P x) as Px; apply Rabs_le_between in Px; lra)). clear M.
    replace ((- (b - a)) ^ 3) with (-1 * (b - a) ^ 3) by ring. lra.
Qed.

(** ** the whole objective *)
Section Step.
Variables (pb : problem) (P2 : P2t) (c d : nat -> R).
Hypothesis Hok : pb_ok pb.
Hypothesis Ef : pb_fam pb = BinomialF.
Hypothesis El : pb_link pb = LogitL.
Hypothesis HS : p2_sym (pb_p pb) P2.
Hypothesis HP : p2_psd (pb_p pb) P2.
Hypothesis Hw : forall i, (i < pb_n pb)%nat -> 0 <= pb_w pb i.
Hypothesis HD : forall k, (k < nc pb)%nat -> rsum (nc pb) (fun l => exact_hessian pb (hrow_of pb c) P2 k l * d l) = score_of pb P2 c k.
Local Notation xd i := (rsum (nc pb) (fun k => xt pb i k * d k)).
Local Notation rs i := (rsum (nc pb) (fun k => Rabs (xt pb i k))).
Local Notation nd := (sqrt (rsum (nc pb) (fun k => d k ^ 2))).
Local Notation sd := (rsum (nc pb) (fun k => score_of pb P2 c k * d k)).

Lemma eta_step i : eta_of pb (vadd c d) i = eta_of pb c i + xd i.
Proof.
  unfold eta_of, vadd. rewrite (rsum_ext (nc pb) (fun k => xt pb i k * (c k + d k)) (fun k => xt pb i k * c k + xt pb i k * d k)) by (intros; ring).
  rewrite rsum_plus. ring.
Qed.
Lemma mean_raw v i : mean_of pb v i = raw_inverse LogitL (eta_of pb v i).
Proof. unfold mean_of. rewrite Ef, El. reflexivity. Qed.

Lemma nd_sq : nd * nd = rsum (nc pb) (fun k => d k ^ 2).
Proof. apply sqrt_sqrt. apply rsum_nonneg. intros; apply pow2_ge_0. Qed.
Lemma nd_ge k : (k < nc pb)%nat -> Rabs (d k) <= nd.
Proof.
  intros Hk. rewrite <- sqrt_Rsqr_abs. apply sqrt_le_1_alt. unfold Rsqr. apply Rle_trans with (d k ^ 2); [lra|].
  apply (rsum_term_le (nc pb) (fun k => d k ^ 2)); [intros; apply pow2_ge_0 | exact Hk].
Qed.
Lemma xd_le i : Rabs (xd i) <= rs i * nd.
Proof.
  eapply Rle_trans; [apply Rabs_rsum_le|]. rewrite <- rsum_scal_r. apply rsum_le. intros k Hk. rewrite Rabs_mult.
  apply Rmult_le_compat_l; [apply Rabs_pos | apply nd_ge, Hk].
Qed.
Lemma rs_pos i : 0 <= rs i.
Proof. apply rsum_nonneg. intros; apply Rabs_pos. Qed.

Lemma score_after k : (k < nc pb)%nat -> Rabs (score_of pb P2 (vadd c d) k) <= rsum (pb_n pb) (fun i => pb_w pb i * / 20 * (xd i) ^ 2 * Rabs (xt pb i k)).
Proof.
  intros Hk. set (g := fun i e => gradient_row BinomialF LogitL (pb_y pb i) (pb_w pb i) e (raw_inverse LogitL e)).
  set (E := fun i => g i (eta_of pb (vadd c d) i) - g i (eta_of pb c i) + hrow_of pb c i * xd i).
  assert (Q : score_of pb P2 (vadd c d) k = rsum (pb_n pb) (fun i => E i * xt pb i k)).
  { pose proof (HD k Hk) as D. unfold exact_hessian in D.
    rewrite (rsum_ext (nc pb) (fun l => (rsum (pb_n pb) (fun i => hrow_of pb c i * xt pb i k * xt pb i l) + p2_full (pb_ic pb) P2 k l) * d l)
      (fun l => rsum (pb_n pb) (fun i => hrow_of pb c i * xt pb i k * (xt pb i l * d l)) + d l * p2_full (pb_ic pb) P2 l k)) in D.
    2:{ intros l Hl. rewrite Rmult_plus_distr_r, <- rsum_scal_r. f_equal; [apply rsum_ext; intros; ring|]. rewrite (p2_full_sym pb P2 k l HS Hk Hl). ring. }
    rewrite rsum_plus, rsum_swap in D.
    rewrite (rsum_ext (pb_n pb) (fun i => rsum (nc pb) (fun l => hrow_of pb c i * xt pb i k * (xt pb i l * d l))) (fun i => hrow_of pb c i * xd i * xt pb i k)) in D.
    2:{ intros i _. rewrite rsum_scal. ring. }
    unfold score_of in D |- *. rewrite Ef, El in D |- *.
    rewrite (rsum_ext (pb_n pb) (fun i => E i * xt pb i k) (fun i => g i (eta_of pb (vadd c d) i) * xt pb i k - g i (eta_of pb c i) * xt pb i k + hrow_of pb c i * xd i * xt pb i k)) by (intros; unfold E; ring).
    rewrite rsum_plus, rsum_minus.
    rewrite (rsum_ext (nc pb) (fun l => vadd c d l * p2_full (pb_ic pb) P2 l k) (fun l => c l * p2_full (pb_ic pb) P2 l k + d l * p2_full (pb_ic pb) P2 l k)) by (intros; unfold vadd; ring).
    rewrite rsum_plus. assert (EG : forall v, rsum (pb_n pb) (fun i => gradient_row BinomialF LogitL (pb_y pb i) (pb_w pb i) (eta_of pb v i) (mean_of pb v i) * xt pb i k) = rsum (pb_n pb) (fun i => g i (eta_of pb v i) * xt pb i k)).
    { intros v. apply rsum_ext. intros i _. rewrite mean_raw. reflexivity. }
    rewrite !EG in *. lra. }
  rewrite Q. eapply Rle_trans; [apply Rabs_rsum_le|]. apply rsum_le. intros i Hi. rewrite Rabs_mult. apply Rmult_le_compat_r; [apply Rabs_pos|].
  pose proof (gradient_two (pb_y pb i) (pb_w pb i) (eta_of pb c i) (eta_of pb (vadd c d) i) (Hw i Hi)) as G. rewrite !eta_step in G.
  replace (eta_of pb c i + xd i - eta_of pb c i) with (xd i) in G by ring. rewrite <- Rabs_Ropp in G. eapply Rle_trans; [right|exact G]. f_equal. unfold E, g.
  rewrite !eta_step. unfold hrow_of. rewrite Ef, El, mean_raw. ring.
Qed.

Lemma grad_norm_after : grad_norm pb P2 (vadd c d) <= cubic_size pb * / 20 * (nd * nd).
Proof.
  unfold grad_norm. apply Rle_trans with (rsum (nc pb) (fun k => rsum (pb_n pb) (fun i => pb_w pb i * / 20 * (xd i) ^ 2 * Rabs (xt pb i k)))).
  { apply rsum_le. intros k Hk. apply score_after, Hk. }
  rewrite rsum_swap. unfold cubic_size. rewrite Rmult_assoc, <- rsum_scal_r. apply rsum_le. intros i Hi. rewrite rsum_scal.
  pose proof (xd_le i) as X. pose proof (rs_pos i) as RP. pose proof (Hw i Hi) as W0. assert (X2 : (xd i) ^ 2 <= (rs i * nd) ^ 2).
  { rewrite <- (pow2_abs (xd i)). apply pow_incr. split; [apply Rabs_pos | exact X]. }
  replace (pb_w pb i * rs i ^ 3 * (/ 20 * (nd * nd))) with (pb_w pb i * / 20 * (rs i * nd) ^ 2 * rs i) by ring.
  apply Rmult_le_compat_r; [exact RP|]. apply Rmult_le_compat_l; [lra | exact X2].
Qed.

Lemma full_decrease : smooth_obj pb P2 (vadd c d) <= smooth_obj pb P2 c - / 2 * sd + cubic_size pb * / 60 * nd ^ 3.
Proof.
  assert (Ev : vadd c d = vadd c (vscale 1 d)).
  { apply FunctionalExtensionality.functional_extensionality. intros k. unfold vadd, vscale. ring. }
  assert (EM : forall i, mean_of pb c i = raw_inverse (pb_link pb) (eta_of pb c i)) by (intros i; rewrite El; apply mean_raw).
  assert (ES : rsum (nc pb) (fun k => - score_of pb P2 c k * d k) =
     rsum (pb_n pb) (fun i => - gradient_row (pb_fam pb) (pb_link pb) (pb_y pb i) (pb_w pb i) (eta_of pb c i)
                             (raw_inverse (pb_link pb) (eta_of pb c i)) * lin_pred pb d i)
     + rsum (nc pb) (fun k => rsum (nc pb) (fun l => c l * p2_full (pb_ic pb) P2 l k) * d k)).
  { rewrite <- grad_dot. apply rsum_ext. intros k _. rewrite grad_score by auto. reflexivity. }
  assert (ES' : rsum (nc pb) (fun k => - score_of pb P2 c k * d k) = - sd) by (rewrite <- rsum_opp; apply rsum_ext; intros; ring). rewrite ES' in ES. clear ES'.
  assert (QD : rsum (pb_n pb) (fun i => hrow_of pb c i * (xd i) ^ 2) + l2_form pb P2 d = sd).
  { rewrite <- quad_exact. apply rsum_ext. intros k Hk'. rewrite <- (HD k Hk'), <- rsum_scal_r. apply rsum_ext. intros; ring. }
  assert (CU : rsum (pb_n pb) (fun i => pb_w pb i * / 60 * Rabs (xd i) ^ 3) <= cubic_size pb * / 60 * nd ^ 3).
  { unfold cubic_size. rewrite Rmult_assoc, <- rsum_scal_r. apply rsum_le. intros i Hi. pose proof (Hw i Hi).
    replace (pb_w pb i * rs i ^ 3 * (/ 60 * nd ^ 3)) with (pb_w pb i * / 60 * (rs i * nd) ^ 3) by ring. apply Rmult_le_compat_l; [lra|].
    apply pow_incr. split; [apply Rabs_pos | apply xd_le]. }
  rewrite Ev, !smooth_obj_eq. unfold smooth_obj_with. rewrite l2_form_add by exact HS. rewrite !half_dev_rows. rewrite <- Ev.
  assert (RW : rsum (pb_n pb) (fun i => / 2 * (pb_w pb i * devrow (pb_fam pb) (pb_y pb i) (search_mean (pb_fam pb) (pb_link pb) (eta_of pb (vadd c d) i))))
    <= rsum (pb_n pb) (fun i => / 2 * (pb_w pb i * devrow (pb_fam pb) (pb_y pb i) (search_mean (pb_fam pb) (pb_link pb) (eta_of pb c i))))
    + rsum (pb_n pb) (fun i => - gradient_row (pb_fam pb) (pb_link pb) (pb_y pb i) (pb_w pb i) (eta_of pb c i)
                             (raw_inverse (pb_link pb) (eta_of pb c i)) * lin_pred pb d i)
    + / 2 * rsum (pb_n pb) (fun i => hrow_of pb c i * (xd i) ^ 2) + rsum (pb_n pb) (fun i => pb_w pb i * / 60 * Rabs (xd i) ^ 3)).
  { rewrite <- !rsum_scal, <- !rsum_plus. apply rsum_le. intros i Hi. destruct Hok as [_ [Hy _]]. specialize (Hy i Hi). rewrite Ef in Hy.
    pose proof (row_three (pb_y pb i) (pb_w pb i) (eta_of pb c i) (eta_of pb (vadd c d) i) Hy (Hw i Hi)) as Q. rewrite Ef, El.
    eapply Rle_trans; [exact Q|]. rewrite !eta_step. replace (eta_of pb c i + xd i - eta_of pb c i) with (xd i) by ring.
    rewrite lin_pred_eq. unfold hrow_of. rewrite Ef, El, mean_raw. right. ring. }
  lra.
Qed.

Lemma step_size lambda : 0 < lambda -> hessian_above pb P2 lambda c -> lambda * nd <= grad_norm pb P2 c /\ lambda * (nd * nd) <= sd.
Proof.
  intros Hl HA. pose proof (HA d) as A. rewrite <- nd_sq in A.
  assert (Q : rsum (nc pb) (fun k => rsum (nc pb) (fun l => d k * exact_hessian pb (hrow_of pb c) P2 k l * d l)) = sd).
  { apply rsum_ext. intros k Hk. rewrite <- (HD k Hk), <- rsum_scal_r. apply rsum_ext. intros; ring. }
  rewrite Q in A. split; [|exact A].
  assert (SB : sd <= grad_norm pb P2 c * nd).
  { unfold grad_norm. rewrite <- rsum_scal_r. apply rsum_le. intros k Hk. eapply Rle_trans; [apply Rle_abs|]. rewrite Rabs_mult.
    apply Rmult_le_compat_l; [apply Rabs_pos | apply nd_ge, Hk]. }
  pose proof (sqrt_pos (rsum (nc pb) (fun k => d k ^ 2))) as N0. destruct N0 as [N0|N0].
  - apply Rmult_le_reg_r with nd; [exact N0|]. lra.
  - rewrite <- N0. rewrite Rmult_0_r. apply rsum_nonneg. intros; apply Rabs_pos.
Qed.
End Step.

Lemma grad_norm_pos pb P2 v : 0 <= grad_norm pb P2 v.
Proof. apply rsum_nonneg. intros; apply Rabs_pos. Qed.
Lemma cubic_pos pb : (forall i, (i < pb_n pb)%nat -> 0 <= pb_w pb i) -> 0 <= cubic_size pb.
Proof. intros Hw. apply rsum_nonneg. intros i Hi. apply Rmult_le_pos; [apply Hw, Hi|]. apply pow_le, rsum_nonneg. intros; apply Rabs_pos. Qed.

(** One iteration near an optimum: the full Newton step is accepted, the objective does not rise, and the gradient norm is squared
    (up to the factor cubic_size / (20 lambda^2)). *)
Theorem C115_step : forall pb solve P2 c lambda s s', pb_ok pb -> pb_approx pb = 0 -> 1 <= pb_large pb ->
  (forall i, (i < pb_n pb)%nat -> 0 <= pb_w pb i) -> pb_fam pb = BinomialF -> pb_link pb = LogitL ->
  p2_sym (pb_p pb) P2 -> p2_psd (pb_p pb) P2 -> smooth_problem pb -> solve_sound solve ->
  reach pb (ls_solver pb solve) P2 c s -> irls_step pb (ls_solver pb solve) s = Some s' ->
  0 < lambda -> hessian_above pb P2 lambda (st_coef s) -> cubic_size pb * grad_norm pb P2 (st_coef s) <= 10 * lambda ^ 2 ->
  ~ ls_failed s s' /\ train_obj pb P2 (st_coef s') <= train_obj pb P2 (st_coef s) /\
  20 * lambda ^ 2 * grad_norm pb P2 (st_coef s') <= cubic_size pb * grad_norm pb P2 (st_coef s) ^ 2.
Proof.
  intros pb solve P2 c lambda s s' Hok HA Hbig Hw Ef El HS HP HSm Hsol R0 E Hl HAb HN.
  assert (HC : 0 <= pb_approx pb) by lra. pose proof (reach_inv _ _ _ _ _ Hok HC R0) as I. pose proof I as [C P A H].
  destruct (irls_step_facts _ _ _ _ E) as [d [cyc [Ei Fa]]].
  destruct (sf_ls _ _ _ _ _ _ Fa) as [E1 [E2 [E3 [E4 [E5 [E6 E7]]]]]].
  pose proof (ls_direction pb solve P2 s d cyc Hok HC HS Hsol I Ei) as D.
  destruct (prepare_spec pb s P2 HC P A H) as [_ [_ [_ [_ HH]]]]. specialize (HH HA).
  assert (EH : forall k l, exact_hessian pb (st_hrows (fst (prepare pb s))) P2 k l = exact_hessian pb (hrow_of pb (st_coef s)) P2 k l).
  { intros k l. unfold exact_hessian. f_equal. apply rsum_ext. intros i Hi. rewrite HH, (coh_hrows _ _ _ C) by exact Hi. reflexivity. }
  assert (D2 : forall k, (k < nc pb)%nat -> rsum (nc pb) (fun l => exact_hessian pb (hrow_of pb (st_coef s)) P2 k l * d l) = score_of pb P2 (st_coef s) k).
  { intros k Hk'. rewrite <- (coh_score _ _ _ C) by exact Hk'. rewrite <- (D k Hk'). apply rsum_ext. intros l _. rewrite EH. reflexivity. }
  pose proof (grad_norm_after pb P2 (st_coef s) d Ef El HS Hw D2) as GA.
  pose proof (full_decrease pb P2 (st_coef s) d Hok Ef El HS Hw D2) as FD.
  destruct (step_size pb P2 (st_coef s) d D2 lambda Hl HAb) as [S1 S2].
  pose proof (sqrt_pos (rsum (nc pb) (fun k => d k ^ 2))) as N0.
  set (nd := sqrt (rsum (nc pb) (fun k => d k ^ 2))) in *. set (sd := rsum (nc pb) (fun k => score_of pb P2 (st_coef s) k * d k)) in *.
  set (T := cubic_size pb) in *. set (gn := grad_norm pb P2 (st_coef s)) in *.
  assert (T0 : 0 <= T) by (apply cubic_pos, Hw). assert (G0 : 0 <= gn) by apply grad_norm_pos. assert (L2 : 0 < lambda ^ 2) by (apply pow_lt, Hl).
  assert (TN : T * nd <= 10 * lambda).
  { apply Rmult_le_reg_r with lambda; [exact Hl|]. apply Rle_trans with (T * gn); [|lra]. rewrite Rmult_assoc. apply Rmult_le_compat_l; [exact T0 | lra]. }
  assert (T3 : T * / 60 * nd ^ 3 <= / 6 * sd).
  { replace (T * / 60 * nd ^ 3) with (/ 60 * ((T * nd) * (nd * nd))) by ring. assert ((T * nd) * (nd * nd) <= 10 * lambda * (nd * nd)); [|lra].
    apply Rmult_le_compat_r; [nra | exact TN]. }
  assert (SD0 : 0 <= sd) by (apply Rle_trans with (lambda * (nd * nd)); [apply Rmult_le_pos; [lra | nra] | exact S2]).
  assert (LZ : forall v, train_obj pb P2 v = smooth_obj pb P2 v).
  { intros v. unfold train_obj. rewrite <- l1_pen_eq by apply Hok. rewrite l1_pen_zero by apply HSm. ring. }
  assert (DEC : train_obj pb P2 (vadd (st_coef s) d) <= train_obj pb P2 (st_coef s) - 1 / 10000 * sd) by (rewrite !LZ; lra).
  assert (BD : ls_bound pb (st_coef s) (st_score s) d = - (1 / 10000 * sd)).
  { unfold ls_bound. rewrite !l1_pen_zero by apply HSm. unfold dot. rewrite (rsum_ext (nc pb) (fun i => st_score s i * d i) (fun k => score_of pb P2 (st_coef s) k * d k)); [fold sd; ring|].
    intros k Hk'. rewrite (coh_score _ _ _ C) by exact Hk'. reflexivity. }
  destruct (search_full pb (st_P2 s) (st_coef s) (st_score s) (st_eta s) (st_obj s) d Hok (coh_eta _ _ _ C)) as [W V].
  { intros i _. rewrite (mean_probability pb _ _ Ef El). pose proof (probability_range pb (vadd (st_coef s) d) i). lra. }
  { rewrite BD, P, (coh_obj _ _ _ C). lra. }
  rewrite E1, V. split; [unfold ls_failed; rewrite E7, W; lia|]. split; [lra|].
  apply Rle_trans with (20 * lambda ^ 2 * (T * / 20 * (nd * nd))); [apply Rmult_le_compat_l; [lra | exact GA]|].
  replace (20 * lambda ^ 2 * (T * / 20 * (nd * nd))) with (T * (lambda * nd) ^ 2) by field. apply Rmult_le_compat_l; [exact T0|].
  apply pow_incr. split; [apply Rmult_le_pos; lra | exact S1].
Qed.
Print Assumptions C115_step.

(** From a state with cubic_size * gradient norm <= 10 lambda^2 on, every line search succeeds and after k iterations the gradient norm is
    at most (20 lambda^2 / cubic_size) * 2^(-2^k): the number of correct digits doubles in every iteration. *)
Theorem C115_quadratic : forall pb solve P2 c lambda s n hist, pb_ok pb -> pb_approx pb = 0 -> 1 <= pb_large pb ->
  (forall i, (i < pb_n pb)%nat -> 0 <= pb_w pb i) -> pb_fam pb = BinomialF -> pb_link pb = LogitL ->
  p2_sym (pb_p pb) P2 -> p2_psd (pb_p pb) P2 -> smooth_problem pb -> solve_sound solve ->
  reach pb (ls_solver pb solve) P2 c s -> run_from pb (ls_solver pb solve) s n hist ->
  0 < lambda -> (forall v, train_obj pb P2 v <= train_obj pb P2 (st_coef s) -> hessian_above pb P2 lambda v) ->
  cubic_size pb * grad_norm pb P2 (st_coef s) <= 10 * lambda ^ 2 ->
  (forall k, (k <= n)%nat -> cubic_size pb * grad_norm pb P2 (st_coef (hist k)) <= 20 * lambda ^ 2 * (/ 2) ^ (2 ^ k)) /\
  (forall k, (k < n)%nat -> ~ ls_failed (hist k) (hist (S k))).
Proof.
  intros pb solve P2 c lambda s n hist Hok HA Hbig Hw Ef El HS HP HSm Hsol R0 [H0 HR] Hl HAb HN.
  assert (L2 : 0 < lambda ^ 2) by (apply pow_lt, Hl). set (T := cubic_size pb) in *. assert (T0 : 0 <= T) by (apply cubic_pos, Hw).
  assert (HF : forall m, (/ 2) ^ (2 ^ m) <= / 2).
  { intros m. assert (1 <= 2 ^ m)%nat by (clear; induction m; simpl; lia). destruct (2 ^ m)%nat as [|q]; [lia|]. simpl.
    assert (0 < (/ 2) ^ q <= 1); [|lra]. split; [apply pow_lt; lra|]. rewrite <- (pow1 q). apply pow_incr. lra. }
  assert (K : forall k, (k <= n)%nat -> reach pb (ls_solver pb solve) P2 c (hist k) /\ train_obj pb P2 (st_coef (hist k)) <= train_obj pb P2 (st_coef s) /\
     T * grad_norm pb P2 (st_coef (hist k)) <= 20 * lambda ^ 2 * (/ 2) ^ (2 ^ k) /\
     ((k < n)%nat -> ~ ls_failed (hist k) (hist (S k)) /\ train_obj pb P2 (st_coef (hist (S k))) <= train_obj pb P2 (st_coef (hist k)) /\
        20 * lambda ^ 2 * grad_norm pb P2 (st_coef (hist (S k))) <= T * grad_norm pb P2 (st_coef (hist k)) ^ 2)).
  { assert (ST : forall k, reach pb (ls_solver pb solve) P2 c (hist k) -> train_obj pb P2 (st_coef (hist k)) <= train_obj pb P2 (st_coef s) ->
       T * grad_norm pb P2 (st_coef (hist k)) <= 20 * lambda ^ 2 * (/ 2) ^ (2 ^ k) -> (k < n)%nat -> ~ ls_failed (hist k) (hist (S k)) /\ train_obj pb P2 (st_coef (hist (S k))) <= train_obj pb P2 (st_coef (hist k)) /\
        20 * lambda ^ 2 * grad_norm pb P2 (st_coef (hist (S k))) <= T * grad_norm pb P2 (st_coef (hist k)) ^ 2).
    { intros k Rk Fk Gk Hk. apply (C115_step pb solve P2 c lambda (hist k) (hist (S k))); auto.
      fold T. pose proof (HF k). nra. }
    induction k as [|k IH]; intros Hk.
    - rewrite H0. assert (G : T * grad_norm pb P2 (st_coef s) <= 20 * lambda ^ 2 * (/ 2) ^ (2 ^ 0)) by (simpl; lra).
      split; [exact R0|]. split; [lra|]. split; [exact G|]. intros Hn. rewrite <- H0. apply ST; rewrite ?H0; auto. lra.
    - destruct (IH ltac:(lia)) as [Rk [Fk [Gk Sk]]]. destruct (Sk ltac:(lia)) as [_ [Fd Gd]].
      assert (R' : reach pb (ls_solver pb solve) P2 c (hist (S k))) by (apply reach_step with (hist k); [exact Rk | apply HR; lia]).
      assert (G' : T * grad_norm pb P2 (st_coef (hist (S k))) <= 20 * lambda ^ 2 * (/ 2) ^ (2 ^ S k)).
      { replace (2 ^ S k)%nat with (2 ^ k + 2 ^ k)%nat by (simpl; lia). rewrite pow_add. set (h := (/ 2) ^ (2 ^ k)) in *.
        set (g := grad_norm pb P2 (st_coef (hist k))) in *. set (g' := grad_norm pb P2 (st_coef (hist (S k)))) in *.
        apply Rmult_le_reg_l with (20 * lambda ^ 2); [lra|]. apply Rle_trans with ((T * g) ^ 2).
        - apply Rle_trans with (T * (T * g ^ 2)); [|right; ring]. rewrite <- Rmult_assoc, (Rmult_comm _ T), Rmult_assoc. apply Rmult_le_compat_l; [exact T0 | exact Gd].
        - apply Rle_trans with ((20 * lambda ^ 2 * h) ^ 2); [|right; ring]. apply pow_incr. split; [|exact Gk]. apply Rmult_le_pos; [exact T0 | apply grad_norm_pos]. }
      assert (F' : train_obj pb P2 (st_coef (hist (S k))) <= train_obj pb P2 (st_coef s)) by lra.
      split; [exact R'|]. split; [exact F'|]. split; [exact G'|]. apply ST; assumption. }
  split; intros k Hk; [apply K, Hk | apply K; lia].
Qed.
Print Assumptions C115_quadratic.

(** A fit started close enough stops after N iterations, where N is the first number with (20 lambda^2 / cubic_size) * 2^(-2^N) < gtol -
    and without the non-convergence warning if max_iter >= N. *)
Theorem C115_iterations : forall pb solve P2 c lambda N sf warned, pb_ok pb -> pb_approx pb = 0 -> 1 <= pb_large pb ->
  (forall i, (i < pb_n pb)%nat -> 0 <= pb_w pb i) -> pb_fam pb = BinomialF -> pb_link pb = LogitL ->
  p2_sym (pb_p pb) P2 -> p2_psd (pb_p pb) P2 -> smooth_problem pb -> solve_sound solve ->
  0 < lambda -> (forall v, train_obj pb P2 v <= train_obj pb P2 c -> hessian_above pb P2 lambda v) ->
  cubic_size pb * grad_norm pb P2 c <= 10 * lambda ^ 2 -> 20 * lambda ^ 2 * (/ 2) ^ (2 ^ N) < pb_gtol pb * cubic_size pb ->
  irls_solver pb (ls_solver pb solve) P2 c = Some (sf, warned) ->
  (st_niter sf <= Z.of_nat N)%Z /\ ((Z.of_nat N <= pb_max_iter pb)%Z -> warned = false).
Proof.
  intros pb solve P2 c lambda N sf warned Hok HA Hbig Hw Ef El HS HP HSm Hsol Hl HAb HN Hg E.
  destruct (C27_iteration_accounting _ _ _ _ _ _ E) as [n [hist [[H0 HR] [Hn [En [_ [_ [NS [W1 W2]]]]]]]]].
  assert (RE : forall k, (k <= n)%nat -> reach pb (ls_solver pb solve) P2 c (hist k)) by (eapply hist_reach; eauto).
  set (s0 := init_state pb P2 false c) in *. assert (Ec : st_coef s0 = c) by (unfold s0; apply init_coef).
  assert (R0 : reach pb (ls_solver pb solve) P2 c s0) by apply reach_init.
  destruct (C115_quadratic pb solve P2 c lambda s0 n hist Hok HA Hbig Hw Ef El HS HP HSm Hsol R0 (conj H0 HR) Hl ltac:(rewrite Ec; exact HAb) ltac:(rewrite Ec; exact HN)) as [Q _].
  assert (ST : (N <= n)%nat -> stop_test pb (hist N)).
  { intros L. left. rewrite smooth_norm by exact HSm. pose proof (reach_inv _ _ _ _ _ Hok ltac:(lra) (RE N L)) as [C _ _ _].
    rewrite (rsum_ext (nc pb) (fun k => Rabs (st_score (hist N) k)) (fun k => Rabs (score_of pb P2 (st_coef (hist N)) k))) by (intros k Hk; rewrite (coh_score _ _ _ C) by exact Hk; reflexivity).
    fold (grad_norm pb P2 (st_coef (hist N))). specialize (Q N L). assert (T0 : 0 <= cubic_size pb) by (apply cubic_pos, Hw).
    apply Rnot_le_lt. intros B. assert (pb_gtol pb * cubic_size pb <= cubic_size pb * grad_norm pb P2 (st_coef (hist N))); [|lra].
    rewrite Rmult_comm. apply Rmult_le_compat_l; assumption. }
  assert (L : (n <= N)%nat). { destruct (Nat.le_gt_cases n N) as [L|L]; [exact L|]. exfalso. apply (NS N L), ST. lia. }
  split; [rewrite En; lia|]. intros HM. destruct warned; [|reflexivity]. specialize (W2 eq_refl). assert (n = N) by lia. subst n.
  apply W1. rewrite <- Hn. apply ST. lia.
Qed.
Print Assumptions C115_iterations.

Lemma norm_sq pb P2 v : grad_norm pb P2 v ^ 2 <= INR (nc pb) * grad_sq pb P2 v.
Proof.
  pose proof (L_Psd.cauchy (nc pb) (fun k => Rabs (score_of pb P2 v k)) (fun _ => 1)) as CS. cbv beta in CS.
  rewrite (rsum_ext (nc pb) (fun i => Rabs (score_of pb P2 v i) * 1) (fun k => Rabs (score_of pb P2 v k))) in CS by (intros; ring).
  fold (grad_norm pb P2 v) in CS.
  assert (E1 : sq_norm (nc pb) (fun k => Rabs (score_of pb P2 v k)) = grad_sq pb P2 v).
  { unfold sq_norm, grad_sq. apply rsum_ext. intros k Hk. rewrite <- Rabs_mult, Rabs_right; [ring | nra]. }
  assert (E2 : sq_norm (nc pb) (fun _ => 1) = INR (nc pb)).
  { unfold sq_norm. rewrite (rsum_ext (nc pb) (fun i => 1 * 1) (fun _ => 1)) by (intros; ring). rewrite rsum_const. ring. }
  rewrite E1, E2 in CS. lra.
Qed.

(** Both phases together, from any start: at most n1 iterations until the region of quadratic convergence is reached, and N more. *)
Theorem C115_both_phases : forall pb solve P2 c mu lambda n1 N sf warned, pb_ok pb -> pb_approx pb = 0 -> 1 <= pb_large pb ->
  (forall i, (i < pb_n pb)%nat -> 0 <= pb_w pb i) -> pb_fam pb = BinomialF -> pb_link pb = LogitL ->
  p2_sym (pb_p pb) P2 -> p2_psd (pb_p pb) P2 -> smooth_problem pb -> solve_sound solve ->
  0 < lambda -> (forall v, train_obj pb P2 v <= train_obj pb P2 c -> hessian_above pb P2 lambda v) ->
  l2_below pb P2 mu -> 0 < design_size pb + mu ->
  INR (nc pb) * ((design_size pb + mu) * armijo_scale * train_obj pb P2 c) * cubic_size pb ^ 2 < INR n1 * (10 * lambda ^ 2) ^ 2 ->
  20 * lambda ^ 2 * (/ 2) ^ (2 ^ N) < pb_gtol pb * cubic_size pb ->
  irls_solver pb (ls_solver pb solve) P2 c = Some (sf, warned) ->
  ((st_niter sf <= Z.of_nat (n1 + N))%Z /\ ((Z.of_nat (n1 + N) <= pb_max_iter pb)%Z -> warned = false))
  \/ exists s s', reach pb (ls_solver pb solve) P2 c s /\ irls_step pb (ls_solver pb solve) s = Some s' /\ (tiny pb s s' \/ ~ undecided pb (st_coef s)).
Proof.
  intros pb solve P2 c mu lambda n1 N sf warned Hok HA Hbig Hw Ef El HS HP HSm Hsol Hl HAb HL HM H1 Hg E.
  assert (Hs : safe_pair (pb_fam pb) (pb_link pb)) by (rewrite Ef, El; left; reflexivity).
  assert (HB : forall v, hessian_below pb P2 (design_size pb + mu) v).
  { intros v. assert (EQ : design_size pb = rsum (pb_n pb) (fun i => pb_w pb i * / 4 * rsum (nc pb) (fun k => xt pb i k ^ 2))).
    { unfold design_size. rewrite <- rsum_scal. apply rsum_ext. intros; ring. }
    rewrite EQ. apply rows_below; [|exact HL]. intros i Hi. split; [pose proof (Hw i Hi); lra|]. rewrite (logit_row pb v i Ef El).
    apply Rmult_le_compat_l; [apply Hw, Hi|]. pose proof (pow2_ge_0 (probability pb v i - / 2)). nra. }
  set (M := design_size pb + mu) in *.
  destruct (C27_iteration_accounting _ _ _ _ _ _ E) as [n [hist [RH [Hn [En [_ [_ [NS [W1 W2]]]]]]]]]. pose proof RH as [H0 HR].
  assert (RE : forall k, (k <= n)%nat -> reach pb (ls_solver pb solve) P2 c (hist k)) by (eapply hist_reach; eauto).
  destruct (classic (exists k, (k < n)%nat /\ (ls_failed (hist k) (hist (S k)) \/ tiny pb (hist k) (hist (S k))))) as [[k [Hk Q]]|NB].
  { right. exists (hist k), (hist (S k)). split; [apply RE; lia|]. split; [apply RH, Hk|]. destruct Q as [Q|Q]; [right|left; exact Q].
    intros U. apply (C114_logistic_line_search pb solve P2 c (hist k) (hist (S k)) Hok HA Hbig Hw Ef El HS HP HSm Hsol (RE k ltac:(lia)) (HR k Hk) U Q). }
  assert (OK : forall k, (k < n)%nat -> ~ ls_failed (hist k) (hist (S k)) /\ ~ tiny pb (hist k) (hist (S k))).
  { intros k Hk. split; intros Q; apply NB; exists k; auto. }
  left. pose proof (stays_below pb solve P2 c M Hok HA Hw Hs HS HP HSm Hsol HM n hist RH (fun v _ => HB v) OK) as LV.
  assert (T0 : 0 <= cubic_size pb) by (apply cubic_pos, Hw). assert (L2 : 0 < lambda ^ 2) by (apply pow_lt, Hl).
  (* the state after both phases, if the run gets that far, passes the stopping test *)
  assert (KEY : (n1 + N <= n)%nat -> exists m, (m <= n1 + N)%nat /\ stop_test pb (hist m)).
  { intros Ln. assert (EK : exists k, (k < n1)%nat /\ cubic_size pb * grad_norm pb P2 (st_coef (hist k)) <= 10 * lambda ^ 2).
    { apply NNPP. intros NK.
      assert (BIG : forall k, (k < n1)%nat -> (10 * lambda ^ 2) ^ 2 <= INR (nc pb) * grad_sq pb P2 (st_coef (hist k)) * cubic_size pb ^ 2).
      { intros k Hk. pose proof (norm_sq pb P2 (st_coef (hist k))) as NQ. pose proof (grad_norm_pos pb P2 (st_coef (hist k))) as GP.
        assert (B : 10 * lambda ^ 2 < cubic_size pb * grad_norm pb P2 (st_coef (hist k))) by (apply Rnot_le_lt; intros Q; apply NK; exists k; auto).
        apply Rle_trans with ((cubic_size pb * grad_norm pb P2 (st_coef (hist k))) ^ 2); [apply pow_incr; lra|].
        rewrite Rpow_mult_distr, Rmult_comm. apply Rmult_le_compat_r; [apply pow2_ge_0 | exact NQ]. }
      assert (RH1 : run_history pb (ls_solver pb solve) P2 c n1 hist) by (split; [exact H0 | intros k Hk; apply HR; lia]).
      pose proof (many_iterations pb solve P2 c M Hok HA Hw Hs HS HP HSm Hsol HM n1 hist RH1 (fun k Hk => conj (HB _) (OK k ltac:(lia)))) as MI.
      pose proof (obj_nonneg pb P2 Hok Hw Hs HP HSm (st_coef (hist n1))) as NN.
      assert (Z : 0 < M * armijo_scale) by (unfold armijo_scale; apply Rmult_lt_0_compat; [exact HM|]; apply Rmult_lt_0_compat; [lra | apply pow_lt; lra]).
      assert (S1 : INR n1 * (10 * lambda ^ 2) ^ 2 <= INR (nc pb) * rsum n1 (fun k => grad_sq pb P2 (st_coef (hist k))) * cubic_size pb ^ 2).
      { rewrite <- rsum_scal, <- rsum_scal_r, Rmult_comm, <- rsum_const. apply rsum_le. exact BIG. }
      assert (S2 : INR (nc pb) * rsum n1 (fun k => grad_sq pb P2 (st_coef (hist k))) * cubic_size pb ^ 2 <= INR (nc pb) * (M * armijo_scale * train_obj pb P2 c) * cubic_size pb ^ 2).
      { apply Rmult_le_compat_r; [apply pow2_ge_0|]. apply Rmult_le_compat_l; [apply pos_INR|]. eapply Rle_trans; [exact MI|]. apply Rmult_le_compat_l; lra. }
      lra. }
    destruct EK as [k [Hk HN]]. exists (k + N)%nat. split; [lia|].
    assert (RF : run_from pb (ls_solver pb solve) (hist k) N (fun j => hist (k + j)%nat)).
    { split; [rewrite Nat.add_0_r; reflexivity|]. intros j Hj. rewrite <- plus_n_Sm. apply HR. lia. }
    assert (LB : train_obj pb P2 (st_coef (hist k)) <= train_obj pb P2 c) by (apply LV; lia).
    destruct (C115_quadratic pb solve P2 c lambda (hist k) N (fun j => hist (k + j)%nat) Hok HA Hbig Hw Ef El HS HP HSm Hsol (RE k ltac:(lia)) RF Hl
      (fun v Hv => HAb v (Rle_trans _ _ _ Hv LB)) HN) as [Q _]. specialize (Q N (le_n N)).
    left. rewrite smooth_norm by exact HSm. pose proof (reach_inv _ _ _ _ _ Hok ltac:(lra) (RE (k + N)%nat ltac:(lia))) as [C _ _ _].
    rewrite (rsum_ext (nc pb) (fun j => Rabs (st_score (hist (k + N)%nat) j)) (fun j => Rabs (score_of pb P2 (st_coef (hist (k + N)%nat)) j))) by (intros j Hj; rewrite (coh_score _ _ _ C) by exact Hj; reflexivity).
    fold (grad_norm pb P2 (st_coef (hist (k + N)%nat))).
    apply Rnot_le_lt. intros B. assert (pb_gtol pb * cubic_size pb <= cubic_size pb * grad_norm pb P2 (st_coef (hist (k + N)%nat))); [|lra].
    rewrite Rmult_comm. apply Rmult_le_compat_l; assumption. }
  assert (L : (n <= n1 + N)%nat). { destruct (Nat.le_gt_cases n (n1 + N)) as [L|L]; [exact L|]. exfalso. destruct (KEY ltac:(lia)) as [m [Lm ST]]. apply (NS m ltac:(lia) ST). }
  split; [rewrite En; lia|]. intros HMx. destruct warned; [|reflexivity]. specialize (W2 eq_refl). assert (En2 : n = (n1 + N)%nat) by lia.
  destruct (KEY ltac:(lia)) as [m [Lm ST]]. destruct (Nat.eq_dec m n) as [->|NE]; [|exfalso; apply (NS m ltac:(lia) ST)].
  apply W1. rewrite <- Hn. exact ST.
Qed.
Print Assumptions C115_both_phases.

(** Non-vacuity: the one-row ridge logistic regression of C114, from the start 1: every hypothesis holds with lambda = 1 and N = 5,
    and the first iteration exists. *)
Example C115_nonvacuous : 1 <= pb_large ex_pb114 /\ (forall v, hessian_above ex_pb114 (P2diag (fun _ => 1)) 1 v) /\ cubic_size ex_pb114 = 1 /\
  cubic_size ex_pb114 * grad_norm ex_pb114 (P2diag (fun _ => 1)) (fun _ => 1) <= 10 * 1 ^ 2 /\ 0 < grad_norm ex_pb114 (P2diag (fun _ => 1)) (fun _ => 1) /\
  20 * 1 ^ 2 * (/ 2) ^ (2 ^ 5) < pb_gtol ex_pb114 * cubic_size ex_pb114 /\
  exists s', irls_step ex_pb114 (ls_solver ex_pb114 solve1) (init_state ex_pb114 (P2diag (fun _ => 1)) false (fun _ => 1)) = Some s'.
Proof.
  set (pb := ex_pb114). set (P2 := P2diag (fun _ => 1)).
  assert (T1 : cubic_size pb = 1). { unfold cubic_size, nc, xt. simpl. rewrite Rabs_R1. ring. }
  assert (G : grad_norm pb P2 (fun _ => 1) = Rabs (probability pb (fun _ => 1) 0)).
  { unfold grad_norm. change (nc pb) with 1%nat. cbn [rsum]. rewrite Rplus_0_l, <- (Rabs_Ropp (probability _ _ _)). f_equal. unfold score_of.
    change (pb_n pb) with 1%nat. change (nc pb) with 1%nat. cbn [rsum]. rewrite (mean_probability pb _ 0) by reflexivity. change (pb_fam pb) with BinomialF. change (pb_link pb) with LogitL.
    unfold gradient_row, rowwise, binomial_logit_rows. cbn [fst]. change (xt pb 0 0) with 1. change (pb_y pb 0%nat) with 1. change (pb_w pb 0%nat) with 1. unfold p2_full, P2. simpl. ring. }
  pose proof (probability_range pb (fun _ => 1) 0) as PR. rewrite T1, G, Rabs_right by lra.
  split; [simpl; lra|]. split.
  { intros v u. rewrite quad_exact. change (nc pb) with 1%nat. change (pb_n pb) with 1%nat. assert (L : l2_form pb P2 u = u 0%nat ^ 2) by (unfold l2_form, nc, p2_full, p2_entry, P2; simpl; ring).
    rewrite L. cbn [rsum]. assert (0 <= hrow_of pb v 0); [|change (xt pb 0 0) with 1; pose proof (pow2_ge_0 (0 + 1 * u 0%nat)); nra].
    rewrite (logit_row pb v 0) by reflexivity. pose proof (probability_range pb v 0). apply Rmult_le_pos; [simpl; lra|]. apply Rmult_le_pos; lra. }
  split; [reflexivity|]. split; [lra|]. split; [lra|]. split; [simpl; lra|]. exact (proj2 (proj2 (proj2 (proj2 (proj2 (proj2 (proj2 C114_nonvacuous))))))).
Qed.
