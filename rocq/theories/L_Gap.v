(** Strong convexity of the deviance in the predictions (C70, C81). *)
From Coq Require Import List. Import ListNotations.
From Verif Require Import Base M_Std S_Std S_Fit.
From Verif Require Import L_Link L_Dist L_Dist2 L_Dist3 L_Dist4 L_CD L_KKT L_Hess L_Solver L_Solver2 L_Solver3 L_Obj.
From Verif Require Import M_Solver S_Solver S_Fit.
Local Open Scope R_scope.

(** 2 h(y, e) is the unit deviance at the linear predictor e up to a constant of y *)
Definition half_at (f : family) (lk : link) (y e : R) : R :=
  match f, lk with
  | NormalF, IdentityL | TweedieF _, IdentityL => / 2 * (y - e) ^ 2
  | PoissonF, LogL => exp e - y * e
  | GammaF, LogL => e + y * exp (- e)
  | TweedieF p, LogL =>
      if Req_EM_T p 1 then exp e - y * e else if Req_EM_T p 2 then e + y * exp (- e)
      else y * exp ((1 - p) * e) / (p - 1) + exp ((2 - p) * e) / (2 - p)
  | BinomialF, LogitL => ln (1 + exp e) - y * e
  | NegBinF th, LogL => (y + / th) * ln (exp e + / th) - y * e
  | _, _ => 0
  end.
Lemma mean_at_pos f lk e : convex_pair f lk -> mean_range f (mean_at lk e).
Proof.
  intros H. destruct f as [p| | | | | | |th]; destruct lk; simpl in H; try tauto; cbn; auto; try apply exp_pos; try (intros; lra); try (intros; apply exp_pos).
  pose proof (expit_bounds e) as B. unfold expit, Rdiv in B. rewrite Rmult_1_l in B. exact B.
Qed.
Lemma mean_support f lk e : convex_pair f lk -> support f (mean_at lk e).
Proof.
  intros Hc. pose proof (mean_at_pos f lk e Hc) as P. destruct f as [p| | | | | | |th]; destruct lk; simpl in Hc; try (exfalso; exact Hc); cbn in *; auto; try lra.
  all: try (split; intros; lra).
Qed.
Lemma ln_logistic e : ln (/ (1 + exp (- e))) = e - ln (1 + exp e) /\ ln (1 - / (1 + exp (- e))) = - ln (1 + exp e).
Proof.
  pose proof (exp_pos e). pose proof (exp_pos (- e)).
  assert (E : 1 + exp (- e) = (1 + exp e) * exp (- e)) by (rewrite Rmult_plus_distr_r, <- exp_plus, Rplus_opp_r, exp_0; ring).
  rewrite ln_Rinv, E, ln_mult, ln_exp by nra. split; [ring|].
  replace (1 - / ((1 + exp e) * exp (- e))) with (/ (1 + exp e)).
  - rewrite ln_Rinv by lra. reflexivity.
  - rewrite exp_Ropp. field. lra.
Qed.
Lemma unit_half f lk y a b : family_ok f -> support f y -> convex_pair f lk ->
  / 2 * (unit_deviance f y (mean_at lk b) - unit_deviance f y (mean_at lk a)) = half_at f lk y b - half_at f lk y a.
Proof.
  intros Hf Hy H. destruct f as [p| | | | | | |th]; destruct lk; simpl in H; try (exfalso; exact H); cbn [mean_at half_at unit_deviance].
  - destruct (Req_EM_T p 0); [ring|lra].
  - destruct (Req_EM_T p 0); [lra|]. destruct (Req_EM_T p 1) as [->|N1].
    { rewrite !xlogy_eq. destruct Hy as [Hy _]. specialize (Hy (Rle_refl 1)). destruct (Req_EM_T y 0) as [->|Ny]; [field|].
      unfold Rdiv. rewrite !ln_mult, !ln_Rinv, !ln_exp by (try apply Rinv_0_lt_compat; try apply exp_pos; lra). field. }
    destruct (Req_EM_T p 2) as [->|N2].
    { destruct Hy as [_ Hy]. specialize (Hy (Rle_refl 2)).
      unfold Rdiv. rewrite !ln_mult, !ln_exp by (try apply Rinv_0_lt_compat; try apply exp_pos; lra). rewrite !exp_Ropp. field; split; apply Rgt_not_eq, exp_pos. }
    destruct (Req_EM_T p 3); [lra|]. unfold Rpower. rewrite !ln_exp.
    assert (E : forall e, exp ((2 - p) * e) = exp e * exp ((1 - p) * e)) by (intros e; rewrite <- exp_plus; f_equal; ring).
    rewrite !E. field. lra.
  - field.
  - rewrite !xlogy_eq. cbn in Hy. destruct (Req_EM_T y 0) as [->|Ny]; [field|].
    unfold Rdiv. rewrite !ln_mult, !ln_Rinv, !ln_exp by (try apply Rinv_0_lt_compat; try apply exp_pos; lra). field.
  - cbn in Hy. unfold Rdiv. rewrite !ln_mult, !ln_exp by (try apply Rinv_0_lt_compat; try apply exp_pos; lra). rewrite !exp_Ropp. field; split; apply Rgt_not_eq, exp_pos.
  - rewrite !xlogy_eq. rewrite !(proj1 (ln_logistic _)), !(proj2 (ln_logistic _)). field.
  - cbn in Hf, Hy. rewrite !xlogy_eq. assert (T : 0 < / th) by (apply Rinv_0_lt_compat, Hf).
    assert (P : forall e, 0 < exp e + / th) by (intros e; pose proof (exp_pos e); lra).
    replace (1 / th) with (/ th) by (unfold Rdiv; ring).
    assert (L : forall e, ln ((y + / th) / (exp e + / th)) = ln (y + / th) - ln (exp e + / th)).
    { intros e. unfold Rdiv. rewrite ln_mult, ln_Rinv by (try apply Rinv_0_lt_compat, P; try apply P; lra). ring. }
    rewrite !L. destruct (Req_EM_T y 0) as [->|Ny]; [field; lra|].
    unfold Rdiv. rewrite !ln_mult, !ln_Rinv, !ln_exp by (try apply Rinv_0_lt_compat; try apply exp_pos; lra). field; lra.
Qed.

Lemma exp_tangent x y : exp y + exp y * (x - y) <= exp x.
Proof.
  replace (exp x) with (exp y * exp (x - y)) by (rewrite <- exp_plus; f_equal; ring).
  pose proof (exp_ineq1_le (x - y)). pose proof (exp_pos y). nra.
Qed.
Lemma half_gap f lk y a b : family_ok f -> support f y -> convex_pair f lk ->
  pred_weight f y (mean_at lk a) * (half_at f lk (mean_at lk a) b - half_at f lk (mean_at lk a) a)
  <= half_at f lk y b - half_at f lk y a + residual f lk y a * (b - a).
Proof.
  intros Hf Hy H. destruct f as [p| | | | | | |th]; destruct lk; simpl in H; try (exfalso; exact H); cbn [mean_at half_at residual pred_weight].
  - destruct (Req_EM_T p 0); [|lra]. right. field.
  - destruct (Req_EM_T p 0); [lra|]. destruct (Req_EM_T p 1) as [->|N1].
    { right. replace ((1 - 1) * a) with 0 by ring. rewrite exp_0. ring. }
    destruct (Req_EM_T p 2) as [->|N2].
    { right. replace ((1 - 2) * a) with (- a) by ring. rewrite !exp_Ropp. field. split; apply Rgt_not_eq, exp_pos. }
    destruct Hy as [Hy _]. specialize (Hy ltac:(lra)).
    set (A := (exp ((1 - p) * b) - exp ((1 - p) * a)) / (p - 1) + exp ((1 - p) * a) * (b - a)).
    set (B := (exp ((2 - p) * b) - exp ((2 - p) * a)) / (2 - p) - exp ((2 - p) * a) * (b - a)).
    assert (HA : 0 <= A).
    { unfold A. apply Rmult_le_reg_r with (p - 1); [lra|]. pose proof (exp_tangent ((1 - p) * b) ((1 - p) * a)).
      replace (0 * (p - 1)) with 0 by ring.
      replace (((exp ((1 - p) * b) - exp ((1 - p) * a)) / (p - 1) + exp ((1 - p) * a) * (b - a)) * (p - 1))
        with (exp ((1 - p) * b) - exp ((1 - p) * a) - exp ((1 - p) * a) * ((1 - p) * b - (1 - p) * a)) by (field; lra). lra. }
    assert (HB : 0 <= B).
    { unfold B. apply Rmult_le_reg_r with (2 - p); [lra|]. pose proof (exp_tangent ((2 - p) * b) ((2 - p) * a)).
      replace (0 * (2 - p)) with 0 by ring.
      replace (((exp ((2 - p) * b) - exp ((2 - p) * a)) / (2 - p) - exp ((2 - p) * a) * (b - a)) * (2 - p))
        with (exp ((2 - p) * b) - exp ((2 - p) * a) - exp ((2 - p) * a) * ((2 - p) * b - (2 - p) * a)) by (field; lra). lra. }
    assert (E1 : exp ((2 - p) * a) = exp a * exp ((1 - p) * a)) by (rewrite <- exp_plus; f_equal; ring).
    replace (exp a * exp ((1 - p) * b) / (p - 1) + exp ((2 - p) * b) / (2 - p) - (exp a * exp ((1 - p) * a) / (p - 1) + exp ((2 - p) * a) / (2 - p)))
      with (exp a * A + B) by (unfold A, B; rewrite E1; field; lra).
    replace (y * exp ((1 - p) * b) / (p - 1) + exp ((2 - p) * b) / (2 - p) - (y * exp ((1 - p) * a) / (p - 1) + exp ((2 - p) * a) / (2 - p))
       + (y - exp a) * exp ((1 - p) * a) * (b - a)) with (y * A + B) by (unfold A, B; rewrite E1; field; lra).
    pose proof (exp_pos a) as Pa. set (m := exp a) in *.
    assert (K1 : Rmin 1 (y / m) * B <= 1 * B) by (apply Rmult_le_compat_r; [exact HB|apply Rmin_l]).
    assert (K2 : Rmin 1 (y / m) * (m * A) <= y / m * (m * A)) by (apply Rmult_le_compat_r; [apply Rmult_le_pos; lra|apply Rmin_r]).
    replace (y / m * (m * A)) with (y * A) in K2 by (field; lra). lra.
  - right. field.
  - right. ring.
  - right. rewrite !exp_Ropp. field. split; apply Rgt_not_eq, exp_pos.
  - right. pose proof (exp_pos (- a)). rewrite (Rplus_comm 1 (exp (- a))). field. lra.
  - right. cbn in Hf. pose proof (exp_pos a) as Pa. set (m := exp a) in *.
    assert (0 < th * m) by (apply Rmult_lt_0_compat; assumption). field. lra.
Qed.

Lemma residual_eq0 f lk y w eta : convex_pair f lk -> gradient_row f lk y w eta (search_mean f lk eta) = w * residual f lk y eta.
Proof.
  intros H. unfold convex_pair in H. unfold gradient_row, rowwise, residual, mean_at.
  destruct f as [p| | | | | | |th]; destruct lk as [q| | | |]; try (exfalso; exact H); try reflexivity; cbn.
  - destruct (Req_EM_T p 0); [reflexivity|lra].
  - unfold inverse1, Rpower. cbn. destruct (Req_EM_T p 1) as [->|N1]; [cbn; replace ((1 - 1) * eta) with 0 by ring; rewrite exp_0; ring|].
    destruct (Req_EM_T p 2) as [->|N2].
    + cbn. replace ((1 - 2) * eta) with (- eta) by ring. rewrite exp_Ropp. pose proof (exp_pos eta). field. lra.
    + destruct (Rlt_dec 1 p); [|lra]. destruct (Rlt_dec p 2); [|lra]. cbn. unfold Rpower. rewrite ln_exp. ring.
  - unfold inverse1. cbn. rewrite exp_Ropp. pose proof (exp_pos eta). field. lra.
  - unfold expit. do 2 f_equal. field. pose proof (exp_pos (- eta)). lra.
  - unfold inverse1, Rdiv. cbn. ring.
Qed.
(** rows of the objective *)
Lemma row_gap f lk y w a b : family_ok f -> support f y -> 0 <= w -> convex_pair f lk ->
  / 2 * (w * devrow f y (search_mean f lk a)) + - gradient_row f lk y w a (raw_inverse lk a) * (b - a)
  + / 2 * (w * pred_weight f y (mean_at lk a) * (unit_deviance f (mean_at lk a) (mean_at lk b) - unit_deviance f (mean_at lk a) (mean_at lk a)))
  <= / 2 * (w * devrow f y (search_mean f lk b)).
Proof.
  intros Hf Hy Hw Hc.
  assert (SM : forall e, search_mean f lk e = mean_at lk e).
  { intros e. destruct f as [p| | | | | | |th]; destruct lk; simpl in Hc; try (exfalso; exact Hc); try reflexivity.
    cbn. unfold expit, Rdiv. ring. }
  assert (RI : raw_inverse lk a = search_mean f lk a).
  { destruct (convex_pair_regular _ _ a Hc) as [_ [_ L]]. symmetry. apply (locally_at _ _ _ L). }
  rewrite RI, residual_eq0 by exact Hc. rewrite !SM.
  rewrite !devrow_eq by (auto; try (eapply convex_pair_dev_ok; eauto); apply (mean_at_pos f lk); exact Hc).
  assert (SMU : support f (mean_at lk a)).
  { pose proof (mean_at_pos f lk a Hc) as P. clear - P Hc. destruct f as [p| | | | | | |th]; destruct lk; simpl in Hc; try (exfalso; exact Hc); cbn in *; auto; try lra.
    all: try (split; intros; lra). }
  pose proof (unit_half f lk y a b Hf Hy Hc) as U1. pose proof (unit_half f lk (mean_at lk a) a b Hf SMU Hc) as U2.
  pose proof (half_gap f lk y a b Hf Hy Hc) as G.
  set (d1 := unit_deviance f y (mean_at lk a)) in *. set (d2 := unit_deviance f y (mean_at lk b)) in *.
  set (k := pred_weight f y (mean_at lk a)) in *. set (r := residual f lk y a) in *.
  set (d3 := unit_deviance f (mean_at lk a) (mean_at lk b) - unit_deviance f (mean_at lk a) (mean_at lk a)) in *.
  rewrite <- U1, <- U2 in G. apply (Rmult_le_compat_l w _ _ Hw) in G.
  replace (w * (k * (/ 2 * d3))) with (/ 2 * (w * k * d3)) in G by ring. 
  replace (w * (/ 2 * (d2 - d1) + r * (b - a))) with (/ 2 * (w * d2) - / 2 * (w * d1) + w * r * (b - a)) in G by ring. lra.
Qed.

(** the objective *)
Lemma smooth_gap pb P2 c v : pb_ok pb -> p2_sym (pb_p pb) P2 ->
  (forall i, (i < pb_n pb)%nat -> 0 <= pb_w pb i) -> convex_pair (pb_fam pb) (pb_link pb) ->
  smooth_obj pb P2 c + rsum (nc pb) (fun k => - score_of pb P2 c k * (v k - c k))
  + / 2 * l2_form pb P2 (fun k => v k - c k)
  + / 2 * rsum (pb_n pb) (fun i => pb_w pb i * pred_weight (pb_fam pb) (pb_y pb i) (mean_at (pb_link pb) (eta_of pb c i))
       * (unit_deviance (pb_fam pb) (mean_at (pb_link pb) (eta_of pb c i)) (mean_at (pb_link pb) (eta_of pb v i))
          - unit_deviance (pb_fam pb) (mean_at (pb_link pb) (eta_of pb c i)) (mean_at (pb_link pb) (eta_of pb c i))))
  <= smooth_obj pb P2 v.
Proof.
  intros Hok HS Hw Hc. set (G := / 2 * rsum (pb_n pb) _).
  assert (EM : forall i, mean_of pb c i = raw_inverse (pb_link pb) (eta_of pb c i)).
  { intros i. destruct (convex_pair_regular _ _ (eta_of pb c i) Hc) as [_ [_ L]]. apply (locally_at _ _ _ L). }
  set (d := fun k => v k - c k).
  assert (Ev : v = vadd c (vscale 1 d)).
  { apply FunctionalExtensionality.functional_extensionality. intros k. unfold vadd, vscale, d. ring. }
  assert (EG : G = rsum (pb_n pb) (fun i => / 2 * (pb_w pb i * pred_weight (pb_fam pb) (pb_y pb i) (mean_at (pb_link pb) (eta_of pb c i))
       * (unit_deviance (pb_fam pb) (mean_at (pb_link pb) (eta_of pb c i)) (mean_at (pb_link pb) (eta_of pb (vadd c (vscale 1 d)) i))
          - unit_deviance (pb_fam pb) (mean_at (pb_link pb) (eta_of pb c i)) (mean_at (pb_link pb) (eta_of pb c i)))))).
  { unfold G. rewrite <- rsum_scal. rewrite <- Ev. reflexivity. }
  rewrite EG. clear EG G.
  rewrite Ev at 1. rewrite !smooth_obj_eq. unfold smooth_obj_with. rewrite l2_form_add by exact HS.
  rewrite !half_dev_rows.
  assert (ES : rsum (nc pb) (fun k => - score_of pb P2 c k * (v k - c k)) =
     rsum (pb_n pb) (fun i => - gradient_row (pb_fam pb) (pb_link pb) (pb_y pb i) (pb_w pb i) (eta_of pb c i)
                             (raw_inverse (pb_link pb) (eta_of pb c i)) * lin_pred pb d i)
     + rsum (nc pb) (fun k => rsum (nc pb) (fun l => c l * p2_full (pb_ic pb) P2 l k) * d k)).
  { rewrite <- grad_dot. apply rsum_ext. intros k _. rewrite grad_score by auto. reflexivity. }
  rewrite ES. fold d. set (gap := fun i => / 2 * (pb_w pb i * pred_weight _ _ _ * _)).
  assert (R : rsum (pb_n pb) (fun i => / 2 * (pb_w pb i * devrow (pb_fam pb) (pb_y pb i) (search_mean (pb_fam pb) (pb_link pb) (eta_of pb c i))))
    + rsum (pb_n pb) (fun i => - gradient_row (pb_fam pb) (pb_link pb) (pb_y pb i) (pb_w pb i) (eta_of pb c i)
                             (raw_inverse (pb_link pb) (eta_of pb c i)) * lin_pred pb d i)
    + rsum (pb_n pb) gap
    <= rsum (pb_n pb) (fun i => / 2 * (pb_w pb i * devrow (pb_fam pb) (pb_y pb i) (search_mean (pb_fam pb) (pb_link pb) (eta_of pb (vadd c (vscale 1 d)) i))))).
  { rewrite <- !rsum_plus. apply rsum_le. intros i Hi.
    pose proof (row_gap (pb_fam pb) (pb_link pb) (pb_y pb i) (pb_w pb i) 
       (eta_of pb c i) (eta_of pb (vadd c (vscale 1 d)) i) (proj1 Hok) (proj1 (proj2 Hok) i Hi) (Hw i Hi) Hc) as Q.
    unfold gap. rewrite eta_of_add in Q at 1.
    replace (eta_of pb c i + 1 * lin_pred pb d i - eta_of pb c i) with (lin_pred pb d i) in Q by ring. exact Q. }
  lra.
Qed.
Lemma pred_dev_eq u b0 b b0' b' : user_ok u -> convex_pair (u_fam u) (u_link u) ->
  pred_dev u b0 b b0' b' = rsum (u_n u) (fun i => u_w u i * pred_weight (u_fam u) (u_y u i) (mean_at (u_link u) (user_eta u b0 b i))
       * (unit_deviance (u_fam u) (mean_at (u_link u) (user_eta u b0 b i)) (mean_at (u_link u) (user_eta u b0' b' i))
          - unit_deviance (u_fam u) (mean_at (u_link u) (user_eta u b0 b i)) (mean_at (u_link u) (user_eta u b0 b i)))).
Proof.
  intros Hok Hc. unfold pred_dev, pred_gap. cbv zeta. unfold saturate. rewrite map_map, !deviance_rows, !lsumf_map, !lsumf_seq, <- rsum_minus.
  apply rsum_ext. intros i Hi. cbn [oy ow omu].
  rewrite !devrow_eq; try (apply (mean_at_pos _ _ _ Hc)); try apply Hok; try (apply (mean_support _ _ _ Hc)); try (eapply convex_pair_dev_ok; eauto).
  ring.
Qed.
Lemma unit_min f lk a b : family_ok f -> convex_pair f lk ->
  unit_deviance f (mean_at lk a) (mean_at lk a) <= unit_deviance f (mean_at lk a) (mean_at lk b).
Proof.
  intros Hf Hc. pose proof (mean_at_pos f lk a Hc) as P.
  assert (WA : wavg ((mean_at lk a, 1) :: nil) = mean_at lk a) by (unfold wavg; rewrite !lsumf_cons, !lsumf_nil; cbn; field).
  destruct (weighted_mean_min f ((mean_at lk a, 1) :: nil) (mean_at lk b) Hf) as [M _].
  - intros yw [<-|[]]. cbn. split; [apply mean_support, Hc|lra].
  - rewrite lsumf_cons, lsumf_nil. cbn. lra.
  - rewrite WA. exact P.
  - apply mean_at_pos, Hc.
  - rewrite WA in M. unfold udsum in M. rewrite !lsumf_cons, !lsumf_nil in M. cbn in M. lra.
Qed.
Lemma pred_weight_nonneg f lk y e : family_ok f -> support f y -> convex_pair f lk -> 0 <= pred_weight f y (mean_at lk e).
Proof.
  intros Hf Hy Hc. destruct f as [p| | | | | | |th]; destruct lk; simpl in Hc; try (exfalso; exact Hc); cbn [pred_weight mean_at]; try lra.
  - destruct (Req_EM_T p 0); lra.
  - destruct (Req_EM_T p 0); [lra|]. destruct (Req_EM_T p 1); [lra|].
    assert (0 <= y / exp e) by (destruct Hy as [Hy _]; specialize (Hy ltac:(lra)); apply Rmult_le_pos; [lra|left; apply Rinv_0_lt_compat, exp_pos]).
    destruct (Req_EM_T p 2); [lra|]. apply Rmin_glb; lra.
  - cbn in Hy. apply Rmult_le_pos; [lra|left; apply Rinv_0_lt_compat, exp_pos].
  - cbn in Hf, Hy. assert (0 < th * exp e) by (apply Rmult_lt_0_compat; [exact Hf|apply exp_pos]).
    assert (0 <= th * y) by (apply Rmult_le_pos; lra). apply Rmult_le_pos; [lra|left; apply Rinv_0_lt_compat; lra].
Qed.
Lemma pred_dev_nonneg u b0 b b0' b' : user_ok u -> convex_pair (u_fam u) (u_link u) -> 0 <= pred_dev u b0 b b0' b'.
Proof.
  intros Hok Hc. rewrite pred_dev_eq by assumption. pose proof Hok as [Hf [Hy [Hw _]]]. apply rsum_nonneg. intros i Hi.
  apply Rmult_le_pos; [apply Rmult_le_pos; [apply Hw, Hi|apply pred_weight_nonneg; auto]|].
  pose proof (unit_min (u_fam u) (u_link u) (user_eta u b0 b i) (user_eta u b0' b' i) Hf Hc). lra.
Qed.
