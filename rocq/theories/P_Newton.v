(** C116: quadratic convergence of irls-ls for every pair with an exact Hessian. *)
From Coq Require Import List Lia Lra Arith ZArith Classical_Prop. Import ListNotations.
From Verif Require Import L_Link L_Dist L_Dist2 L_Dist3 L_Dist4 L_CD L_CDb L_KKT L_Hess L_Solver L_Solver2 L_Solver3 L_Obj L_LS L_Psd L_Gap L_FitAll P_Solver P_LS P_Gauss S_Psd S_Pace P_Pace S_Quad P_Quad S_Newton.
From Verif Require Import M_Solver S_Solver.
Local Open Scope R_scope.

(** ** one row: the curvature changes by at most a factor e per unit of the linear predictor *)
Lemma curvature_slope f lk y w : exact_hessian_pair f lk -> family_ok f -> support f y -> 0 <= w ->
  exists h' : R -> R, (forall x, is_derive (fun e => hessian_row f lk y w e (raw_inverse lk e)) x (h' x)) /\
    forall x, Rabs (h' x) <= hessian_row f lk y w x (raw_inverse lk x).
Proof.
  intros He Hf Hy Hw. unfold hessian_row, rowwise.
  assert (N : exists h' : R -> R, (forall x, is_derive (fun _ : R => w) x (h' x)) /\ forall x, Rabs (h' x) <= w).
  { exists (fun _ => 0). split; intros; [apply dR_const | rewrite Rabs_R0; exact Hw]. }
  assert (P : exists h' : R -> R, (forall x, is_derive (fun e => w * exp e) x (h' x)) /\ forall x, Rabs (h' x) <= w * exp x).
  { exists (fun x => w * exp x). split; intros x; [auto_derive; [exact I | ring] |]. rewrite Rabs_right; [lra|]. apply Rle_ge, Rmult_le_pos; [exact Hw | left; apply exp_pos]. }
  assert (G : 0 < y -> exists h' : R -> R, (forall x, is_derive (fun e => w * (y / exp e)) x (h' x)) /\ forall x, Rabs (h' x) <= w * (y / exp x)).
  { intros Yp. exists (fun x => - (w * (y / exp x))). split; intros x.
    - pose proof (exp_pos x). auto_derive; [lra|]. field. lra.
    - pose proof (exp_pos x). rewrite Rabs_Ropp, Rabs_right; [lra|]. apply Rle_ge, Rmult_le_pos; [exact Hw|]. apply Rmult_le_pos; [lra | left; apply Rinv_0_lt_compat; lra]. }
  destruct f as [p| | | | | | |th]; destruct lk as [q| | | |]; simpl in He; try tauto.
  - subst p. destruct (Req_EM_T 0 0); [|lra]. exact N.
  - destruct (Req_EM_T p 1) as [->|N1]; [exact P|]. destruct (Req_EM_T p 2) as [->|N2]; [apply G; cbn in Hy; destruct Hy as [_ Hy]; apply Hy; lra|].
    destruct (Rlt_dec 1 p); [|lra]. destruct (Rlt_dec p 2); [|lra]. cbn [snd tweedie_log_rows raw_inverse].
    assert (Y0 : 0 <= y) by (cbn in Hy; destruct Hy as [Hy _]; apply Hy; lra).
    assert (EQ : forall e, w * Rpower (exp e) (1 - p) * (exp e - (1 - p) * (y - exp e)) = w * ((2 - p) * exp ((2 - p) * e) + (p - 1) * y * exp ((1 - p) * e))).
    { intros e. rewrite Rpower_exp. replace ((2 - p) * e) with (e + (1 - p) * e) by ring. rewrite exp_plus. ring. }
    exists (fun x => w * ((2 - p) ^ 2 * exp ((2 - p) * x) - (p - 1) ^ 2 * y * exp ((1 - p) * x))). split; intros x.
    + apply (dR_ext (fun e => w * ((2 - p) * exp ((2 - p) * e) + (p - 1) * y * exp ((1 - p) * e)))); [intros e; symmetry; apply EQ|].
      auto_derive; [exact I | ring].
    + rewrite EQ. pose proof (exp_pos ((2 - p) * x)) as A. pose proof (exp_pos ((1 - p) * x)) as B. rewrite Rabs_mult, (Rabs_right w) by lra.
      apply Rmult_le_compat_l; [exact Hw|]. set (u := exp ((2 - p) * x)) in *. set (v := exp ((1 - p) * x)) in *.
      assert (U : (2 - p) ^ 2 * u <= (2 - p) * u) by (apply Rmult_le_compat_r; [lra | simpl; nra]). assert (U0 : 0 <= (2 - p) ^ 2 * u) by (apply Rmult_le_pos; [apply pow2_ge_0 | lra]).
      assert (V0 : 0 <= y * v) by (apply Rmult_le_pos; lra). assert (V : (p - 1) ^ 2 * y * v <= (p - 1) * y * v) by (rewrite !(Rmult_assoc _ y v); apply Rmult_le_compat_r; [exact V0 | simpl; nra]).
      assert (V1 : 0 <= (p - 1) ^ 2 * y * v) by (rewrite Rmult_assoc; apply Rmult_le_pos; [apply pow2_ge_0 | exact V0]). apply Rabs_le. lra.
  - exists (curv_slope w). split; [intros x; exact (curv_derive y w x)|]. intros x. unfold binomial_logit_rows, curv_slope. cbn [snd raw_inverse].
    pose proof (expit_bounds x) as B. set (p := expit x) in *. rewrite Rabs_mult, (Rabs_right w) by lra. replace (w * p * (1 - p)) with (w * (p * (1 - p))) by ring. apply Rmult_le_compat_l; [exact Hw|].
    assert (Q : 0 <= p * (1 - p)) by (apply Rmult_le_pos; lra). apply Rabs_le. split; nra.
Qed.

Section Row.
Variables (G h h' : R -> R).
Hypothesis DG : forall x, is_derive G x (h x).
Hypothesis Dh : forall x, is_derive h x (h' x).
Hypothesis SC : forall x, Rabs (h' x) <= h x.

Lemma h_up a b : a <= b -> h b <= h a * exp (b - a).
Proof.
  intros L. pose proof (derive_nonneg_mono (fun x => - (h x * exp (- x))) (fun x => - (h' x * exp (- x) - h x * exp (- x))) a b L) as M.
  assert (M1 : - (h a * exp (- a)) <= - (h b * exp (- b))).
  { apply M.
    - intros x _. apply dR_opp. eapply dR_eq; [apply (dR_mult h (fun x => exp (- x)) x (h' x) (- exp (- x))); [apply Dh | auto_derive; [exact I | ring]] | ring].
    - intros x _. pose proof (SC x) as S0. apply Rabs_le_between in S0. pose proof (exp_pos (- x)). nra. }
  pose proof (exp_pos (- b)) as E. apply Rmult_le_reg_r with (exp (- b)); [exact E|]. rewrite Rmult_assoc, <- exp_plus. replace (b - a + - b) with (- a) by ring. lra.
Qed.
Lemma h_down a b : a <= b -> h a * exp (- (b - a)) <= h b.
Proof.
  intros L. pose proof (derive_nonneg_mono (fun x => h x * exp x) (fun x => h' x * exp x + h x * exp x) a b L) as M.
  assert (M1 : h a * exp a <= h b * exp b).
  { apply M.
    - intros x _. eapply dR_eq; [apply (dR_mult h exp x (h' x) (exp x)); [apply Dh | auto_derive; [exact I | ring]] | ring].
    - intros x _. pose proof (SC x) as S0. apply Rabs_le_between in S0. pose proof (exp_pos x). nra. }
  pose proof (exp_pos b) as E. apply Rmult_le_reg_r with (exp b); [exact E|]. rewrite Rmult_assoc, <- exp_plus. replace (- (b - a) + b) with a by ring. exact M1.
Qed.
Lemma h_pos x : 0 <= h x.
Proof. pose proof (SC x). pose proof (Rabs_pos (h' x)). lra. Qed.

Lemma G_up a b : a <= b -> G b - G a - h a * (b - a) <= h a * (exp (b - a) - 1 - (b - a)).
Proof.
  intros L. pose proof (derive_nonneg_mono (fun x => h a * exp (x - a) - G x) (fun x => h a * exp (x - a) - h x) a b L) as M.
  assert (M1 : h a * exp (a - a) - G a <= h a * exp (b - a) - G b).
  { apply M.
    - intros x _. apply dR_minus; [auto_derive; [exact I | unfold Rminus; ring] | apply DG].
    - intros x Hx. pose proof (h_up a x ltac:(lra)). lra. }
  rewrite Rminus_eq_0, exp_0 in M1. lra.
Qed.
Lemma G_down a b : a <= b -> - (h a * (exp (b - a) - 1 - (b - a))) <= G b - G a - h a * (b - a).
Proof.
  intros L. pose proof (derive_nonneg_mono (fun x => h a * exp (x - a) + G x - 2 * h a * x) (fun x => h a * exp (x - a) + h x - 2 * h a) a b L) as M.
  assert (M1 : h a * exp (a - a) + G a - 2 * h a * a <= h a * exp (b - a) + G b - 2 * h a * b).
  { apply M.
    - intros x _. apply dR_minus; [apply dR_plus; [auto_derive; [exact I | unfold Rminus; ring] | apply DG] | auto_derive; [exact I | ring]].
    - intros x Hx. pose proof (h_down a x ltac:(lra)) as D. pose proof (h_pos a). pose proof (exp_ineq1_le (x - a)). pose proof (exp_ineq1_le (- (x - a))). nra. }
  rewrite Rminus_eq_0, exp_0 in M1. lra.
Qed.
End Row.

Lemma G_remainder G h h' : (forall x, is_derive G x (h x)) -> (forall x, is_derive h x (h' x)) -> (forall x, Rabs (h' x) <= h x) ->
  forall a b, Rabs (G b - G a - h a * (b - a)) <= h a * (exp (Rabs (b - a)) - 1 - Rabs (b - a)).
Proof.
  intros DG Dh SC a b. destruct (Rle_lt_dec a b) as [L|L].
  - rewrite (Rabs_right (b - a)) by lra. apply Rabs_le. split; [apply (G_down G h h') | apply (G_up G h h')]; assumption.
  - rewrite (Rabs_left (b - a)) by lra.
    assert (DG2 : forall x, is_derive (fun x => - G (- x)) x (h (- x))).
    { intros x. eapply dR_eq; [apply dR_opp, (dR_comp G (fun x => - x) x (h (- x)) (-1)); [apply DG | auto_derive; [exact I | ring]] | ring]. }
    assert (Dh2 : forall x, is_derive (fun x => h (- x)) x (- h' (- x))).
    { intros x. eapply dR_eq; [apply (dR_comp h (fun x => - x) x (h' (- x)) (-1)); [apply Dh | auto_derive; [exact I | ring]] | ring]. }
    assert (SC2 : forall x, Rabs (- h' (- x)) <= h (- x)) by (intros x; rewrite Rabs_Ropp; apply SC).
    pose proof (G_up _ _ _ DG2 Dh2 SC2 (- a) (- b) ltac:(lra)) as U. pose proof (G_down _ _ _ DG2 Dh2 SC2 (- a) (- b) ltac:(lra)) as D. cbv beta in U, D.
    rewrite !Ropp_involutive in U, D. replace (- b - - a) with (- (b - a)) in U, D by ring. apply Rabs_le. lra.
Qed.
Lemma h_ratio h h' : (forall x, is_derive h x (h' x)) -> (forall x, Rabs (h' x) <= h x) -> forall a b, h a * exp (- Rabs (b - a)) <= h b.
Proof.
  intros Dh SC a b. destruct (Rle_lt_dec a b) as [L|L].
  - rewrite (Rabs_right (b - a)) by lra. apply (h_down h h'); assumption.
  - rewrite (Rabs_left (b - a)) by lra. pose proof (h_up h h' Dh SC b a ltac:(lra)) as U. pose proof (exp_pos (- - (b - a))) as E.
    apply Rmult_le_reg_r with (exp (a - b)); [apply exp_pos|]. rewrite Rmult_assoc, <- exp_plus. replace (- - (b - a) + (a - b)) with 0 by ring. rewrite exp_0. lra.
Qed.
Lemma F_remainder (F G h h' : R -> R) : (forall x, is_derive F x (G x)) -> (forall x, is_derive G x (h x)) -> (forall x, is_derive h x (h' x)) -> (forall x, Rabs (h' x) <= h x) ->
  forall a b, F b <= F a + G a * (b - a) + h a * (exp (Rabs (b - a)) - 1 - Rabs (b - a)).
Proof.
  intros DF DG Dh SC a b. pose proof (fun x => G_remainder G h h' DG Dh SC a x) as GR. destruct (Rle_lt_dec a b) as [L|L].
  - rewrite (Rabs_right (b - a)) by lra.
    pose proof (derive_nonneg_mono (fun x => G a * x + h a * (exp (x - a) - x) - F x) (fun x => G a + h a * (exp (x - a) - 1) - G x) a b L) as M. cbv beta in M.
    assert (M1 : G a * a + h a * (exp (a - a) - a) - F a <= G a * b + h a * (exp (b - a) - b) - F b).
    { apply M.
      - intros x _. apply dR_minus; [auto_derive; [exact I | unfold Rminus; ring] | apply DF].
      - intros x Hx. pose proof (GR x) as Q. rewrite (Rabs_right (x - a)) in Q by lra. apply Rabs_le_between in Q. lra. }
    rewrite Rminus_eq_0, exp_0 in M1. lra.
  - rewrite (Rabs_left (b - a)) by lra.
    pose proof (derive_nonneg_mono (fun x => - (G a * x + h a * (exp (a - x) + x) - F x)) (fun x => - (G a + h a * (1 - exp (a - x)) - G x)) b a ltac:(lra)) as M. cbv beta in M.
    assert (M1 : - (G a * b + h a * (exp (a - b) + b) - F b) <= - (G a * a + h a * (exp (a - a) + a) - F a)).
    { apply M.
      - intros x _. apply dR_opp, dR_minus; [auto_derive; [exact I | unfold Rminus; ring] | apply DF].
      - intros x Hx. pose proof (GR x) as Q. rewrite (Rabs_left1 (x - a)) in Q by lra. replace (- (x - a)) with (a - x) in Q by ring. apply Rabs_le_between in Q. lra. }
    rewrite Rminus_eq_0, exp_0 in M1. replace (- (b - a)) with (a - b) by ring. lra.
Qed.

Lemma exp_le x y : x <= y -> exp x <= exp y.
Proof. intros [H|H]; [left; apply exp_increasing, H | right; rewrite H; reflexivity]. Qed.
Lemma exp_second t : 0 <= t <= / 2 -> exp t - 1 - t <= 7 / 8 * t ^ 2.
Proof.
  intros Ht. pose proof (derive_nonneg_mono (fun t => / 2 * t ^ 2 - 1 + (1 + t) * exp (- t)) (fun t => t - t * exp (- t)) 0 t (proj1 Ht)) as M. cbv beta in M.
  assert (M1 : / 2 * 0 ^ 2 - 1 + (1 + 0) * exp (- 0) <= / 2 * t ^ 2 - 1 + (1 + t) * exp (- t)).
  { apply M.
    - intros x _. auto_derive; [exact I | field].
    - intros x Hx. assert (exp (- x) <= 1) by (rewrite <- exp_0; apply exp_le; lra). nra. }
  rewrite Ropp_0, exp_0 in M1. assert (M2 : 0 <= / 2 * t ^ 2 - 1 + (1 + t) * exp (- t)) by lra.
  assert (E7 : exp t <= 7 / 4).
  { apply Rle_trans with (exp (/ 2)); [apply exp_le; lra|]. pose proof exp_le_3 as E3. replace 1 with (/ 2 + / 2) in E3 by field. rewrite exp_plus in E3. pose proof (exp_pos (/ 2)). nra. }
  assert (E1 : exp (- t) * exp t = 1) by (rewrite <- exp_plus; replace (- t + t) with 0 by ring; apply exp_0).
  pose proof (exp_pos t) as EP. apply (Rmult_le_compat_l (exp t)) in M2; [|lra]. rewrite Rmult_0_r in M2.
  replace (exp t * (/ 2 * t ^ 2 - 1 + (1 + t) * exp (- t))) with (/ 2 * t ^ 2 * exp t - exp t + (1 + t) * (exp (- t) * exp t)) in M2 by ring. rewrite E1 in M2.
  pose proof (pow2_ge_0 t). nra.
Qed.

(** ** the whole objective *)
Section Step.
Variables (pb : problem) (P2 : P2t) (c d : nat -> R) (X : R).
Hypothesis Hok : pb_ok pb.
Hypothesis He : exact_hessian_pair (pb_fam pb) (pb_link pb).
Hypothesis HS : p2_sym (pb_p pb) P2.
Hypothesis HP : p2_psd (pb_p pb) P2.
Hypothesis Hw : forall i, (i < pb_n pb)%nat -> 0 <= pb_w pb i.
Hypothesis HX : rows_within pb X.
Hypothesis HD : forall k, (k < nc pb)%nat -> rsum (nc pb) (fun l => exact_hessian pb (hrow_of pb c) P2 k l * d l) = score_of pb P2 c k.
Local Notation xd i := (rsum (nc pb) (fun k => xt pb i k * d k)).
Local Notation rs i := (rsum (nc pb) (fun k => Rabs (xt pb i k))).
Local Notation nd := (sqrt (rsum (nc pb) (fun k => d k ^ 2))).
Local Notation sd := (rsum (nc pb) (fun k => score_of pb P2 c k * d k)).
Hypothesis HN : X * nd <= / 2.
Hypothesis X0 : 0 <= X.

Lemma exact_convex f lk : exact_hessian_pair f lk -> convex_pair f lk.
Proof. destruct f as [q| | | | | | |th]; destruct lk; simpl; tauto. Qed.
Lemma mean_is_raw v i : mean_of pb v i = raw_inverse (pb_link pb) (eta_of pb v i).
Proof. unfold mean_of. destruct (convex_pair_regular _ _ (eta_of pb v i) (exact_convex _ _ He)) as [_ [_ L]]. exact (locally_at _ _ _ L). Qed.
Lemma hrow_raw v i : hrow_of pb v i = hessian_row (pb_fam pb) (pb_link pb) (pb_y pb i) (pb_w pb i) (eta_of pb v i) (raw_inverse (pb_link pb) (eta_of pb v i)).
Proof. unfold hrow_of. rewrite mean_is_raw. reflexivity. Qed.
Lemma hrow_pos v i : (i < pb_n pb)%nat -> 0 <= hrow_of pb v i.
Proof.
  intros Hi. rewrite hrow_raw. destruct (curvature_slope _ _ (pb_y pb i) (pb_w pb i) He (proj1 Hok) (proj1 (proj2 Hok) i Hi) (Hw i Hi)) as [h' [_ SC]].
  specialize (SC (eta_of pb v i)). pose proof (Rabs_pos (h' (eta_of pb v i))). lra.
Qed.
Lemma xd_half i : (i < pb_n pb)%nat -> Rabs (xd i) <= / 2.
Proof.
  intros Hi. eapply Rle_trans; [apply xd_le|]. eapply Rle_trans; [|exact HN]. apply Rmult_le_compat_r; [apply sqrt_pos | apply HX, Hi].
Qed.
Lemma quad_split : rsum (pb_n pb) (fun i => hrow_of pb c i * (xd i) ^ 2) + l2_form pb P2 d = sd.
Proof. rewrite <- quad_exact. apply rsum_ext. intros k Hk'. rewrite <- (HD k Hk'), <- rsum_scal_r. apply rsum_ext. intros; ring. Qed.

Lemma score_next k : (k < nc pb)%nat -> Rabs (score_of pb P2 (vadd c d) k) <= rsum (pb_n pb) (fun i => hrow_of pb c i * (7 / 8 * (xd i) ^ 2) * Rabs (xt pb i k)).
Proof.
  intros Hk. set (g := fun i e => gradient_row (pb_fam pb) (pb_link pb) (pb_y pb i) (pb_w pb i) e (raw_inverse (pb_link pb) e)).
  set (E := fun i => g i (eta_of pb (vadd c d) i) - g i (eta_of pb c i) + hrow_of pb c i * xd i).
  assert (Q : score_of pb P2 (vadd c d) k = rsum (pb_n pb) (fun i => E i * xt pb i k)).
  { pose proof (HD k Hk) as D. unfold exact_hessian in D.
    rewrite (rsum_ext (nc pb) (fun l => (rsum (pb_n pb) (fun i => hrow_of pb c i * xt pb i k * xt pb i l) + p2_full (pb_ic pb) P2 k l) * d l)
      (fun l => rsum (pb_n pb) (fun i => hrow_of pb c i * xt pb i k * (xt pb i l * d l)) + d l * p2_full (pb_ic pb) P2 l k)) in D.
    2:{ intros l Hl. rewrite Rmult_plus_distr_r, <- rsum_scal_r. f_equal; [apply rsum_ext; intros; ring|]. rewrite (p2_full_sym pb P2 k l HS Hk Hl). ring. }
    rewrite rsum_plus, rsum_swap in D.
    rewrite (rsum_ext (pb_n pb) (fun i => rsum (nc pb) (fun l => hrow_of pb c i * xt pb i k * (xt pb i l * d l))) (fun i => hrow_of pb c i * xd i * xt pb i k)) in D.
    2:{ intros i _. rewrite rsum_scal. ring. }
    unfold score_of in D |- *.
    rewrite (rsum_ext (pb_n pb) (fun i => E i * xt pb i k) (fun i => g i (eta_of pb (vadd c d) i) * xt pb i k - g i (eta_of pb c i) * xt pb i k + hrow_of pb c i * xd i * xt pb i k)) by (intros; unfold E; ring).
    rewrite rsum_plus, rsum_minus.
    rewrite (rsum_ext (nc pb) (fun l => vadd c d l * p2_full (pb_ic pb) P2 l k) (fun l => c l * p2_full (pb_ic pb) P2 l k + d l * p2_full (pb_ic pb) P2 l k)) by (intros; unfold vadd; ring).
    rewrite rsum_plus. assert (EG : forall v, rsum (pb_n pb) (fun i => gradient_row (pb_fam pb) (pb_link pb) (pb_y pb i) (pb_w pb i) (eta_of pb v i) (mean_of pb v i) * xt pb i k) = rsum (pb_n pb) (fun i => g i (eta_of pb v i) * xt pb i k)).
    { intros v. apply rsum_ext. intros i _. rewrite mean_is_raw. reflexivity. }
    rewrite !EG in *. lra. }
  rewrite Q. eapply Rle_trans; [apply Rabs_rsum_le|]. apply rsum_le. intros i Hi. rewrite Rabs_mult. apply Rmult_le_compat_r; [apply Rabs_pos|].
  destruct (curvature_slope _ _ (pb_y pb i) (pb_w pb i) He (proj1 Hok) (proj1 (proj2 Hok) i Hi) (Hw i Hi)) as [h' [Dh SC]].
  pose proof (G_remainder (fun e => - g i e) (fun e => hessian_row (pb_fam pb) (pb_link pb) (pb_y pb i) (pb_w pb i) e (raw_inverse (pb_link pb) e)) h'
    (fun x => ltac:(eapply dR_eq; [apply dR_opp, hessian_row_is_derive; exact He | ring])) Dh SC (eta_of pb c i) (eta_of pb (vadd c d) i)) as G. cbv beta in G.
  rewrite <- (hrow_raw c i) in G. unfold E. rewrite !(eta_step pb c d) in G |- *. set (x := xd i) in *. replace (eta_of pb c i + x - eta_of pb c i) with x in G by ring.
  pose proof (xd_half i Hi) as XH. fold x in XH. pose proof (exp_second (Rabs x) (conj (Rabs_pos x) XH)) as ES. rewrite pow2_abs in ES.
  rewrite <- Rabs_Ropp in G. eapply Rle_trans; [|apply Rmult_le_compat_l; [apply (hrow_pos c i Hi) | exact ES]]. eapply Rle_trans; [right|exact G]. f_equal. ring.
Qed.

Lemma grad_norm_next : grad_norm pb P2 (vadd c d) <= 7 / 8 * X * sd.
Proof.
  unfold grad_norm. apply Rle_trans with (rsum (nc pb) (fun k => rsum (pb_n pb) (fun i => hrow_of pb c i * (7 / 8 * (xd i) ^ 2) * Rabs (xt pb i k)))).
  { apply rsum_le. intros k Hk. apply score_next, Hk. }
  rewrite rsum_swap. apply Rle_trans with (rsum (pb_n pb) (fun i => 7 / 8 * X * (hrow_of pb c i * (xd i) ^ 2))).
  { apply rsum_le. intros i Hi. rewrite rsum_scal. pose proof (hrow_pos c i Hi) as H0.
    replace (7 / 8 * X * (hrow_of pb c i * xd i ^ 2)) with (hrow_of pb c i * (7 / 8 * xd i ^ 2) * X) by ring.
    apply Rmult_le_compat_l; [|apply HX, Hi]. apply Rmult_le_pos; [exact H0|]. pose proof (pow2_ge_0 (xd i)). lra. }
  rewrite rsum_scal. apply Rmult_le_compat_l; [lra|]. pose proof quad_split. pose proof (l2_form_nonneg pb P2 d HP). lra.
Qed.

Lemma next_decrease : smooth_obj pb P2 (vadd c d) <= smooth_obj pb P2 c - / 8 * sd.
Proof.
  assert (Ev : vadd c d = vadd c (vscale 1 d)).
  { apply FunctionalExtensionality.functional_extensionality. intros k. unfold vadd, vscale. ring. }
  assert (EM : forall i, mean_of pb c i = raw_inverse (pb_link pb) (eta_of pb c i)) by (intros i; apply mean_is_raw).
  assert (ES : rsum (nc pb) (fun k => - score_of pb P2 c k * d k) =
     rsum (pb_n pb) (fun i => - gradient_row (pb_fam pb) (pb_link pb) (pb_y pb i) (pb_w pb i) (eta_of pb c i)
                             (raw_inverse (pb_link pb) (eta_of pb c i)) * lin_pred pb d i)
     + rsum (nc pb) (fun k => rsum (nc pb) (fun l => c l * p2_full (pb_ic pb) P2 l k) * d k)).
  { rewrite <- grad_dot. apply rsum_ext. intros k _. rewrite grad_score by auto. reflexivity. }
  assert (ES' : rsum (nc pb) (fun k => - score_of pb P2 c k * d k) = - sd) by (rewrite <- rsum_opp; apply rsum_ext; intros; ring). rewrite ES' in ES. clear ES'.
  pose proof quad_split as QD. pose proof (l2_form_nonneg pb P2 d HP) as L2.
  rewrite Ev, !smooth_obj_eq. unfold smooth_obj_with. rewrite l2_form_add by exact HS. rewrite !half_dev_rows. rewrite <- Ev.
  assert (RW : rsum (pb_n pb) (fun i => / 2 * (pb_w pb i * devrow (pb_fam pb) (pb_y pb i) (search_mean (pb_fam pb) (pb_link pb) (eta_of pb (vadd c d) i))))
    <= rsum (pb_n pb) (fun i => / 2 * (pb_w pb i * devrow (pb_fam pb) (pb_y pb i) (search_mean (pb_fam pb) (pb_link pb) (eta_of pb c i))))
    + rsum (pb_n pb) (fun i => - gradient_row (pb_fam pb) (pb_link pb) (pb_y pb i) (pb_w pb i) (eta_of pb c i)
                             (raw_inverse (pb_link pb) (eta_of pb c i)) * lin_pred pb d i)
    + 7 / 8 * rsum (pb_n pb) (fun i => hrow_of pb c i * (xd i) ^ 2)).
  { rewrite <- !rsum_scal, <- !rsum_plus. apply rsum_le. intros i Hi.
    destruct (curvature_slope _ _ (pb_y pb i) (pb_w pb i) He (proj1 Hok) (proj1 (proj2 Hok) i Hi) (Hw i Hi)) as [h' [Dh SC]].
    pose proof (F_remainder (fun e => / 2 * (pb_w pb i * devrow (pb_fam pb) (pb_y pb i) (search_mean (pb_fam pb) (pb_link pb) e)))
      (fun e => - gradient_row (pb_fam pb) (pb_link pb) (pb_y pb i) (pb_w pb i) e (raw_inverse (pb_link pb) e))
      (fun e => hessian_row (pb_fam pb) (pb_link pb) (pb_y pb i) (pb_w pb i) e (raw_inverse (pb_link pb) e)) h'
      (fun x => row_derive _ _ _ _ _ x (proj1 Hok) (proj1 (proj2 Hok) i Hi) (convex_pair_dev_ok _ _ _ (exact_convex _ _ He)) (convex_pair_regular _ _ x (exact_convex _ _ He)))
      (fun x => ltac:(eapply dR_eq; [apply dR_opp, hessian_row_is_derive; exact He | ring])) Dh SC (eta_of pb c i) (eta_of pb (vadd c d) i)) as Q. cbv beta in Q.
    rewrite <- (hrow_raw c i) in Q. rewrite !(eta_step pb c d) in Q |- *. rewrite lin_pred_eq. set (x := xd i) in *. replace (eta_of pb c i + x - eta_of pb c i) with x in Q by ring.
    pose proof (xd_half i Hi) as XH. fold x in XH. pose proof (exp_second (Rabs x) (conj (Rabs_pos x) XH)) as E2. rewrite pow2_abs in E2.
    pose proof (Rmult_le_compat_l _ _ _ (hrow_pos c i Hi) E2) as E3. lra. }
  lra.
Qed.

Lemma step_bounds lambda : 0 < lambda -> hessian_above pb P2 lambda c -> lambda * sd <= grad_norm pb P2 c ^ 2 /\ 0 <= sd.
Proof.
  intros Hl HA. destruct (step_size pb P2 c d HD lambda Hl HA) as [S1 S2]. pose proof (sqrt_pos (rsum (nc pb) (fun k => d k ^ 2))) as N0.
  assert (SB : sd <= grad_norm pb P2 c * nd).
  { unfold grad_norm. rewrite <- rsum_scal_r. apply rsum_le. intros k Hk. eapply Rle_trans; [apply Rle_abs|]. rewrite Rabs_mult.
    apply Rmult_le_compat_l; [apply Rabs_pos | apply nd_ge, Hk]. }
  set (N := nd) in *. pose proof (grad_norm_pos pb P2 c) as G0. split.
  - apply Rle_trans with (grad_norm pb P2 c * (lambda * N)); [|simpl; rewrite Rmult_1_r; apply Rmult_le_compat_l; assumption].
    rewrite (Rmult_comm lambda N), <- Rmult_assoc, (Rmult_comm lambda). apply Rmult_le_compat_r; lra.
  - eapply Rle_trans; [|exact S2]. apply Rmult_le_pos; [lra|]. apply Rmult_le_pos; exact N0.
Qed.
End Step.

Lemma exp_m1 : / 3 <= exp (- 1).
Proof. change (exp (- 1)) with (exp (Ropp 1)). rewrite exp_Ropp. apply Rinv_le_contravar; [apply exp_pos | apply exp_le_3]. Qed.

Lemma xt_step pb c d X i : (i < pb_n pb)%nat -> rows_within pb X -> Rabs (eta_of pb (vadd c d) i - eta_of pb c i) <= X * sqrt (rsum (nc pb) (fun k => d k ^ 2)).
Proof.
  intros Hi HX. rewrite (eta_step pb c d). replace (eta_of pb c i + rsum (nc pb) (fun k => xt pb i k * d k) - eta_of pb c i) with (rsum (nc pb) (fun k => xt pb i k * d k)) by ring.
  eapply Rle_trans; [apply xd_le|]. apply Rmult_le_compat_r; [apply sqrt_pos | apply HX, Hi].
Qed.

(** One iteration: when the gradient norm is small against the smallest curvature at the state (X * norm <= lambda * r, r <= 1/2), the full Newton step is accepted, the
    objective does not rise, no linear predictor moves by more than X * norm / lambda (at most r), and the gradient norm is squared (up to X / lambda). *)
Theorem C116_step : forall pb solve P2 c X lambda r s s', pb_ok pb -> pb_approx pb = 0 ->
  (forall i, (i < pb_n pb)%nat -> 0 <= pb_w pb i) -> exact_hessian_pair (pb_fam pb) (pb_link pb) ->
  p2_sym (pb_p pb) P2 -> p2_psd (pb_p pb) P2 -> smooth_problem pb -> solve_sound solve -> 0 <= X -> rows_within pb X ->
  reach pb (ls_solver pb solve) P2 c s -> irls_step pb (ls_solver pb solve) s = Some s' -> means_small pb (st_coef s) r -> r <= / 2 ->
  0 < lambda -> hessian_above pb P2 lambda (st_coef s) -> X * grad_norm pb P2 (st_coef s) <= lambda * r ->
  ~ ls_failed s s' /\ train_obj pb P2 (st_coef s') <= train_obj pb P2 (st_coef s) /\
  lambda * grad_norm pb P2 (st_coef s') <= X * grad_norm pb P2 (st_coef s) ^ 2 /\
  (forall i, (i < pb_n pb)%nat -> lambda * Rabs (eta_of pb (st_coef s') i - eta_of pb (st_coef s) i) <= X * grad_norm pb P2 (st_coef s)).
Proof.
  intros pb solve P2 c X lambda r s s' Hok HA Hw He HS HP HSm Hsol X0 HX R0 E HM Hr Hl HAb HN.
  assert (HC : 0 <= pb_approx pb) by lra. pose proof (reach_inv _ _ _ _ _ Hok HC R0) as I. pose proof I as [C P A H].
  destruct (irls_step_facts _ _ _ _ E) as [d [cyc [Ei Fa]]].
  destruct (sf_ls _ _ _ _ _ _ Fa) as [E1 [E2 [E3 [E4 [E5 [E6 E7]]]]]].
  pose proof (ls_direction pb solve P2 s d cyc Hok HC HS Hsol I Ei) as D.
  destruct (prepare_spec pb s P2 HC P A H) as [_ [_ [_ [_ HH]]]]. specialize (HH HA).
  assert (EH : forall k l, exact_hessian pb (st_hrows (fst (prepare pb s))) P2 k l = exact_hessian pb (hrow_of pb (st_coef s)) P2 k l).
  { intros k l. unfold exact_hessian. f_equal. apply rsum_ext. intros i Hi. rewrite HH, (coh_hrows _ _ _ C) by exact Hi. reflexivity. }
  assert (D2 : forall k, (k < nc pb)%nat -> rsum (nc pb) (fun l => exact_hessian pb (hrow_of pb (st_coef s)) P2 k l * d l) = score_of pb P2 (st_coef s) k).
  { intros k Hk'. rewrite <- (coh_score _ _ _ C) by exact Hk'. rewrite <- (D k Hk'). apply rsum_ext. intros l _. rewrite EH. reflexivity. }
  destruct (step_size pb P2 (st_coef s) d D2 lambda Hl HAb) as [S1 S2].
  pose proof (sqrt_pos (rsum (nc pb) (fun k => d k ^ 2))) as N0. pose proof (grad_norm_pos pb P2 (st_coef s)) as G0.
  assert (XR : X * sqrt (rsum (nc pb) (fun k => d k ^ 2)) <= r).
  { apply Rmult_le_reg_l with lambda; [exact Hl|]. assert (X * (lambda * sqrt (rsum (nc pb) (fun k => d k ^ 2))) <= X * grad_norm pb P2 (st_coef s)) by (apply Rmult_le_compat_l; assumption). lra. }
  assert (XN : X * sqrt (rsum (nc pb) (fun k => d k ^ 2)) <= / 2) by lra.
  pose proof (grad_norm_next pb P2 (st_coef s) d X Hok He HS HP Hw HX D2 XN X0) as GA.
  pose proof (next_decrease pb P2 (st_coef s) d X Hok He HS HP Hw HX D2 XN) as FD.
  destruct (step_bounds pb P2 (st_coef s) d D2 lambda Hl HAb) as [S3 S4].
  set (sd := rsum (nc pb) (fun k => score_of pb P2 (st_coef s) k * d k)) in *.
  assert (LZ : forall v, train_obj pb P2 v = smooth_obj pb P2 v).
  { intros v. unfold train_obj. rewrite <- l1_pen_eq by apply Hok. rewrite l1_pen_zero by apply HSm. ring. }
  assert (DEC : train_obj pb P2 (vadd (st_coef s) d) <= train_obj pb P2 (st_coef s) - 1 / 10000 * sd) by (rewrite !LZ; lra).
  assert (BD : ls_bound pb (st_coef s) (st_score s) d = - (1 / 10000 * sd)).
  { unfold ls_bound. rewrite !l1_pen_zero by apply HSm. unfold dot. rewrite (rsum_ext (nc pb) (fun i => st_score s i * d i) (fun k => score_of pb P2 (st_coef s) k * d k)); [fold sd; ring|].
    intros k Hk'. rewrite (coh_score _ _ _ C) by exact Hk'. reflexivity. }
  destruct (search_full pb (st_P2 s) (st_coef s) (st_score s) (st_eta s) (st_obj s) d Hok (coh_eta _ _ _ C)) as [W V].
  { intros i Hi. refine (HM i _ Hi _). eapply Rle_trans; [apply (xt_step pb _ _ X i Hi HX) | exact XR]. }
  { rewrite BD, P, (coh_obj _ _ _ C). lra. }
  rewrite E1, V. split; [unfold ls_failed; rewrite E7, W; lia|]. split; [lra|]. split.
  - apply Rle_trans with (X * (lambda * sd)); [|apply Rmult_le_compat_l; assumption].
    apply Rle_trans with (lambda * (X * sd)); [|right; ring]. apply Rmult_le_compat_l; [lra|]. assert (0 <= X * sd) by (apply Rmult_le_pos; assumption). lra.
  - intros i Hi. pose proof (xt_step pb (st_coef s) d X i Hi HX) as Q. apply Rle_trans with (lambda * (X * sqrt (rsum (nc pb) (fun k => d k ^ 2)))).
    + apply Rmult_le_compat_l; [lra | exact Q].
    + rewrite <- Rmult_assoc, (Rmult_comm lambda X), Rmult_assoc. apply Rmult_le_compat_l; assumption.
Qed.
Print Assumptions C116_step.

Lemma hessian_near pb P2 c0 c lambda : pb_ok pb -> exact_hessian_pair (pb_fam pb) (pb_link pb) -> p2_psd (pb_p pb) P2 ->
  (forall i, (i < pb_n pb)%nat -> 0 <= pb_w pb i) -> hessian_above pb P2 lambda c0 ->
  (forall i, (i < pb_n pb)%nat -> Rabs (eta_of pb c i - eta_of pb c0 i) <= 1) -> hessian_above pb P2 (lambda / 3) c.
Proof.
  intros Hok He HP Hw HA HN v. specialize (HA v). rewrite quad_exact in HA |- *. pose proof (l2_form_nonneg pb P2 v HP) as L2.
  assert (B : / 3 * rsum (pb_n pb) (fun i => hrow_of pb c0 i * (rsum (nc pb) (fun k => xt pb i k * v k)) ^ 2) <= rsum (pb_n pb) (fun i => hrow_of pb c i * (rsum (nc pb) (fun k => xt pb i k * v k)) ^ 2)); [|lra].
  rewrite <- rsum_scal. apply rsum_le. intros i Hi. rewrite <- Rmult_assoc. apply Rmult_le_compat_r; [apply pow2_ge_0|].
  pose proof (hrow_pos pb Hok He Hw c0 i Hi) as H0.
  destruct (curvature_slope _ _ (pb_y pb i) (pb_w pb i) He (proj1 Hok) (proj1 (proj2 Hok) i Hi) (Hw i Hi)) as [h' [Dh SC]].
  pose proof (h_ratio _ h' Dh SC (eta_of pb c0 i) (eta_of pb c i)) as Q. cbv beta in Q. rewrite <- !(hrow_raw pb He) in Q. eapply Rle_trans; [|exact Q].
  rewrite Rmult_comm. apply Rmult_le_compat_l; [exact H0|]. eapply Rle_trans; [apply exp_m1|]. apply exp_le. pose proof (HN i Hi). lra.
Qed.

Lemma half_pow k : (/ 2) ^ (2 ^ k) <= (/ 2) ^ (S k).
Proof.
  assert (L : (S k <= 2 ^ k)%nat) by (induction k; simpl in *; lia). replace (2 ^ k)%nat with (S k + (2 ^ k - S k))%nat by lia. rewrite pow_add.
  rewrite <- (Rmult_1_r ((/ 2) ^ S k)) at 2. apply Rmult_le_compat_l; [apply pow_le; lra|]. rewrite <- (pow1 (2 ^ k - S k)). apply pow_incr. lra.
Qed.

(** Quadratic convergence, with conditions on the start only: if the smallest curvature at the start is lambda and X times the gradient norm
    there is at most lambda / 6, then every line search succeeds, the objective never rises, no linear predictor ever moves by more than 1,
    and after k iterations the gradient norm is at most lambda / (3 X) * 2^(-2^k). *)
Theorem C116_quadratic : forall pb solve P2 c X lambda s n hist, pb_ok pb -> pb_approx pb = 0 ->
  (forall i, (i < pb_n pb)%nat -> 0 <= pb_w pb i) -> exact_hessian_pair (pb_fam pb) (pb_link pb) ->
  p2_sym (pb_p pb) P2 -> p2_psd (pb_p pb) P2 -> smooth_problem pb -> solve_sound solve -> 0 <= X -> rows_within pb X ->
  reach pb (ls_solver pb solve) P2 c s -> run_from pb (ls_solver pb solve) s n hist -> means_small pb (st_coef s) 1 ->
  0 < lambda -> hessian_above pb P2 lambda (st_coef s) -> 6 * X * grad_norm pb P2 (st_coef s) <= lambda ->
  (forall k, (k <= n)%nat -> 3 * X * grad_norm pb P2 (st_coef (hist k)) <= lambda * (/ 2) ^ (2 ^ k) /\
     (forall i, (i < pb_n pb)%nat -> Rabs (eta_of pb (st_coef (hist k)) i - eta_of pb (st_coef s) i) <= 1)) /\
  (forall k, (k < n)%nat -> ~ ls_failed (hist k) (hist (S k)) /\ train_obj pb P2 (st_coef (hist (S k))) <= train_obj pb P2 (st_coef (hist k)) /\
     lambda * grad_norm pb P2 (st_coef (hist (S k))) <= 3 * X * grad_norm pb P2 (st_coef (hist k)) ^ 2).
Proof.
  intros pb solve P2 c X lambda s n hist Hok HA Hw He HS HP HSm Hsol X0 HX R0 [H0 HR] HM Hl HAb HN.
  assert (K : forall k, (k <= n)%nat -> reach pb (ls_solver pb solve) P2 c (hist k) /\
     3 * X * grad_norm pb P2 (st_coef (hist k)) <= lambda * (/ 2) ^ (2 ^ k) /\
     (forall i, (i < pb_n pb)%nat -> Rabs (eta_of pb (st_coef (hist k)) i - eta_of pb (st_coef s) i) <= 1 - (/ 2) ^ k) /\
     ((k < n)%nat -> ~ ls_failed (hist k) (hist (S k)) /\ train_obj pb P2 (st_coef (hist (S k))) <= train_obj pb P2 (st_coef (hist k)) /\
        lambda * grad_norm pb P2 (st_coef (hist (S k))) <= 3 * X * grad_norm pb P2 (st_coef (hist k)) ^ 2 /\
        forall i, (i < pb_n pb)%nat -> Rabs (eta_of pb (st_coef (hist (S k))) i - eta_of pb (st_coef (hist k)) i) <= (/ 2) ^ (S k))).
  { assert (ST : forall k, reach pb (ls_solver pb solve) P2 c (hist k) -> 3 * X * grad_norm pb P2 (st_coef (hist k)) <= lambda * (/ 2) ^ (2 ^ k) ->
       (forall i, (i < pb_n pb)%nat -> Rabs (eta_of pb (st_coef (hist k)) i - eta_of pb (st_coef s) i) <= 1 - (/ 2) ^ k) -> (k < n)%nat ->
       ~ ls_failed (hist k) (hist (S k)) /\ train_obj pb P2 (st_coef (hist (S k))) <= train_obj pb P2 (st_coef (hist k)) /\
        lambda * grad_norm pb P2 (st_coef (hist (S k))) <= 3 * X * grad_norm pb P2 (st_coef (hist k)) ^ 2 /\
        forall i, (i < pb_n pb)%nat -> Rabs (eta_of pb (st_coef (hist (S k))) i - eta_of pb (st_coef (hist k)) i) <= (/ 2) ^ (S k)).
    { intros k Rk Gk Ek Hk. pose proof (half_pow k) as HPk. assert (P0 : 0 < (/ 2) ^ k) by (apply pow_lt; lra). assert (P1 : (/ 2) ^ k <= 1) by (rewrite <- (pow1 k); apply pow_incr; lra).
      assert (PS : (/ 2) ^ S k = / 2 * (/ 2) ^ k) by reflexivity.
      assert (HAk : hessian_above pb P2 (lambda / 3) (st_coef (hist k))) by (apply (hessian_near pb P2 (st_coef s)); auto; intros i Hi; specialize (Ek i Hi); lra).
      assert (LP : lambda * (/ 2) ^ (2 ^ k) <= lambda * (/ 2) ^ S k) by (apply Rmult_le_compat_l; lra).
      assert (LQ : lambda * (/ 2) ^ S k <= lambda * / 2) by (apply Rmult_le_compat_l; lra).
      assert (HMk : means_small pb (st_coef (hist k)) ((/ 2) ^ S k)).
      { intros i e Hi Hd. refine (HM i e Hi _). specialize (Ek i Hi).
        replace (e - eta_of pb (st_coef s) i) with ((e - eta_of pb (st_coef (hist k)) i) + (eta_of pb (st_coef (hist k)) i - eta_of pb (st_coef s) i)) by ring.
        eapply Rle_trans; [apply Rabs_triang|]. lra. }
      destruct (C116_step pb solve P2 c X (lambda / 3) ((/ 2) ^ S k) (hist k) (hist (S k)) Hok HA Hw He HS HP HSm Hsol X0 HX Rk (HR k Hk) HMk ltac:(lra) ltac:(lra) HAk ltac:(lra)) as [T1 [T2 [T3 T4]]].
      split; [exact T1|]. split; [exact T2|]. split; [lra|]. intros i Hi. specialize (T4 i Hi). apply Rmult_le_reg_l with (lambda / 3); [lra|]. lra. }
    induction k as [|k IH]; intros Hk.
    - rewrite H0. assert (G : 3 * X * grad_norm pb P2 (st_coef s) <= lambda * (/ 2) ^ (2 ^ 0)) by (simpl; lra).
      assert (EE : forall i, (i < pb_n pb)%nat -> Rabs (eta_of pb (st_coef s) i - eta_of pb (st_coef s) i) <= 1 - (/ 2) ^ 0) by (intros; rewrite Rminus_eq_0, Rabs_R0; simpl; lra).
      split; [exact R0|]. split; [exact G|]. split; [exact EE|]. intros Hn. rewrite <- H0. apply ST; rewrite ?H0; auto.
    - destruct (IH ltac:(lia)) as [Rk [Gk [Ek Sk]]]. destruct (Sk ltac:(lia)) as [_ [_ [Gd Ed]]].
      assert (R' : reach pb (ls_solver pb solve) P2 c (hist (S k))) by (apply reach_step with (hist k); [exact Rk | apply HR; lia]).
      assert (G' : 3 * X * grad_norm pb P2 (st_coef (hist (S k))) <= lambda * (/ 2) ^ (2 ^ S k)).
      { replace (2 ^ S k)%nat with (2 ^ k + 2 ^ k)%nat by (simpl; lia). rewrite pow_add. set (h := (/ 2) ^ (2 ^ k)) in *.
        set (g := grad_norm pb P2 (st_coef (hist k))) in *. set (g' := grad_norm pb P2 (st_coef (hist (S k)))) in *.
        apply Rmult_le_reg_l with lambda; [exact Hl|]. apply Rle_trans with ((3 * X * g) ^ 2).
        - apply Rle_trans with (3 * X * (3 * X * g ^ 2)); [|right; ring]. replace (lambda * (3 * X * g')) with (3 * X * (lambda * g')) by ring. apply Rmult_le_compat_l; [lra | exact Gd].
        - apply Rle_trans with ((lambda * h) ^ 2); [|right; ring]. apply pow_incr. split; [|exact Gk]. apply Rmult_le_pos; [lra | apply grad_norm_pos]. }
      assert (E' : forall i, (i < pb_n pb)%nat -> Rabs (eta_of pb (st_coef (hist (S k))) i - eta_of pb (st_coef s) i) <= 1 - (/ 2) ^ S k).
      { intros i Hi. specialize (Ek i Hi). specialize (Ed i Hi). assert (PS : (/ 2) ^ S k = / 2 * (/ 2) ^ k) by reflexivity.
        replace (eta_of pb (st_coef (hist (S k))) i - eta_of pb (st_coef s) i) with ((eta_of pb (st_coef (hist (S k))) i - eta_of pb (st_coef (hist k)) i) + (eta_of pb (st_coef (hist k)) i - eta_of pb (st_coef s) i)) by ring.
        eapply Rle_trans; [apply Rabs_triang|]. lra. }
      split; [exact R'|]. split; [exact G'|]. split; [exact E'|]. apply ST; assumption. }
  split; intros k Hk.
  - destruct (K k Hk) as [_ [Q1 [Q2 _]]]. split; [exact Q1|]. intros i Hi. specialize (Q2 i Hi). assert (0 < (/ 2) ^ k) by (apply pow_lt; lra). lra.
  - destruct (K k ltac:(lia)) as [_ [_ [_ Q]]]. destruct (Q Hk) as [Q1 [Q2 [Q3 _]]]. auto.
Qed.
Print Assumptions C116_quadratic.

(** A fit started in that region stops after at most N iterations, where N is the first number with lambda * 2^(-2^N) < 3 X gtol -
    and without the non-convergence warning if max_iter >= N. *)
Theorem C116_iterations : forall pb solve P2 c X lambda N sf warned, pb_ok pb -> pb_approx pb = 0 ->
  (forall i, (i < pb_n pb)%nat -> 0 <= pb_w pb i) -> exact_hessian_pair (pb_fam pb) (pb_link pb) ->
  p2_sym (pb_p pb) P2 -> p2_psd (pb_p pb) P2 -> smooth_problem pb -> solve_sound solve -> 0 <= X -> rows_within pb X ->
  means_small pb c 1 -> 0 < lambda -> hessian_above pb P2 lambda c -> 6 * X * grad_norm pb P2 c <= lambda ->
  lambda * (/ 2) ^ (2 ^ N) < 3 * X * pb_gtol pb ->
  irls_solver pb (ls_solver pb solve) P2 c = Some (sf, warned) ->
  (st_niter sf <= Z.of_nat N)%Z /\ ((Z.of_nat N <= pb_max_iter pb)%Z -> warned = false).
Proof.
  intros pb solve P2 c X lambda N sf warned Hok HA Hw He HS HP HSm Hsol X0 HX HM Hl HAb HN Hg E.
  destruct (C27_iteration_accounting _ _ _ _ _ _ E) as [n [hist [[H0 HR] [Hn [En [_ [_ [NS [W1 W2]]]]]]]]].
  assert (RE : forall k, (k <= n)%nat -> reach pb (ls_solver pb solve) P2 c (hist k)) by (eapply hist_reach; eauto).
  set (s0 := init_state pb P2 false c) in *. assert (Ec : st_coef s0 = c) by (unfold s0; apply init_coef).
  assert (R0 : reach pb (ls_solver pb solve) P2 c s0) by apply reach_init.
  destruct (C116_quadratic pb solve P2 c X lambda s0 n hist Hok HA Hw He HS HP HSm Hsol X0 HX R0 (conj H0 HR) ltac:(rewrite Ec; exact HM) Hl ltac:(rewrite Ec; exact HAb) ltac:(rewrite Ec; exact HN)) as [Q _].
  assert (ST : (N <= n)%nat -> stop_test pb (hist N)).
  { intros L. left. rewrite smooth_norm by exact HSm. pose proof (reach_inv _ _ _ _ _ Hok ltac:(lra) (RE N L)) as [C _ _ _].
    rewrite (rsum_ext (nc pb) (fun k => Rabs (st_score (hist N) k)) (fun k => Rabs (score_of pb P2 (st_coef (hist N)) k))) by (intros k Hk; rewrite (coh_score _ _ _ C) by exact Hk; reflexivity).
    fold (grad_norm pb P2 (st_coef (hist N))). destruct (Q N L) as [Q1 _].
    apply Rnot_le_lt. intros B. assert (3 * X * pb_gtol pb <= 3 * X * grad_norm pb P2 (st_coef (hist N))) by (apply Rmult_le_compat_l; lra). lra. }
  assert (L : (n <= N)%nat). { destruct (Nat.le_gt_cases n N) as [L|L]; [exact L|]. exfalso. apply (NS N L), ST. lia. }
  split; [rewrite En; lia|]. intros HMx. destruct warned; [|reflexivity]. specialize (W2 eq_refl). assert (n = N) by lia. subst n.
  apply W1. rewrite <- Hn. apply ST. lia.
Qed.
Print Assumptions C116_iterations.

Lemma exact_safe f lk : exact_hessian_pair f lk -> safe_pair f lk.
Proof. destruct f as [q| | | | | | |th]; destruct lk; simpl; tauto. Qed.

(** Both phases together, from any start: with curvature between lambda and M on the level set of the start, at most n1 iterations until the
    region of quadratic convergence is reached and N more - or an iteration in which the line search warned or the objective moved by no
    more than the machine-precision tolerance. *)
Theorem C116_both_phases : forall pb solve P2 c X M lambda n1 N sf warned, pb_ok pb -> pb_approx pb = 0 ->
  (forall i, (i < pb_n pb)%nat -> 0 <= pb_w pb i) -> exact_hessian_pair (pb_fam pb) (pb_link pb) ->
  p2_sym (pb_p pb) P2 -> p2_psd (pb_p pb) P2 -> smooth_problem pb -> solve_sound solve -> 0 <= X -> rows_within pb X ->
  0 < lambda -> 0 < M -> (forall v, train_obj pb P2 v <= train_obj pb P2 c -> hessian_above pb P2 lambda v /\ hessian_below pb P2 M v /\ means_small pb v 1) ->
  INR (nc pb) * (M * armijo_scale * train_obj pb P2 c) * (6 * X) ^ 2 < INR n1 * lambda ^ 2 ->
  lambda * (/ 2) ^ (2 ^ N) < 3 * X * pb_gtol pb ->
  irls_solver pb (ls_solver pb solve) P2 c = Some (sf, warned) ->
  ((st_niter sf <= Z.of_nat (n1 + N))%Z /\ ((Z.of_nat (n1 + N) <= pb_max_iter pb)%Z -> warned = false))
  \/ exists s s', reach pb (ls_solver pb solve) P2 c s /\ irls_step pb (ls_solver pb solve) s = Some s' /\ (ls_failed s s' \/ tiny pb s s').
Proof.
  intros pb solve P2 c X M lambda n1 N sf warned Hok HA Hw He HS HP HSm Hsol X0 HX Hl HM HL H1 Hg E.
  assert (Hs : safe_pair (pb_fam pb) (pb_link pb)) by (apply exact_safe, He).
  destruct (C27_iteration_accounting _ _ _ _ _ _ E) as [n [hist [RH [Hn [En [_ [_ [NS [W1 W2]]]]]]]]]. pose proof RH as [H0 HR].
  assert (RE : forall k, (k <= n)%nat -> reach pb (ls_solver pb solve) P2 c (hist k)) by (eapply hist_reach; eauto).
  destruct (classic (exists k, (k < n)%nat /\ (ls_failed (hist k) (hist (S k)) \/ tiny pb (hist k) (hist (S k))))) as [[k [Hk Q]]|NB].
  { right. exists (hist k), (hist (S k)). split; [apply RE; lia|]. split; [apply RH, Hk | exact Q]. }
  assert (OK : forall k, (k < n)%nat -> ~ ls_failed (hist k) (hist (S k)) /\ ~ tiny pb (hist k) (hist (S k))).
  { intros k Hk. split; intros Q; apply NB; exists k; auto. }
  left. pose proof (stays_below pb solve P2 c M Hok HA Hw Hs HS HP HSm Hsol HM n hist RH (fun v Hv => proj1 (proj2 (HL v Hv))) OK) as LV.
  assert (L2 : 0 < lambda ^ 2) by (apply pow_lt, Hl).
  (* the state after both phases, if the run gets that far, passes the stopping test *)
  assert (KEY : (n1 + N <= n)%nat -> exists m, (m <= n1 + N)%nat /\ stop_test pb (hist m)).
  { intros Ln. assert (EK : exists k, (k < n1)%nat /\ 6 * X * grad_norm pb P2 (st_coef (hist k)) <= lambda).
    { apply NNPP. intros NK.
      assert (BIG : forall k, (k < n1)%nat -> lambda ^ 2 <= INR (nc pb) * grad_sq pb P2 (st_coef (hist k)) * (6 * X) ^ 2).
      { intros k Hk. pose proof (norm_sq pb P2 (st_coef (hist k))) as NQ. pose proof (grad_norm_pos pb P2 (st_coef (hist k))) as GP.
        assert (B : lambda < 6 * X * grad_norm pb P2 (st_coef (hist k))) by (apply Rnot_le_lt; intros Q; apply NK; exists k; auto).
        apply Rle_trans with ((6 * X * grad_norm pb P2 (st_coef (hist k))) ^ 2); [apply pow_incr; lra|].
        rewrite Rpow_mult_distr, Rmult_comm. apply Rmult_le_compat_r; [apply pow2_ge_0 | exact NQ]. }
      assert (RH1 : run_history pb (ls_solver pb solve) P2 c n1 hist) by (split; [exact H0 | intros k Hk; apply HR; lia]).
      pose proof (many_iterations pb solve P2 c M Hok HA Hw Hs HS HP HSm Hsol HM n1 hist RH1 (fun k Hk => conj (proj1 (proj2 (HL _ (LV k ltac:(lia))))) (OK k ltac:(lia)))) as MI.
      pose proof (obj_nonneg pb P2 Hok Hw Hs HP HSm (st_coef (hist n1))) as NN.
      assert (Z : 0 < M * armijo_scale) by (unfold armijo_scale; apply Rmult_lt_0_compat; [exact HM|]; apply Rmult_lt_0_compat; [lra | apply pow_lt; lra]).
      assert (S1 : INR n1 * lambda ^ 2 <= INR (nc pb) * rsum n1 (fun k => grad_sq pb P2 (st_coef (hist k))) * (6 * X) ^ 2).
      { rewrite <- rsum_scal, <- rsum_scal_r, Rmult_comm, <- rsum_const. apply rsum_le. exact BIG. }
      assert (S2 : INR (nc pb) * rsum n1 (fun k => grad_sq pb P2 (st_coef (hist k))) * (6 * X) ^ 2 <= INR (nc pb) * (M * armijo_scale * train_obj pb P2 c) * (6 * X) ^ 2).
      { apply Rmult_le_compat_r; [apply pow2_ge_0|]. apply Rmult_le_compat_l; [apply pos_INR|]. eapply Rle_trans; [exact MI|]. apply Rmult_le_compat_l; lra. }
      lra. }
    destruct EK as [k [Hk HN]]. exists (k + N)%nat. split; [lia|].
    assert (RF : run_from pb (ls_solver pb solve) (hist k) N (fun j => hist (k + j)%nat)).
    { split; [rewrite Nat.add_0_r; reflexivity|]. intros j Hj. rewrite <- plus_n_Sm. apply HR. lia. }
    assert (LB : train_obj pb P2 (st_coef (hist k)) <= train_obj pb P2 c) by (apply LV; lia). destruct (HL _ LB) as [LB1 [LB2 LB3]].
    destruct (C116_quadratic pb solve P2 c X lambda (hist k) N (fun j => hist (k + j)%nat) Hok HA Hw He HS HP HSm Hsol X0 HX (RE k ltac:(lia)) RF LB3 Hl LB1 HN) as [Q _].
    destruct (Q N (le_n N)) as [Q1 _].
    left. rewrite smooth_norm by exact HSm. pose proof (reach_inv _ _ _ _ _ Hok ltac:(lra) (RE (k + N)%nat ltac:(lia))) as [C _ _ _].
    rewrite (rsum_ext (nc pb) (fun j => Rabs (st_score (hist (k + N)%nat) j)) (fun j => Rabs (score_of pb P2 (st_coef (hist (k + N)%nat)) j))) by (intros j Hj; rewrite (coh_score _ _ _ C) by exact Hj; reflexivity).
    fold (grad_norm pb P2 (st_coef (hist (k + N)%nat))).
    apply Rnot_le_lt. intros B. assert (3 * X * pb_gtol pb <= 3 * X * grad_norm pb P2 (st_coef (hist (k + N)%nat))) by (apply Rmult_le_compat_l; lra). lra. }
  assert (L : (n <= n1 + N)%nat). { destruct (Nat.le_gt_cases n (n1 + N)) as [L|L]; [exact L|]. exfalso. destruct (KEY ltac:(lia)) as [m [Lm ST]]. apply (NS m ltac:(lia) ST). }
  split; [rewrite En; lia|]. intros HMx. destruct warned; [|reflexivity]. specialize (W2 eq_refl). assert (En2 : n = (n1 + N)%nat) by lia.
  destruct (KEY ltac:(lia)) as [m [Lm ST]]. destruct (Nat.eq_dec m n) as [->|NE]; [|exfalso; apply (NS m ltac:(lia) ST)].
  apply W1. rewrite <- Hn. exact ST.
Qed.
Print Assumptions C116_both_phases.

(** Non-vacuity: a ridge Poisson regression of one row, started at 1/10: every hypothesis holds with X = 1, lambda = 2 and N = 4, the gradient
    there is not zero, and the first iteration exists. *)
Definition ex_pb116 : problem :=
  mkPb 1 1 (fun _ _ => 1) (fun _ => 1) (fun _ => 1) (fun _ => 0) false
       PoissonF LogL (fun _ => 0) 5 1000 (1 / 10000) None 0 None false
       (fun _ => None) (fun _ => None) false 1000000 (1 / 1000000000).
Example C116_nonvacuous : pb_ok ex_pb116 /\ pb_approx ex_pb116 = 0 /\ exact_hessian_pair (pb_fam ex_pb116) (pb_link ex_pb116) /\ smooth_problem ex_pb116 /\ solve_sound solve1 /\
  p2_sym (pb_p ex_pb116) (P2diag (fun _ => 1)) /\ p2_psd (pb_p ex_pb116) (P2diag (fun _ => 1)) /\
  rows_within ex_pb116 1 /\ means_small ex_pb116 (fun _ => / 10) 1 /\ hessian_above ex_pb116 (P2diag (fun _ => 1)) 2 (fun _ => / 10) /\
  6 * 1 * grad_norm ex_pb116 (P2diag (fun _ => 1)) (fun _ => / 10) <= 2 /\ 0 < grad_norm ex_pb116 (P2diag (fun _ => 1)) (fun _ => / 10) /\
  2 * (/ 2) ^ (2 ^ 4) < 3 * 1 * pb_gtol ex_pb116 /\
  exists s', irls_step ex_pb116 (ls_solver ex_pb116 solve1) (init_state ex_pb116 (P2diag (fun _ => 1)) false (fun _ => / 10)) = Some s'.
Proof.
  set (pb := ex_pb116). set (P2 := P2diag (fun _ => 1)).
  assert (Hok : pb_ok pb) by (split; [exact I|split; [intros; simpl; lra|intros; simpl; lra]]).
  assert (He : exact_hessian_pair (pb_fam pb) (pb_link pb)) by exact I.
  assert (E0 : forall v, eta_of pb v 0 = v 0%nat) by (intros; unfold eta_of, nc, xt; simpl; ring).
  assert (MU : forall v, mean_of pb v 0 = exp (v 0%nat)) by (intros v; unfold mean_of; rewrite E0; reflexivity).
  assert (G : grad_norm pb P2 (fun _ => / 10) = Rabs (exp (/ 10) - 1 + / 10)).
  { unfold grad_norm. change (nc pb) with 1%nat. cbn [rsum]. rewrite Rplus_0_l, <- (Rabs_Ropp (exp (/ 10) - 1 + / 10)). f_equal. unfold score_of.
    change (pb_n pb) with 1%nat. change (nc pb) with 1%nat. cbn [rsum]. rewrite MU. change (pb_fam pb) with PoissonF. change (pb_link pb) with LogL.
    unfold gradient_row, rowwise, poisson_log_rows. cbn [fst]. change (xt pb 0 0) with 1. change (pb_y pb 0%nat) with 1. change (pb_w pb 0%nat) with 1. unfold p2_full, P2. simpl. ring. }
  pose proof (exp_second (/ 10) ltac:(lra)) as E1. pose proof (exp_increasing 0 (/ 10) ltac:(lra)) as E2. rewrite exp_0 in E2.
  rewrite G, Rabs_right by lra.
  assert (HR : forall v, hrow_of pb v 0 = exp (v 0%nat)).
  { intros v. unfold hrow_of. rewrite MU. change (pb_fam pb) with PoissonF. change (pb_link pb) with LogL. unfold hessian_row, rowwise, poisson_log_rows. cbn [snd]. change (pb_w pb 0%nat) with 1. ring. }
  split; [exact Hok|]. split; [reflexivity|]. split; [exact He|]. split; [split; [reflexivity | split; reflexivity]|]. split; [exact solve1_sound|].
  split; [intros i j Hi Hj; simpl in Hi, Hj; assert (i = j) by lia; subst i; reflexivity|].
  split; [intros v; unfold P2, p2_entry; simpl; nra|].
  split; [intros i Hi; unfold nc, xt; simpl; rewrite Rabs_R1; lra|].
  split. { intros i e Hi Hd. assert (i = 0%nat) by (simpl in Hi; lia). subst i. rewrite E0 in Hd. apply Rabs_le_between in Hd.
    change (search_mean (pb_fam pb) (pb_link pb) e) with (exp e). change (pb_large pb) with 1000000. apply Rle_lt_trans with (exp (1 + 1)); [apply exp_le; lra|].
    rewrite exp_plus. pose proof exp_le_3. pose proof (exp_pos 1). nra. }
  split. { intros u. rewrite quad_exact. change (nc pb) with 1%nat. change (pb_n pb) with 1%nat. assert (L : l2_form pb P2 u = u 0%nat ^ 2) by (unfold l2_form, nc, p2_full, p2_entry, P2; simpl; ring).
    rewrite L. cbn [rsum]. rewrite HR. change (xt pb 0 0) with 1. pose proof (pow2_ge_0 (u 0%nat)). nra. }
  split; [lra|]. split; [lra|]. split; [simpl; lra|].
  set (s0 := init_state pb P2 false (fun _ => / 10)). pose proof (inv_init pb P2 false (fun _ => / 10) Hok) as I0. fold s0 in I0.
  assert (Ec : st_coef s0 = (fun _ => / 10)) by (unfold s0; apply init_coef).
  destruct (irls_step pb (ls_solver pb solve1) s0) as [s'|] eqn:ES; [eexists; reflexivity|]. exfalso. unfold irls_step in ES.
  destruct (prepare_spec pb s0 P2 (Rle_refl 0) (inv_P2 _ _ _ I0) (inv_act _ _ _ I0) (inv_hess _ _ _ I0)) as [_ [_ [HE [_ H0]]]].
  pose proof (prepare_facts pb s0) as PF. destruct (prepare pb s0) as [s1 Hm]. cbn [fst snd] in *.
  unfold ls_solver in ES. simpl pb_has_bounds in ES. cbv iota in ES.
  assert (EA : st_act s1 = (0%nat :: nil)).
  { rewrite (pf_act _ _ _ _ PF), Ec. unfold identify_active_set, is_active. simpl. rewrite (proj2 (Reqb_false (/ 10) 0)) by lra. reflexivity. }
  rewrite EA in ES. simpl Nat.eqb in ES. cbv iota in ES. unfold solve1 in ES. change (nc pb) with 1%nat in ES. simpl Nat.eqb in ES. cbv iota in ES.
  destruct (Reqb (Hm 0%nat 0%nat) 0) eqn:EH.
  - apply Reqb_true in EH. rewrite HE in EH by (rewrite EA; simpl; lia). rewrite EA in EH. simpl nth in EH.
    unfold exact_hessian in EH. simpl in EH. rewrite H0 in EH by reflexivity.
    assert (Q : 0 <= st_hrows s0 0%nat).
    { rewrite (coh_hrows _ _ _ (inv_coh _ _ _ I0)) by (simpl; lia). rewrite HR. left. apply exp_pos. }
    change (xt pb 0 0) with 1 in EH. lra.
  - destruct (update_quadratic _ _ _ _) as [[g sc] h]. destruct (check_convergence _ _ _ _) as [[[q1 q2] q3] q4]. discriminate.
Qed.

Lemma some_above (x : R) : exists n, x < INR n.
Proof.
  exists (Z.to_nat (up (Rabs x))). pose proof (archimed (Rabs x)) as [A _]. pose proof (Rabs_pos x) as B.
  assert (0 <= up (Rabs x))%Z by (apply le_IZR; lra). rewrite INR_IZR_INZ, Z2Nat.id by assumption. pose proof (Rle_abs x). lra.
Qed.
(** Non-vacuity of the two phases: on the level set of the same start the curvature lies between 1 and 3 and the means are small; so some n1 meets
    the hypothesis. *)
Example C116_both_phases_nonvacuous : (forall v, train_obj ex_pb116 (P2diag (fun _ => 1)) v <= train_obj ex_pb116 (P2diag (fun _ => 1)) (fun _ => / 10) ->
    hessian_above ex_pb116 (P2diag (fun _ => 1)) 1 v /\ hessian_below ex_pb116 (P2diag (fun _ => 1)) 3 v /\ means_small ex_pb116 v 1) /\
  exists n1, INR (nc ex_pb116) * (3 * armijo_scale * train_obj ex_pb116 (P2diag (fun _ => 1)) (fun _ => / 10)) * (6 * 1) ^ 2 < INR n1 * 1 ^ 2.
Proof.
  set (pb := ex_pb116). set (P2 := P2diag (fun _ => 1)).
  assert (E0 : forall v, eta_of pb v 0 = v 0%nat) by (intros; unfold eta_of, nc, xt; simpl; ring).
  assert (MU : forall v, mean_of pb v 0 = exp (v 0%nat)) by (intros v; unfold mean_of; rewrite E0; reflexivity).
  assert (HR : forall v, hrow_of pb v 0 = exp (v 0%nat)).
  { intros v. unfold hrow_of. rewrite MU. change (pb_fam pb) with PoissonF. change (pb_link pb) with LogL. unfold hessian_row, rowwise, poisson_log_rows. cbn [snd]. change (pb_w pb 0%nat) with 1. ring. }
  assert (LV : forall u, l2_form pb P2 u = u 0%nat ^ 2) by (intros u; unfold l2_form, nc, p2_full, p2_entry, P2; simpl; ring).
  assert (FV : forall v, train_obj pb P2 v = exp (v 0%nat) - v 0%nat - 1 + / 2 * v 0%nat ^ 2).
  { intros v. unfold train_obj, smooth_obj. rewrite LV. assert (L : l1_form pb v = 0) by (unfold l1_form, nc, pen_of; simpl; ring). rewrite L.
    assert (D : half_deviance pb v = exp (v 0%nat) - v 0%nat - 1); [|rewrite D; ring].
    unfold half_deviance, fitted. change (pb_n pb) with 1%nat. cbn [seq map]. change (search_mean (pb_fam pb) (pb_link pb) (eta_of pb v 0)) with (mean_of pb v 0). rewrite MU. change (pb_fam pb) with PoissonF. change (pb_y pb 0%nat) with 1. change (pb_w pb 0%nat) with 1.
    rewrite deviance_single. unfold devrow, deviance, poisson_deviance. rewrite lsumf_cons, lsumf_nil. cbn [oy ow omu]. destruct (Rlt_dec 0 1); [|lra]. rewrite ln_exp, ln_1. field. }
  split.
  - intros v Hv. rewrite !FV in Hv. pose proof (exp_second (/ 10) ltac:(lra)) as E1. pose proof (exp_ineq1_le (v 0%nat)) as E2.
    assert (V2 : v 0%nat ^ 2 <= / 4 * / 4) by lra. assert (VB : - / 2 <= v 0%nat <= / 2) by (split; nra).
    assert (EB : exp (v 0%nat) <= 2).
    { apply Rle_trans with (exp (/ 2)); [apply exp_le; lra|]. pose proof (exp_second (/ 2) ltac:(lra)). lra. }
    pose proof (exp_pos (v 0%nat)) as EP.
    split; [|split].
    + intros u. rewrite quad_exact, LV. change (nc pb) with 1%nat. change (pb_n pb) with 1%nat. cbn [rsum]. rewrite HR. change (xt pb 0 0) with 1. pose proof (pow2_ge_0 (u 0%nat)). nra.
    + intros u. rewrite quad_exact, LV. change (nc pb) with 1%nat. change (pb_n pb) with 1%nat. cbn [rsum]. rewrite HR. change (xt pb 0 0) with 1. pose proof (pow2_ge_0 (u 0%nat)). nra.
    + intros i e Hi Hd. assert (i = 0%nat) by (simpl in Hi; lia). subst i. rewrite E0 in Hd. apply Rabs_le_between in Hd.
      change (search_mean (pb_fam pb) (pb_link pb) e) with (exp e). change (pb_large pb) with 1000000. apply Rle_lt_trans with (exp (1 + 1)); [apply exp_le; lra|].
      rewrite exp_plus. pose proof exp_le_3. pose proof (exp_pos 1). nra.
  - destruct (some_above (INR (nc pb) * (3 * armijo_scale * train_obj pb P2 (fun _ => / 10)) * (6 * 1) ^ 2)) as [n1 Hn]. exists n1. lra.
Qed.
