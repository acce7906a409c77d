(** C119: linear convergence of irls-ls from every start, and a number of iterations logarithmic in the tolerance. *)
From Coq Require Import List Lia Lra Arith ZArith Classical_Prop. Import ListNotations.
From Verif Require Import L_Link L_Dist L_Dist2 L_Dist3 L_Dist4 L_CD L_CDb L_KKT L_Hess L_Solver L_Solver2 L_Solver3 L_Obj L_LS L_Psd L_Gap L_FitAll P_Solver P_LS P_Obj S_Psd S_Pace P_Pace S_Quad P_Quad S_Newton P_Newton S_Steps.
From Verif Require Import M_Solver S_Solver.
Local Open Scope R_scope.

Lemma lower_parabola (F F' F'' : R -> R) B : (forall x, is_derive F x (F' x)) -> (forall x, is_derive F' x (F'' x)) ->
  (forall x, 0 < x < 1 -> B <= F'' x) -> F 0 + F' 0 + / 2 * B <= F 1.
Proof.
  intros H1 H2 H3.
  assert (G : forall x, 0 <= x <= 1 -> F' 0 + B * x <= F' x).
  { intros x Hx. pose proof (derive_nonneg_mono (fun t => F' t - B * t) (fun t => F'' t - B) 0 x (proj1 Hx)) as M. cbv beta in M.
    assert (F' 0 - B * 0 <= F' x - B * x); [|lra]. apply M.
    - intros t _. apply dR_minus; [apply H2 | auto_derive; [exact I | ring]].
    - intros t Ht. specialize (H3 t ltac:(lra)). lra. }
  pose proof (derive_nonneg_mono (fun t => F t - F' 0 * t - / 2 * B * t ^ 2) (fun t => F' t - F' 0 - B * t) 0 1 ltac:(lra)) as M. cbv beta in M.
  assert (F 0 - F' 0 * 0 - / 2 * B * 0 ^ 2 <= F 1 - F' 0 * 1 - / 2 * B * 1 ^ 2); [|lra]. apply M.
  - intros t _. eapply dR_eq; [apply dR_minus; [apply dR_minus; [apply H1 | auto_derive; [exact I | reflexivity]] | auto_derive; [exact I | reflexivity]]|]. field.
  - intros t Ht. specialize (G t ltac:(lra)). lra.
Qed.

Section Convex.
Variables (pb : problem) (P2 : P2t) (c0 : nat -> R) (lambda : R).
Hypothesis Hok : pb_ok pb.
Hypothesis He : exact_hessian_pair (pb_fam pb) (pb_link pb).
Hypothesis HS : p2_sym (pb_p pb) P2.
Hypothesis HP : p2_psd (pb_p pb) P2.
Hypothesis Hw : forall i, (i < pb_n pb)%nat -> 0 <= pb_w pb i.
Local Notation F := (train_obj pb P2).
Hypothesis HA : forall v, F v <= F c0 -> hessian_above pb P2 lambda v.

Lemma segment_below a b t : F a <= F c0 -> F b <= F c0 -> 0 <= t <= 1 -> F (vadd a (vscale t (fun k => b k - a k))) <= F c0.
Proof.
  intros Ha Hb Ht. assert (E : vadd a (vscale t (fun k => b k - a k)) = (fun k => t * b k + (1 - t) * a k)).
  { apply FunctionalExtensionality.functional_extensionality. intros k. unfold vadd, vscale. ring. }
  rewrite E. pose proof (C53_objective_convex pb P2 b a t Hok HS HP Hw (exact_convex _ _ He) Ht) as Q. eapply Rle_trans; [exact Q|]. nra.
Qed.

(** strong convexity of the smooth part on the level set *)
Lemma smooth_strong a b : F a <= F c0 -> F b <= F c0 ->
  smooth_obj pb P2 a - rsum (nc pb) (fun k => score_of pb P2 a k * (b k - a k)) + / 2 * lambda * moved pb a b <= smooth_obj pb P2 b.
Proof.
  intros Ha Hb. set (d := fun k => b k - a k).
  set (R0 := fun i e => / 2 * (pb_w pb i * devrow (pb_fam pb) (pb_y pb i) (search_mean (pb_fam pb) (pb_link pb) e))).
  set (G := fun i e => gradient_row (pb_fam pb) (pb_link pb) (pb_y pb i) (pb_w pb i) e (raw_inverse (pb_link pb) e)).
  set (h := fun i e => hessian_row (pb_fam pb) (pb_link pb) (pb_y pb i) (pb_w pb i) e (raw_inverse (pb_link pb) e)).
  set (B := rsum (nc pb) (fun k => rsum (nc pb) (fun l => a l * p2_full (pb_ic pb) P2 l k) * d k)).
  set (x := fun i => lin_pred pb d i). set (e := fun i => eta_of pb a i).
  set (phi := fun t => rsum (pb_n pb) (fun i => R0 i (e i + t * x i)) + (/ 2 * l2_form pb P2 a + t * B + t * t * (/ 2 * l2_form pb P2 d))).
  set (phi1 := fun t => rsum (pb_n pb) (fun i => - G i (e i + t * x i) * x i) + (B + t * l2_form pb P2 d)).
  set (phi2 := fun t => rsum (pb_n pb) (fun i => h i (e i + t * x i) * x i ^ 2) + l2_form pb P2 d).
  assert (D0 : forall t (i : nat), is_derive (fun t => e i + t * x i) t (x i)) by (intros; auto_derive; [exact I | ring]).
  assert (D1 : forall t, is_derive phi t (phi1 t)).
  { intros t. apply dR_plus.
    - apply (dR_rsum (pb_n pb) (fun i t => R0 i (e i + t * x i)) (fun i => - G i (e i + t * x i) * x i)). intros i Hi.
      apply (dR_comp (R0 i) (fun t => e i + t * x i)); [|apply D0].
      apply row_derive; [apply Hok | apply Hok, Hi | apply (convex_pair_dev_ok _ _ _ (exact_convex _ _ He)) | apply (convex_pair_regular _ _ _ (exact_convex _ _ He))].
    - auto_derive; [exact I | field]. }
  assert (D2 : forall t, is_derive phi1 t (phi2 t)).
  { intros t. apply dR_plus.
    - apply (dR_rsum (pb_n pb) (fun i t => - G i (e i + t * x i) * x i) (fun i => h i (e i + t * x i) * x i ^ 2)). intros i Hi.
      eapply dR_eq; [apply dR_scal_r, (dR_comp (fun u => - G i u) (fun t => e i + t * x i) t (h i (e i + t * x i)) (x i)); [|apply D0]|ring].
      eapply dR_eq; [apply dR_opp, hessian_row_is_derive; exact He | unfold h; ring].
    - auto_derive; [exact I | ring]. }
  assert (EP : forall t, phi t = smooth_obj pb P2 (vadd a (vscale t d))).
  { intros t. rewrite smooth_obj_eq. unfold smooth_obj_with. rewrite l2_form_add by exact HS. rewrite half_dev_rows. unfold phi. f_equal.
    apply rsum_ext. intros i _. unfold R0. rewrite eta_of_add. reflexivity. }
  pose proof (lower_parabola phi phi1 phi2 (lambda * rsum (nc pb) (fun k => d k ^ 2)) D1 D2) as L.
  assert (L0 : forall t, 0 < t < 1 -> lambda * rsum (nc pb) (fun k => d k ^ 2) <= phi2 t).
  { intros t Ht. assert (LV : F (vadd a (vscale t d)) <= F c0) by (apply segment_below; [exact Ha | exact Hb | lra]).
    specialize (HA _ LV d). rewrite quad_exact in HA. eapply Rle_trans; [exact HA|]. right. unfold phi2. f_equal. apply rsum_ext. intros i Hi.
    rewrite (hrow_raw pb He). rewrite eta_of_add. unfold h, e, x. rewrite lin_pred_eq. reflexivity. }
  specialize (L L0). rewrite !EP in L.
  assert (Z0 : vadd a (vscale 0 d) = a) by (apply FunctionalExtensionality.functional_extensionality; intros k; unfold vadd, vscale; ring).
  assert (Z1 : vadd a (vscale 1 d) = b) by (apply FunctionalExtensionality.functional_extensionality; intros k; unfold vadd, vscale, d; ring).
  rewrite Z0, Z1 in L.
  assert (E1 : phi1 0 = - rsum (nc pb) (fun k => score_of pb P2 a k * d k)).
  { rewrite <- rsum_opp. rewrite (rsum_ext (nc pb) (fun k => - (score_of pb P2 a k * d k)) (fun k => grad_with pb P2 a k * d k)).
    - rewrite grad_dot. unfold phi1. rewrite Rmult_0_l, Rplus_0_r. f_equal. apply rsum_ext. intros i _. unfold G, x, e. rewrite Rmult_0_l, Rplus_0_r. reflexivity.
    - intros k _. rewrite grad_score; [ring|]. intros i Hi. apply (mean_is_raw pb He). }
  rewrite E1 in L. unfold moved. fold d. unfold d in L. rewrite Rmult_assoc. lra.
Qed.

Hypothesis HSm : smooth_problem pb.
Hypothesis Hl : 0 < lambda.
Lemma obj_smooth v : F v = smooth_obj pb P2 v.
Proof. unfold train_obj. rewrite <- l1_pen_eq by apply Hok. rewrite l1_pen_zero by apply HSm. ring. Qed.
Lemma strongly_convex a b : F a <= F c0 -> F b <= F c0 ->
  F a - rsum (nc pb) (fun k => score_of pb P2 a k * (b k - a k)) + / 2 * lambda * moved pb a b <= F b.
Proof. rewrite !obj_smooth. intros Ha Hb. apply smooth_strong; rewrite ?obj_smooth; assumption. Qed.

(** the distance of the objective from its smallest value, from the gradient *)
Lemma gap a v : F a <= F c0 -> 2 * lambda * (F a - F v) <= grad_sq pb P2 a.
Proof.
  intros Ha. assert (G0 : 0 <= grad_sq pb P2 a) by (apply rsum_nonneg; intros; apply pow2_ge_0).
  destruct (Rle_lt_dec (F v) (F c0)) as [Hv|Hv]; [|nra].
  pose proof (strongly_convex a v Ha Hv) as Q. unfold moved, grad_sq in *.
  assert (Y : 2 * lambda * rsum (nc pb) (fun k => score_of pb P2 a k * (v k - a k)) <=
    rsum (nc pb) (fun k => score_of pb P2 a k ^ 2) + lambda * (lambda * rsum (nc pb) (fun k => (v k - a k) ^ 2))).
  { rewrite <- !rsum_scal, <- rsum_plus. apply rsum_le. intros k _. pose proof (pow2_ge_0 (score_of pb P2 a k - lambda * (v k - a k))). nra. }
  set (S := rsum (nc pb) (fun k => score_of pb P2 a k * (v k - a k))) in *. set (D := rsum (nc pb) (fun k => (v k - a k) ^ 2)) in *. nra.
Qed.
End Convex.

(** The gradient bounds how far the objective is from its smallest value: at most |gradient|^2 / (2 lambda), where lambda is the smallest
    curvature on the level set of the start. *)
Theorem C119_gap : forall pb P2 c0 lambda a v, pb_ok pb -> exact_hessian_pair (pb_fam pb) (pb_link pb) ->
  p2_sym (pb_p pb) P2 -> p2_psd (pb_p pb) P2 -> (forall i, (i < pb_n pb)%nat -> 0 <= pb_w pb i) -> smooth_problem pb -> 0 < lambda ->
  (forall u, train_obj pb P2 u <= train_obj pb P2 c0 -> hessian_above pb P2 lambda u) -> train_obj pb P2 a <= train_obj pb P2 c0 ->
  train_obj pb P2 a - train_obj pb P2 v <= grad_sq pb P2 a / (2 * lambda).
Proof.
  intros pb P2 c0 lambda a v Hok He HS HP Hw HSm Hl HA Ha. pose proof (gap pb P2 c0 lambda Hok He HS HP Hw HA HSm Hl a v Ha) as G.
  apply Rmult_le_reg_l with (2 * lambda); [lra|]. replace (2 * lambda * (grad_sq pb P2 a / (2 * lambda))) with (grad_sq pb P2 a) by (field; lra). exact G.
Qed.
Print Assumptions C119_gap.

Lemma scale_pos : 1 <= armijo_scale.
Proof. unfold armijo_scale. assert (P19 : 2 ^ 19 = 524288) by (cbn; lra). rewrite P19. lra. Qed.
Lemma factor_range lambda M : 0 < lambda -> lambda <= M -> 0 <= 1 - 2 * lambda / (M * armijo_scale) < 1.
Proof.
  intros Hl HM. assert (S2 : 2 <= armijo_scale) by (unfold armijo_scale; assert (P19 : 2 ^ 19 = 524288) by (cbn; lra); rewrite P19; lra).
  assert (K : 0 < M * armijo_scale) by (apply Rmult_lt_0_compat; lra). split.
  - assert (2 * lambda / (M * armijo_scale) <= 1); [|lra]. apply Rmult_le_reg_r with (M * armijo_scale); [exact K|]. unfold Rdiv. rewrite Rmult_assoc, Rinv_l by lra. nra.
  - assert (0 < 2 * lambda / (M * armijo_scale)); [|lra]. apply Rdiv_lt_0_compat; lra.
Qed.

Section Run.
Variables (pb : problem) (solve : linear_solver) (P2 : P2t) (c : nat -> R) (lambda M : R).
Hypothesis Hok : pb_ok pb.
Hypothesis HA : pb_approx pb = 0.
Hypothesis Hw : forall i, (i < pb_n pb)%nat -> 0 <= pb_w pb i.
Hypothesis He : exact_hessian_pair (pb_fam pb) (pb_link pb).
Hypothesis HS : p2_sym (pb_p pb) P2.
Hypothesis HP : p2_psd (pb_p pb) P2.
Hypothesis HSm : smooth_problem pb.
Hypothesis Hsol : solve_sound solve.
Hypothesis Hl : 0 < lambda.
Hypothesis HM : lambda <= M.
Local Notation F := (train_obj pb P2).
Local Notation q := (1 - 2 * lambda / (M * armijo_scale)).
Hypothesis HAb : forall v, F v <= F c -> hessian_above pb P2 lambda v.
Hypothesis HBe : forall v, F v <= F c -> hessian_below pb P2 M v.

Lemma contraction n hist : run_history pb (ls_solver pb solve) P2 c n hist ->
  (forall k, (k < n)%nat -> ~ ls_failed (hist k) (hist (S k)) /\ ~ tiny pb (hist k) (hist (S k))) ->
  forall v, F (st_coef (hist n)) - F v <= q ^ n * (F c - F v).
Proof.
  intros RH HK v. pose proof (exact_safe _ _ He) as Hs.
  pose proof (stays_below pb solve P2 c M Hok HA Hw Hs HS HP HSm Hsol ltac:(lra) n hist RH HBe HK) as LV.
  assert (RE : forall k, (k <= n)%nat -> reach pb (ls_solver pb solve) P2 c (hist k)) by (eapply hist_reach; apply RH).
  assert (G : forall m, (m <= n)%nat -> F (st_coef (hist m)) - F v <= q ^ m * (F c - F v)).
  { induction m as [|m IH]; intros Hm; [destruct RH as [H0 _]; rewrite H0, init_coef; simpl; lra|]. specialize (IH ltac:(lia)).
    destruct (HK m ltac:(lia)) as [A B]. destruct RH as [_ HR].
    pose proof (one_iteration pb solve P2 c M Hok HA Hw Hs HS HP HSm Hsol ltac:(lra) (hist m) (hist (S m)) (RE m ltac:(lia)) (HR m ltac:(lia)) (HBe _ (LV m ltac:(lia))) A B) as Q.
    pose proof (gap pb P2 c lambda Hok He HS HP Hw HAb HSm Hl (st_coef (hist m)) v (LV m ltac:(lia))) as Q2.
    destruct (factor_range lambda M Hl HM) as [F1 F2]. pose proof scale_pos as SP. assert (K : 0 < M * armijo_scale) by (apply Rmult_lt_0_compat; lra).
    apply Rle_trans with (q * (F (st_coef (hist m)) - F v)); [|rewrite <- tech_pow_Rmult, Rmult_assoc; apply Rmult_le_compat_l; assumption].
    assert (2 * lambda / (M * armijo_scale) * (F (st_coef (hist m)) - F v) <= F (st_coef (hist m)) - F (st_coef (hist (S m)))); [|lra].
    apply Rmult_le_reg_l with (M * armijo_scale); [exact K|].
    replace (M * armijo_scale * (2 * lambda / (M * armijo_scale) * (F (st_coef (hist m)) - F v))) with (2 * lambda * (F (st_coef (hist m)) - F v)) by (field; split; lra). lra. }
  apply G. lia.
Qed.
End Run.

(** Linear convergence from every start: per iteration the distance of the objective to any value it can take shrinks by the factor
    1 - 2 lambda / (10000 * 2^19 * M), where lambda and M are the smallest and largest curvature on the level set of the start. *)
Theorem C119_linear : forall pb solve P2 c lambda M n hist, pb_ok pb -> pb_approx pb = 0 ->
  (forall i, (i < pb_n pb)%nat -> 0 <= pb_w pb i) -> exact_hessian_pair (pb_fam pb) (pb_link pb) ->
  p2_sym (pb_p pb) P2 -> p2_psd (pb_p pb) P2 -> smooth_problem pb -> solve_sound solve -> 0 < lambda -> lambda <= M ->
  (forall v, train_obj pb P2 v <= train_obj pb P2 c -> hessian_above pb P2 lambda v /\ hessian_below pb P2 M v) ->
  run_history pb (ls_solver pb solve) P2 c n hist ->
  (forall k, (k < n)%nat -> ~ ls_failed (hist k) (hist (S k)) /\ ~ tiny pb (hist k) (hist (S k))) ->
  forall v, train_obj pb P2 (st_coef (hist n)) - train_obj pb P2 v
    <= (1 - 2 * lambda / (M * armijo_scale)) ^ n * (train_obj pb P2 c - train_obj pb P2 v).
Proof. intros. eapply (contraction pb solve P2 c lambda M); eauto; intros u Hu; apply H9; exact Hu. Qed.
Print Assumptions C119_linear.

(** ... and so do the squared distances of the coefficients to the optimum. *)
Theorem C119_coefficients : forall pb solve P2 c lambda M n hist opt, pb_ok pb -> pb_approx pb = 0 ->
  (forall i, (i < pb_n pb)%nat -> 0 <= pb_w pb i) -> exact_hessian_pair (pb_fam pb) (pb_link pb) ->
  p2_sym (pb_p pb) P2 -> p2_psd (pb_p pb) P2 -> smooth_problem pb -> solve_sound solve -> 0 < lambda -> lambda <= M ->
  (forall v, train_obj pb P2 v <= train_obj pb P2 c -> hessian_above pb P2 lambda v /\ hessian_below pb P2 M v) ->
  run_history pb (ls_solver pb solve) P2 c n hist ->
  (forall k, (k < n)%nat -> ~ ls_failed (hist k) (hist (S k)) /\ ~ tiny pb (hist k) (hist (S k))) ->
  (forall v, train_obj pb P2 opt <= train_obj pb P2 v) ->
  lambda * moved pb opt (st_coef (hist n)) <= 4 * ((1 - 2 * lambda / (M * armijo_scale)) ^ n * (train_obj pb P2 c - train_obj pb P2 opt)).
Proof.
  intros pb solve P2 c lambda M n hist opt Hok HA Hw He HS HP HSm Hsol Hl HM HH RH HK HO.
  assert (HAb : forall v, train_obj pb P2 v <= train_obj pb P2 c -> hessian_above pb P2 lambda v) by (intros; apply HH; assumption).
  assert (HBe : forall v, train_obj pb P2 v <= train_obj pb P2 c -> hessian_below pb P2 M v) by (intros; apply HH; assumption).
  pose proof (contraction pb solve P2 c lambda M Hok HA Hw He HS HP HSm Hsol Hl HM HAb HBe n hist RH HK opt) as Q.
  pose proof (stays_below pb solve P2 c M Hok HA Hw (exact_safe _ _ He) HS HP HSm Hsol ltac:(lra) n hist RH HBe HK n (le_n n)) as LV.
  set (a := st_coef (hist n)) in *. set (m := fun k => / 2 * (opt k + a k)).
  assert (Hm : train_obj pb P2 m <= train_obj pb P2 c).
  { assert (E : m = (fun k => / 2 * opt k + (1 - / 2) * a k)) by (apply FunctionalExtensionality.functional_extensionality; intros k; unfold m; field).
    rewrite E. pose proof (C53_objective_convex pb P2 opt a (/ 2) Hok HS HP Hw (exact_convex _ _ He) ltac:(lra)) as K. specialize (HO c). lra. }
  pose proof (strongly_convex pb P2 c lambda Hok He HS HP Hw HAb HSm m opt Hm (HO c)) as S1.
  pose proof (strongly_convex pb P2 c lambda Hok He HS HP Hw HAb HSm m a Hm LV) as S2.
  pose proof (HO m) as Om. unfold moved in *.
  assert (Z : rsum (nc pb) (fun k => score_of pb P2 m k * (opt k - m k)) + rsum (nc pb) (fun k => score_of pb P2 m k * (a k - m k)) = 0).
  { rewrite <- rsum_plus. apply rsum_zero. intros k _. unfold m. field. }
  assert (E1 : rsum (nc pb) (fun k => (opt k - m k) ^ 2) = / 4 * rsum (nc pb) (fun k => (a k - opt k) ^ 2)) by (rewrite <- rsum_scal; apply rsum_ext; intros; unfold m; field).
  assert (E2 : rsum (nc pb) (fun k => (a k - m k) ^ 2) = / 4 * rsum (nc pb) (fun k => (a k - opt k) ^ 2)) by (rewrite <- rsum_scal; apply rsum_ext; intros; unfold m; field).
  rewrite E1 in S1. rewrite E2 in S2. set (D := rsum (nc pb) (fun k => (a k - opt k) ^ 2)) in *. lra.
Qed.
Print Assumptions C119_coefficients.

Lemma exp_ge_pow x n : 0 <= 1 - x -> (1 - x) ^ n <= exp (- (INR n * x)).
Proof.
  intros Hx. induction n as [|n IH]; [simpl; rewrite Rmult_0_l, Ropp_0, exp_0; lra|].
  rewrite <- tech_pow_Rmult, S_INR. replace (- ((INR n + 1) * x)) with (- x + - (INR n * x)) by ring. rewrite exp_plus.
  apply Rmult_le_compat; [exact Hx | apply pow_le, Hx | pose proof (exp_ineq1_le (- x)); lra | exact IH].
Qed.

(** The number of iterations is logarithmic in the tolerance, wherever the run starts: at most
    1 + (10000 * 2^19 * M / (2 lambda)) * ln (nc * 10000 * 2^19 * M * F_0 / gtol^2) - or one of the iterations is one in which the line
    search warned or in which the objective moved by no more than the machine-precision tolerance. *)
Theorem C119_iterations : forall pb solve P2 c lambda M sf warned, pb_ok pb -> pb_approx pb = 0 -> 0 < pb_gtol pb ->
  (forall i, (i < pb_n pb)%nat -> 0 <= pb_w pb i) -> exact_hessian_pair (pb_fam pb) (pb_link pb) ->
  p2_sym (pb_p pb) P2 -> p2_psd (pb_p pb) P2 -> smooth_problem pb -> solve_sound solve -> 0 < lambda -> lambda <= M ->
  (forall v, train_obj pb P2 v <= train_obj pb P2 c -> hessian_above pb P2 lambda v /\ hessian_below pb P2 M v) ->
  irls_solver pb (ls_solver pb solve) P2 c = Some (sf, warned) ->
  st_niter sf = 0%Z
  \/ IZR (st_niter sf) <= 1 + M * armijo_scale / (2 * lambda) * ln (INR (nc pb) * (M * armijo_scale * train_obj pb P2 c) / pb_gtol pb ^ 2)
  \/ exists s s', reach pb (ls_solver pb solve) P2 c s /\ irls_step pb (ls_solver pb solve) s = Some s' /\ (ls_failed s s' \/ tiny pb s s').
Proof.
  intros pb solve P2 c lambda M sf warned Hok HA Hg Hw He HS HP HSm Hsol Hl HM HH E.
  assert (HAb : forall v, train_obj pb P2 v <= train_obj pb P2 c -> hessian_above pb P2 lambda v) by (intros; apply HH; assumption).
  assert (HBe : forall v, train_obj pb P2 v <= train_obj pb P2 c -> hessian_below pb P2 M v) by (intros; apply HH; assumption).
  pose proof (exact_safe _ _ He) as Hs. assert (M0 : 0 < M) by lra.
  destruct (C27_iteration_accounting _ _ _ _ _ _ E) as [n [hist [RH [Hn [En [_ [_ [NS _]]]]]]]].
  assert (RE : forall k, (k <= n)%nat -> reach pb (ls_solver pb solve) P2 c (hist k)) by (eapply hist_reach; apply RH).
  destruct (classic (exists k, (k < n)%nat /\ (ls_failed (hist k) (hist (S k)) \/ tiny pb (hist k) (hist (S k))))) as [[k [Hk Q]]|NB].
  { right. right. exists (hist k), (hist (S k)). split; [apply RE; lia|]. split; [apply RH, Hk | exact Q]. }
  assert (OK : forall k, (k < n)%nat -> ~ ls_failed (hist k) (hist (S k)) /\ ~ tiny pb (hist k) (hist (S k))).
  { intros k Hk. split; intros Q; apply NB; exists k; auto. }
  destruct n as [|m]; [left; rewrite En; reflexivity|]. right. left.
  pose proof (stays_below pb solve P2 c M Hok HA Hw Hs HS HP HSm Hsol M0 _ hist RH HBe OK) as LV.
  destruct (OK m ltac:(lia)) as [OA OB].
  pose proof (one_iteration pb solve P2 c M Hok HA Hw Hs HS HP HSm Hsol M0 (hist m) (hist (S m)) (RE m ltac:(lia)) (proj2 RH m ltac:(lia)) (HBe _ (LV m ltac:(lia))) OA OB) as Q1.
  assert (RHm : run_history pb (ls_solver pb solve) P2 c m hist) by (destruct RH as [H0 HR]; split; [exact H0 | intros k Hk; apply HR; lia]).
  pose proof (contraction pb solve P2 c lambda M Hok HA Hw He HS HP HSm Hsol Hl HM HAb HBe m hist RHm (fun k Hk => OK k ltac:(lia)) (st_coef (hist (S m)))) as Q2.
  pose proof (not_stop pb solve P2 c Hok HA HSm (hist m) ltac:(lra) (RE m ltac:(lia)) (NS m ltac:(lia))) as Q3.
  pose proof (obj_nonneg pb P2 Hok Hw Hs HP HSm (st_coef (hist (S m)))) as NN.
  destruct (factor_range lambda M Hl HM) as [F1 F2]. pose proof scale_pos as SP. assert (K : 0 < M * armijo_scale) by (apply Rmult_lt_0_compat; lra).
  set (x := 2 * lambda / (M * armijo_scale)) in *. set (A := M * armijo_scale) in *. set (F0 := train_obj pb P2 c) in *.
  pose proof (pos_INR (nc pb)) as N0. pose proof (pow_le (1 - x) m F1) as PW. pose proof (exp_ge_pow x m F1) as EX.
  assert (F0n : 0 <= F0) by (apply (obj_nonneg pb P2 Hok Hw Hs HP HSm)).
  assert (G2 : 0 < pb_gtol pb ^ 2) by (apply pow_lt, Hg).
  set (D := train_obj pb P2 (st_coef (hist m)) - train_obj pb P2 (st_coef (hist (S m)))) in *.
  assert (W : pb_gtol pb ^ 2 <= INR (nc pb) * (A * F0) * exp (- (INR m * x))).
  { eapply Rle_trans; [exact Q3|]. rewrite Rmult_assoc. apply Rmult_le_compat_l; [exact N0|]. eapply Rle_trans; [exact Q1|]. rewrite Rmult_assoc. apply Rmult_le_compat_l; [lra|].
    eapply Rle_trans; [exact Q2|]. apply Rle_trans with ((1 - x) ^ m * F0); [apply Rmult_le_compat_l; [exact PW | lra]|]. rewrite Rmult_comm. apply Rmult_le_compat_l; assumption. }
  set (T := INR (nc pb) * (A * F0)) in *. pose proof (exp_pos (- (INR m * x))) as EP.
  assert (T0 : 0 < T) by (apply Rmult_lt_reg_r with (exp (- (INR m * x))); [exact EP | lra]).
  assert (LN : INR m * x <= ln (T / pb_gtol pb ^ 2)).
  { rewrite <- (ln_exp (INR m * x)). apply ln_le; [apply exp_pos|]. apply Rmult_le_reg_r with (pb_gtol pb ^ 2); [exact G2|].
    replace (T / pb_gtol pb ^ 2 * pb_gtol pb ^ 2) with T by (field; lra).
    assert (EE : exp (INR m * x) * exp (- (INR m * x)) = 1) by (rewrite <- exp_plus, Rplus_opp_r; apply exp_0).
    pose proof (exp_pos (INR m * x)) as EP2. apply (Rmult_le_compat_l (exp (INR m * x))) in W; [|lra].
    replace (exp (INR m * x) * (T * exp (- (INR m * x)))) with (T * (exp (INR m * x) * exp (- (INR m * x)))) in W by ring. rewrite EE in W. lra. }
  rewrite En, <- INR_IZR_INZ, S_INR. assert (INR m <= A / (2 * lambda) * ln (T / pb_gtol pb ^ 2)); [|lra].
  apply Rle_trans with (A / (2 * lambda) * (INR m * x)).
  - right. unfold x, A. field. split; [|split]; lra.
  - apply Rmult_le_compat_l; [|exact LN]. apply Rlt_le, Rdiv_lt_0_compat; lra.
Qed.
Print Assumptions C119_iterations.

(** What a converged fit is worth, with any L1 and L2 penalties and bounds and either solver: when the gradient criterion stopped it, its
    objective is within gtol^2 / (2 lambda) of the smallest value on the box, and its distance to the optimum is at most 2 gtol / lambda. *)
Theorem C119_returned : forall pb inner P2 c c0 lambda sf, pb_ok pb -> 0 <= pb_approx pb -> exact_hessian_pair (pb_fam pb) (pb_link pb) ->
  p2_sym (pb_p pb) P2 -> p2_psd (pb_p pb) P2 -> (forall i, (i < pb_n pb)%nat -> 0 <= pb_w pb i) -> 0 < lambda ->
  (forall u, train_obj pb P2 u <= train_obj pb P2 c0 -> hessian_above pb P2 lambda u) ->
  pb_stol pb = None -> irls_solver pb inner P2 c = Some (sf, false) ->
  in_box pb (st_coef sf) -> train_obj pb P2 (st_coef sf) <= train_obj pb P2 c0 ->
  (forall v, in_box pb v -> train_obj pb P2 (st_coef sf) - train_obj pb P2 v <= pb_gtol pb ^ 2 / (2 * lambda)) /\
  (forall opt, in_box pb opt -> (forall v, in_box pb v -> train_obj pb P2 opt <= train_obj pb P2 v) ->
     lambda ^ 2 * moved pb (st_coef sf) opt <= 4 * pb_gtol pb ^ 2).
Proof.
  intros pb inner P2 c c0 lambda sf Hok HC He HS HP Hw Hl HA Hst E Bs LV.
  destruct (C27_iteration_accounting _ _ _ _ _ _ E) as [n [hist [[H0 Hs] [Hn [_ [_ [_ [_ [HW _]]]]]]]]].
  assert (R : reach pb inner P2 c sf) by (rewrite <- Hn; eapply hist_reach; eauto).
  pose proof (inv_coh _ _ _ (reach_inv _ _ _ _ _ Hok HC R)) as C.
  destruct (proj1 HW eq_refl) as [T|[t [Et _]]]; [|congruence].
  set (nm := fst _) in T. set (a := st_coef sf) in *. set (g := pb_gtol pb) in *.
  assert (K : forall v, in_box pb v -> train_obj pb P2 v <= train_obj pb P2 c0 ->
    train_obj pb P2 a + / 2 * lambda * moved pb a v <= train_obj pb P2 v + g * sqrt (moved pb a v)).
  { intros v Bv Lv. set (lin := fun u => smooth_obj pb P2 a + rsum (nc pb) (fun k => - st_score sf k * (u k - a k))).
    assert (Z : lin a = smooth_obj pb P2 a).
    { unfold lin. rewrite (rsum_zero (nc pb)); [ring|]. intros k _. ring. }
    assert (SUP : supports (nc pb) lin a (fun k => - st_score sf k)) by (intros u; rewrite Z; unfold lin; lra).
    assert (HD : forall k, (k < nc pb)%nat -> Rabs (v k - a k) <= sqrt (moved pb a v)).
    { intros k Hk. exact (nd_ge pb (fun k => v k - a k) k Hk). }
    pose proof (subopt (nc pb) lin a (fun k => - st_score sf k) (pb_P1 pb) (pb_ic pb) (pb_lb pb) (pb_ub pb) v (sqrt (moved pb a v))
      (proj2 (proj2 Hok)) Bs Bv SUP HD) as SO. fold a in SO. fold nm in SO. rewrite Z in SO.
    pose proof (smooth_strong pb P2 c0 lambda Hok He HS HP Hw HA a v LV Lv) as SS.
    assert (EL : lin v = smooth_obj pb P2 a - rsum (nc pb) (fun k => score_of pb P2 a k * (v k - a k))).
    { unfold lin. rewrite (rsum_ext (nc pb) (fun k => - st_score sf k * (v k - a k)) (fun k => - (score_of pb P2 a k * (v k - a k)))).
      - rewrite rsum_opp. ring.
      - intros k Hk. rewrite (coh_score _ _ _ C) by exact Hk. unfold a. ring. }
    rewrite EL in SO. pose proof (sqrt_pos (moved pb a v)) as SQ.
    assert (nm * sqrt (moved pb a v) <= g * sqrt (moved pb a v)) by (apply Rmult_le_compat_r; lra).
    unfold train_obj, l1_form in *. lra. }
  assert (MP : forall v, 0 <= moved pb a v) by (intros v; apply rsum_nonneg; intros; apply pow2_ge_0).
  assert (SQ : forall v, sqrt (moved pb a v) * sqrt (moved pb a v) = moved pb a v) by (intros v; apply sqrt_sqrt, MP).
  assert (G2 : 0 <= g ^ 2) by apply pow2_ge_0.
  split.
  - intros v Bv. apply Rmult_le_reg_l with (2 * lambda); [lra|]. replace (2 * lambda * (g ^ 2 / (2 * lambda))) with (g ^ 2) by (field; lra).
    destruct (Rle_lt_dec (train_obj pb P2 v) (train_obj pb P2 c0)) as [Lv|Lv].
    + specialize (K v Bv Lv). specialize (SQ v). set (t := sqrt (moved pb a v)) in *. rewrite <- SQ in K.
      pose proof (pow2_ge_0 (g - lambda * t)). nra.
    + nra.
  - intros opt Bo HO. assert (Lo : train_obj pb P2 opt <= train_obj pb P2 c0) by (specialize (HO a Bs); lra).
    specialize (K opt Bo Lo). specialize (HO a Bs). specialize (SQ opt). pose proof (sqrt_pos (moved pb a opt)) as T0. set (t := sqrt (moved pb a opt)) in *. rewrite <- SQ in K |- *.
    assert (L1 : lambda * t * t <= 2 * g * t) by lra.
    destruct (Rle_lt_or_eq_dec 0 t T0) as [Tp|<-]; [|nra].
    assert (L2 : lambda * t <= 2 * g) by (apply Rmult_le_reg_r with t; assumption).
    assert (L3 : 0 <= lambda * t) by (apply Rmult_le_pos; lra). nra.
Qed.
Print Assumptions C119_returned.

(** A penalty of at least lambda times the squared norm (ridge regression without intercept) gives the smallest curvature everywhere. *)
Theorem C119_penalised : forall pb P2 lambda v, pb_ok pb -> exact_hessian_pair (pb_fam pb) (pb_link pb) ->
  (forall i, (i < pb_n pb)%nat -> 0 <= pb_w pb i) -> l2_above pb P2 lambda -> hessian_above pb P2 lambda v.
Proof.
  intros pb P2 lambda v Hok He Hw HL u. rewrite quad_exact. specialize (HL u).
  assert (0 <= rsum (pb_n pb) (fun i => hrow_of pb v i * (rsum (nc pb) (fun k => xt pb i k * u k)) ^ 2)); [|lra].
  apply rsum_nonneg. intros i Hi. apply Rmult_le_pos; [apply (hrow_pos pb Hok He Hw), Hi | apply pow2_ge_0].
Qed.
Print Assumptions C119_penalised.

(** Ridge-penalised logistic regression (no L1 penalty, no bounds, no unpenalised intercept): everything but the accuracy of the machine
    and the certainty of the estimated probabilities is settled by the data. *)
Theorem C119_logistic : forall pb solve P2 c l1 l2 sf warned, pb_ok pb -> pb_approx pb = 0 -> 0 < pb_gtol pb -> 1 <= pb_large pb ->
  (forall i, (i < pb_n pb)%nat -> 0 <= pb_w pb i) -> pb_fam pb = BinomialF -> pb_link pb = LogitL ->
  p2_sym (pb_p pb) P2 -> p2_psd (pb_p pb) P2 -> smooth_problem pb -> solve_sound solve ->
  0 < l1 -> l2_above pb P2 l1 -> l1 <= l2 -> l2_below pb P2 l2 ->
  irls_solver pb (ls_solver pb solve) P2 c = Some (sf, warned) ->
  st_niter sf = 0%Z
  \/ IZR (st_niter sf) <= 1 + (design_size pb + l2) * armijo_scale / (2 * l1)
      * ln (INR (nc pb) * ((design_size pb + l2) * armijo_scale * train_obj pb P2 c) / pb_gtol pb ^ 2)
  \/ exists s s', reach pb (ls_solver pb solve) P2 c s /\ irls_step pb (ls_solver pb solve) s = Some s' /\ (tiny pb s s' \/ ~ undecided pb (st_coef s)).
Proof.
  intros pb solve P2 c l1 l2 sf warned Hok HA Hg Hbig Hw Ef El HS HP HSm Hsol L0 LA L12 LB E.
  assert (He : exact_hessian_pair (pb_fam pb) (pb_link pb)) by (rewrite Ef, El; exact I).
  assert (DS : 0 <= design_size pb).
  { unfold design_size. assert (0 <= rsum (pb_n pb) (fun i => pb_w pb i * rsum (nc pb) (fun k => xt pb i k ^ 2))); [|lra].
    apply rsum_nonneg. intros i Hi. apply Rmult_le_pos; [apply Hw, Hi | apply rsum_nonneg; intros; apply pow2_ge_0]. }
  assert (HB : forall v, hessian_below pb P2 (design_size pb + l2) v).
  { intros v. assert (EQ : design_size pb = rsum (pb_n pb) (fun i => pb_w pb i * / 4 * rsum (nc pb) (fun k => xt pb i k ^ 2))).
    { unfold design_size. rewrite <- rsum_scal. apply rsum_ext. intros; ring. }
    rewrite EQ. apply rows_below; [|exact LB]. intros i Hi. split; [pose proof (Hw i Hi); lra|]. rewrite (logit_row pb v i Ef El).
    apply Rmult_le_compat_l; [apply Hw, Hi|]. pose proof (pow2_ge_0 (probability pb v i - / 2)). nra. }
  destruct (C119_iterations pb solve P2 c l1 (design_size pb + l2) sf warned Hok HA Hg Hw He HS HP HSm Hsol L0 ltac:(lra)
    (fun v _ => conj (C119_penalised pb P2 l1 v Hok He Hw LA) (HB v)) E) as [Q|[Q|[s [s' [R0 [E' [Q|Q]]]]]]].
  - left. exact Q.
  - right. left. exact Q.
  - right. right. exists s, s'. split; [exact R0|]. split; [exact E'|]. right. intros U.
    apply (C114_logistic_line_search pb solve P2 c s s' Hok HA Hbig Hw Ef El HS HP HSm Hsol R0 E' U Q).
  - right. right. exists s, s'. split; [exact R0|]. split; [exact E'|]. left. exact Q.
Qed.
Print Assumptions C119_logistic.

(** Non-vacuity: the ridge-penalised logistic regression of C114_nonvacuous (its first iteration exists) meets the remaining hypotheses. *)
Example C119_nonvacuous : pb_ok ex_pb114 /\ exact_hessian_pair (pb_fam ex_pb114) (pb_link ex_pb114) /\ smooth_problem ex_pb114 /\
  p2_sym (pb_p ex_pb114) (P2diag (fun _ => 1)) /\ p2_psd (pb_p ex_pb114) (P2diag (fun _ => 1)) /\
  l2_above ex_pb114 (P2diag (fun _ => 1)) 1 /\ 0 < 1 /\ 1 <= design_size ex_pb114 + 1 /\ 0 < pb_gtol ex_pb114 /\
  forall v, hessian_above ex_pb114 (P2diag (fun _ => 1)) 1 v /\ hessian_below ex_pb114 (P2diag (fun _ => 1)) (design_size ex_pb114 + 1) v.
Proof.
  destruct C114_nonvacuous as [Hok [HSm [_ [_ [_ [_ [HB _]]]]]]].
  assert (L2 : l2_above ex_pb114 (P2diag (fun _ => 1)) 1) by (intros v; unfold l2_form, nc, p2_full, p2_entry; simpl; lra).
  split; [exact Hok|]. split; [exact I|]. split; [exact HSm|]. split; [intros i j Hi Hj; simpl in Hi, Hj; assert (i = j) by lia; subst i; reflexivity|].
  split; [intros v; unfold p2_entry; simpl; nra|]. split; [exact L2|]. split; [lra|]. split; [unfold design_size, nc, xt; simpl; lra|]. split; [simpl; lra|].
  intros v. split; [|apply HB]. apply C119_penalised; [exact Hok | exact I | intros; simpl; lra | exact L2].
Qed.
