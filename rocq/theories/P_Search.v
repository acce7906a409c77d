(** C118: when the line search can fail. *)
From Coq Require Import List Lia Lra Arith ZArith Classical_Prop. Import ListNotations.
From Verif Require Import L_Link L_Dist L_Dist2 L_Dist3 L_Dist4 L_CD L_CDb L_KKT L_Hess L_Solver L_Solver2 L_Solver3 L_Obj L_LS L_Psd L_Gap L_FitAll P_Solver P_LS P_Gauss S_Psd S_Pace P_Pace S_Quad P_Quad S_Newton P_Newton S_Steps P_Steps.
From Verif Require Import M_Solver S_Solver.
Local Open Scope R_scope.

Section Search.
Variables (pb : problem) (P2 : P2t) (c d : nat -> R) (kappa t : R).
Hypothesis Hok : pb_ok pb.
Hypothesis He : exact_hessian_pair (pb_fam pb) (pb_link pb).
Hypothesis HS : p2_sym (pb_p pb) P2.
Hypothesis HP : p2_psd (pb_p pb) P2.
Hypothesis Hw : forall i, (i < pb_n pb)%nat -> 0 <= pb_w pb i.
Hypothesis Hk : 1 <= kappa.
Hypothesis Ht : 0 < t <= 1.
Local Notation xd i := (rsum (nc pb) (fun k => xt pb i k * d k)).
Local Notation sd := (rsum (nc pb) (fun k => score_of pb P2 c k * d k)).
Local Notation q := (rsum (pb_n pb) (fun i => hrow_of pb c i * (xd i) ^ 2) + l2_form pb P2 d).
Local Notation dev i e := (/ 2 * (pb_w pb i * devrow (pb_fam pb) (pb_y pb i) (search_mean (pb_fam pb) (pb_link pb) e))).
Local Notation slope i := (- gradient_row (pb_fam pb) (pb_link pb) (pb_y pb i) (pb_w pb i) (eta_of pb c i) (raw_inverse (pb_link pb) (eta_of pb c i))).
(** the deviance of a row along the step *)
Hypothesis HR : forall i, (i < pb_n pb)%nat ->
  dev i (eta_of pb c i + t * xd i) <= dev i (eta_of pb c i) + slope i * (t * xd i) + / 2 * kappa * (hrow_of pb c i * (t * xd i) ^ 2).

Lemma search_upper : smooth_obj pb P2 (vadd c (vscale t d)) <= smooth_obj pb P2 c - t * sd + / 2 * kappa * t ^ 2 * q.
Proof.
  assert (EM : forall i, mean_of pb c i = raw_inverse (pb_link pb) (eta_of pb c i)) by (intros i; apply mean_is_raw; exact He).
  assert (ES : rsum (nc pb) (fun k => - score_of pb P2 c k * d k) =
     rsum (pb_n pb) (fun i => slope i * lin_pred pb d i)
     + rsum (nc pb) (fun k => rsum (nc pb) (fun l => c l * p2_full (pb_ic pb) P2 l k) * d k)).
  { rewrite <- grad_dot. apply rsum_ext. intros k _. rewrite grad_score by auto. reflexivity. }
  assert (ES' : rsum (nc pb) (fun k => - score_of pb P2 c k * d k) = - sd) by (rewrite <- rsum_opp; apply rsum_ext; intros; ring). rewrite ES' in ES. clear ES'.
  pose proof (l2_form_nonneg pb P2 d HP) as L2.
  rewrite !smooth_obj_eq. unfold smooth_obj_with. rewrite l2_form_add by exact HS. rewrite !half_dev_rows.
  assert (RW : rsum (pb_n pb) (fun i => dev i (eta_of pb (vadd c (vscale t d)) i))
    <= rsum (pb_n pb) (fun i => dev i (eta_of pb c i)) + t * rsum (pb_n pb) (fun i => slope i * lin_pred pb d i)
    + / 2 * kappa * t ^ 2 * rsum (pb_n pb) (fun i => hrow_of pb c i * (xd i) ^ 2)).
  { rewrite <- !rsum_scal, <- !rsum_plus. apply rsum_le. intros i Hi. rewrite eta_of_add, lin_pred_eq. specialize (HR i Hi). lra. }
  apply (f_equal (Rmult t)) in ES. assert (T2 : 0 <= t ^ 2 * l2_form pb P2 d) by (apply Rmult_le_pos; [apply pow2_ge_0 | exact L2]).
  assert (K : / 2 * (t ^ 2 * l2_form pb P2 d) <= / 2 * kappa * (t ^ 2 * l2_form pb P2 d)) by nra.
  eapply Rle_trans; [apply Rplus_le_compat_r, RW|]. nra.
Qed.

Lemma l1_along : l1_form pb (vadd c (vscale t d)) <= l1_form pb c + t * (l1_form pb (vadd c d) - l1_form pb c).
Proof.
  unfold l1_form. rewrite <- rsum_minus, <- rsum_scal, <- rsum_plus. apply rsum_le. intros k _. unfold vadd, vscale.
  assert (P0 : 0 <= pen_of (pb_ic pb) (pb_P1 pb) k) by (unfold pen_of; destruct (pb_ic pb); [destruct k; [lra|]|]; apply Hok).
  replace (c k + t * d k) with ((1 - t) * c k + t * (c k + d k)) by ring.
  pose proof (Rabs_triang ((1 - t) * c k) (t * (c k + d k))) as T. rewrite !Rabs_mult, (Rabs_right (1 - t)), (Rabs_right t) in T by lra. nra.
Qed.

(** the Armijo test of the line search is met *)
Lemma search_armijo : 0 <= q -> - sd + / 2 * q + l1_form pb (vadd c d) - l1_form pb c <= 0 -> kappa * t <= 1 - 1 / 10000 ->
  train_obj pb P2 (vadd c (vscale t d)) - train_obj pb P2 c <= t * (1 / 10000 * (- sd + l1_form pb (vadd c d) - l1_form pb c)).
Proof.
  intros Q0 D K. unfold train_obj. pose proof search_upper as U. pose proof l1_along as L. set (Q := q) in *. set (b := - sd + l1_form pb (vadd c d) - l1_form pb c) in *.
  assert (B : b <= - (/ 2 * Q)) by (unfold b; lra).
  assert (E : / 2 * kappa * t ^ 2 * Q <= kappa * t * (t * - b)).
  { replace (/ 2 * kappa * t ^ 2 * Q) with (kappa * t * (t * (/ 2 * Q))) by ring. apply Rmult_le_compat_l; [nra|]. apply Rmult_le_compat_l; lra. }
  assert (T : 0 <= t * - b) by nra.
  assert (kappa * t * (t * - b) <= (1 - 1 / 10000) * (t * - b)) by (apply Rmult_le_compat_r; assumption).
  unfold b in *. lra.
Qed.
End Search.

(** ** one row along a step *)
Section Row.
Variables (pb : problem) (i : nat) (e x : R).
Hypothesis Hok : pb_ok pb.
Hypothesis He : exact_hessian_pair (pb_fam pb) (pb_link pb).
Hypothesis Hi : (i < pb_n pb)%nat.
Hypothesis Hw : 0 <= pb_w pb i.
Local Notation dev e := (/ 2 * (pb_w pb i * devrow (pb_fam pb) (pb_y pb i) (search_mean (pb_fam pb) (pb_link pb) e))).
Local Notation slope e := (- gradient_row (pb_fam pb) (pb_link pb) (pb_y pb i) (pb_w pb i) e (raw_inverse (pb_link pb) e)).
Local Notation curv e := (hessian_row (pb_fam pb) (pb_link pb) (pb_y pb i) (pb_w pb i) e (raw_inverse (pb_link pb) e)).

Lemma dev_slope z : is_derive (fun e => dev e) z (slope z).
Proof. apply row_derive; [apply Hok | apply Hok, Hi | apply (convex_pair_dev_ok _ _ _ (exact_convex _ _ He)) | apply (convex_pair_regular _ _ z (exact_convex _ _ He))]. Qed.
Lemma slope_curv z : is_derive (fun e => slope e) z (curv z).
Proof. eapply dR_eq; [apply dR_opp, hessian_row_is_derive; exact He | ring]. Qed.

Lemma row_short : Rabs x <= / 2 -> dev (e + x) <= dev e + slope e * x + / 2 * (7 / 4) * (curv e * x ^ 2).
Proof.
  intros Hx. destruct (curvature_slope _ _ (pb_y pb i) (pb_w pb i) He (proj1 Hok) (proj1 (proj2 Hok) i Hi) Hw) as [h' [Dh SC]].
  pose proof (F_remainder (fun e => dev e) (fun e => slope e) (fun e => curv e) h' dev_slope slope_curv Dh SC e (e + x)) as Q. cbv beta in Q.
  replace (e + x - e) with x in Q by ring. pose proof (exp_second (Rabs x) (conj (Rabs_pos x) Hx)) as E2. rewrite pow2_abs in E2.
  assert (H0 : 0 <= curv e) by (eapply Rle_trans; [apply Rabs_pos | apply SC]).
  pose proof (Rmult_le_compat_l _ _ _ H0 E2) as E3. lra.
Qed.

Lemma row_identity : pb_link pb = IdentityL -> dev (e + x) <= dev e + slope e * x + / 2 * 1 * (curv e * x ^ 2).
Proof.
  intros El. assert (CW : forall z, curv z = pb_w pb i).
  { intros z. pose proof He as He'. unfold hessian_row, rowwise. rewrite El in *. destruct (pb_fam pb) as [p| | | | | | |th]; simpl in He'; try contradiction.
    - subst p. destruct (Req_EM_T 0 0) as [_|N]; [unfold normal_identity_rows; cbn; try ring | exfalso; apply N; reflexivity].
    - unfold normal_identity_rows. cbn. try ring. }
  pose proof (upper_parabola (fun e => dev e) (fun e => slope e) (fun e => curv e) (pb_w pb i) dev_slope slope_curv (fun z => or_intror (CW z)) e (e + x)) as Q. cbv beta in Q.
  rewrite (CW e). replace (e + x - e) with x in Q by ring. lra.
Qed.
End Row.

(** what a failed line search has tried last *)
Lemma failed_shape pb inner P2 c s s' : pb_ok pb -> 0 <= pb_approx pb -> reach pb inner P2 c s -> irls_step pb inner s = Some s' -> ls_failed s s' ->
  exists d cyc, inner (fst (prepare pb s)) (snd (prepare pb s)) = Some (d, cyc) /\ st_coef s' = vadd (st_coef s) (vscale (/ 2 ^ 19) d) /\
    ((forall i, (i < pb_n pb)%nat -> mean_of pb (st_coef s') i < pb_large pb) ->
      ~ train_obj pb P2 (st_coef s') - train_obj pb P2 (st_coef s)
        <= / 2 ^ 19 * (1 / 10000 * (- rsum (nc pb) (fun k => score_of pb P2 (st_coef s) k * d k) + l1_form pb (vadd (st_coef s) d) - l1_form pb (st_coef s)))).
Proof.
  intros Hok HC R0 E HF. pose proof (reach_inv _ _ _ _ _ Hok HC R0) as I. pose proof I as [C P A H].
  destruct (irls_step_facts _ _ _ _ E) as [d [cyc [Ei Fa]]].
  destruct (sf_ls _ _ _ _ _ _ Fa) as [E1 [E2 [E3 [E4 [E5 [E6 E7]]]]]].
  destruct (line_search_spec pb (st_P2 s) (st_coef s) (st_score s) (st_eta s) (st_obj s) d Hok (coh_eta _ _ _ C))
    as [[Hst [Hc [_ [Hmu [Ho _]]]]] [Hk [Hf [Hk19 Hacc]]]].
  set (r := line_search _ _ _ _ _ _ _) in *. rewrite P in Ho.
  destruct (ls_warn r) eqn:W; [|unfold ls_failed in HF; rewrite E7 in HF; lia].
  assert (NA : ~ ls_accept pb (st_score s) (st_obj s) (ls_bound pb (st_coef s) (st_score s) d) r) by (intros Q; apply Hacc in Q; discriminate).
  exists d, cyc. split; [exact Ei|]. rewrite (Hk19 eq_refl) in Hf. rewrite E1. split; [rewrite Hc, Hst, Hf; reflexivity|].
  intros HM HD. apply NA. left. split; [intros i Hi; rewrite Hmu by exact Hi; apply HM, Hi|].
  rewrite Ho, (coh_obj _ _ _ C), Hf. unfold ls_bound. rewrite !l1_pen_eq by apply Hok. unfold dot.
  rewrite (rsum_ext (nc pb) (fun i => st_score s i * d i) (fun k => score_of pb P2 (st_coef s) k * d k)) by (intros k Hk'; rewrite (coh_score _ _ _ C) by exact Hk'; reflexivity).
  lra.
Qed.

(** both inner solvers return a direction along which the penalised quadratic model does not rise *)
Lemma cd_fall pb seed P2 c s d cyc : pb_ok pb -> pb_approx pb = 0 ->
  (forall i, (i < pb_n pb)%nat -> 0 <= pb_w pb i) -> exact_hessian_pair (pb_fam pb) (pb_link pb) ->
  p2_sym (pb_p pb) P2 -> p2_psd (pb_p pb) P2 -> seeds_ok seed -> in_box pb c ->
  reach pb (cd_solver pb seed) P2 c s -> cd_solver pb seed (fst (prepare pb s)) (snd (prepare pb s)) = Some (d, cyc) ->
  let q := rsum (pb_n pb) (fun i => hrow_of pb (st_coef s) i * (rsum (nc pb) (fun k => xt pb i k * d k)) ^ 2) + l2_form pb P2 d in
  0 <= q /\ - rsum (nc pb) (fun k => score_of pb P2 (st_coef s) k * d k) + / 2 * q + l1_form pb (vadd (st_coef s) d) - l1_form pb (st_coef s) <= 0.
Proof.
  intros Hok HA Hw He HS HP Hseed HB R0 Ei q. assert (HC : 0 <= pb_approx pb) by lra.
  pose proof (reach_inv _ _ _ _ _ Hok HC R0) as I. pose proof I as [C P A H].
  destruct (prepare_spec pb s P2 HC P A H) as [A1 [_ [HE [_ HH]]]]. specialize (HH HA).
  pose proof (prepare_facts pb s) as PF. set (s1 := fst (prepare pb s)) in *. set (Hm := snd (prepare pb s)) in *.
  assert (B : in_box pb (st_coef s1)) by (rewrite (pf_coef _ _ _ _ PF); eapply box_reach; eauto).
  destruct (cd_direction pb P2 (st_hrows s1) s1 Hm d cyc seed (proj2 (proj2 Hok)) HS A1 HE Hseed B Ei) as [_ [_ D]].
  rewrite (pf_coef _ _ _ _ PF), (pf_score _ _ _ _ PF), quad_exact in D.
  rewrite (rsum_ext (pb_n pb) (fun i => st_hrows s1 i * _) (fun i => hrow_of pb (st_coef s) i * (rsum (nc pb) (fun k => xt pb i k * d k)) ^ 2)) in D
    by (intros i Hi; rewrite HH, (coh_hrows _ _ _ C) by exact Hi; reflexivity).
  fold q in D. split.
  - pose proof (l2_form_nonneg pb P2 d HP). unfold q. apply Rplus_le_le_0_compat; [|assumption]. apply rsum_nonneg. intros i Hi.
    apply Rmult_le_pos; [apply (hrow_pos pb Hok He Hw (st_coef s) i Hi) | apply pow2_ge_0].
  - unfold dot in D. rewrite (rsum_ext (nc pb) (fun i => st_score s i * d i) (fun k => score_of pb P2 (st_coef s) k * d k)) in D
      by (intros k Hk; rewrite (coh_score _ _ _ C) by exact Hk; reflexivity). exact D.
Qed.
Lemma ls_fall pb solve P2 c s d cyc : pb_ok pb -> pb_approx pb = 0 ->
  (forall i, (i < pb_n pb)%nat -> 0 <= pb_w pb i) -> exact_hessian_pair (pb_fam pb) (pb_link pb) ->
  p2_sym (pb_p pb) P2 -> p2_psd (pb_p pb) P2 -> smooth_problem pb -> solve_sound solve ->
  reach pb (ls_solver pb solve) P2 c s -> ls_solver pb solve (fst (prepare pb s)) (snd (prepare pb s)) = Some (d, cyc) ->
  let q := rsum (pb_n pb) (fun i => hrow_of pb (st_coef s) i * (rsum (nc pb) (fun k => xt pb i k * d k)) ^ 2) + l2_form pb P2 d in
  0 <= q /\ - rsum (nc pb) (fun k => score_of pb P2 (st_coef s) k * d k) + / 2 * q + l1_form pb (vadd (st_coef s) d) - l1_form pb (st_coef s) <= 0.
Proof.
  intros Hok HA Hw He HS HP HSm Hsol R0 Ei q. assert (HC : 0 <= pb_approx pb) by lra.
  pose proof (reach_inv _ _ _ _ _ Hok HC R0) as I. pose proof I as [C P A H].
  pose proof (ls_direction pb solve P2 s d cyc Hok HC HS Hsol I Ei) as D.
  destruct (prepare_spec pb s P2 HC P A H) as [_ [_ [_ [_ HH]]]]. specialize (HH HA).
  assert (Q0 : 0 <= q).
  { pose proof (l2_form_nonneg pb P2 d HP). unfold q. apply Rplus_le_le_0_compat; [|assumption]. apply rsum_nonneg. intros i Hi.
    apply Rmult_le_pos; [apply (hrow_pos pb Hok He Hw (st_coef s) i Hi) | apply pow2_ge_0]. }
  split; [exact Q0|].
  assert (QD : q = rsum (nc pb) (fun k => score_of pb P2 (st_coef s) k * d k)).
  { unfold q. rewrite <- quad_exact. apply rsum_ext. intros k Hk'. rewrite <- (coh_score _ _ _ C) by exact Hk'. rewrite <- (D k Hk'), <- rsum_scal_r. apply rsum_ext. intros l _.
    unfold exact_hessian. rewrite (rsum_ext (pb_n pb) (fun i => st_hrows (fst (prepare pb s)) i * xt pb i k * xt pb i l) (fun i => hrow_of pb (st_coef s) i * xt pb i k * xt pb i l))
      by (intros i Hi; rewrite HH, (coh_hrows _ _ _ C) by exact Hi; reflexivity). ring. }
  rewrite <- QD. rewrite <- !l1_pen_eq by apply Hok. rewrite !l1_pen_zero by apply HSm. lra.
Qed.

(** A failed line search of irls-cd (any L1 and L2 penalty, any bounds): even the last trial, 2^-19 of the direction, has moved some row's
    linear predictor by more than 1/2, or has driven some mean to the overflow limit. *)
Theorem C118_failed_search : forall pb seed P2 c s s', pb_ok pb -> pb_approx pb = 0 ->
  (forall i, (i < pb_n pb)%nat -> 0 <= pb_w pb i) -> exact_hessian_pair (pb_fam pb) (pb_link pb) ->
  p2_sym (pb_p pb) P2 -> p2_psd (pb_p pb) P2 -> seeds_ok seed -> in_box pb c ->
  reach pb (cd_solver pb seed) P2 c s -> irls_step pb (cd_solver pb seed) s = Some s' -> ls_failed s s' ->
  (exists i, (i < pb_n pb)%nat /\ / 2 < Rabs (eta_of pb (st_coef s') i - eta_of pb (st_coef s) i))
  \/ (exists i, (i < pb_n pb)%nat /\ pb_large pb <= mean_of pb (st_coef s') i).
Proof.
  intros pb seed P2 c s s' Hok HA Hw He HS HP Hseed HB R0 E HF.
  destruct (classic (exists i, (i < pb_n pb)%nat /\ pb_large pb <= mean_of pb (st_coef s') i)) as [Q|NM]; [right; exact Q|]. left.
  apply NNPP. intros NE. assert (HC : 0 <= pb_approx pb) by lra.
  destruct (failed_shape _ _ _ _ _ _ Hok HC R0 E HF) as [d [cyc [Ei [Ec NA]]]]. apply NA.
  { intros i Hi. apply Rnot_le_lt. intros L. apply NM. exists i. auto. }
  destruct (cd_fall pb seed P2 c s d cyc Hok HA Hw He HS HP Hseed HB R0 Ei) as [Q0 D].
  rewrite Ec. apply (search_armijo pb P2 (st_coef s) d (7 / 4)); auto; try lra.
  intros i Hi. rewrite (hrow_raw pb He). apply row_short; auto. apply Rnot_lt_le. intros L. apply NE. exists i. split; [exact Hi|].
  rewrite Ec, eta_of_add, lin_pred_eq. eapply Rlt_le_trans; [exact L|]. right. f_equal. ring.
Qed.
Print Assumptions C118_failed_search.

(** The same of irls-ls. *)
Theorem C118_failed_search_ls : forall pb solve P2 c s s', pb_ok pb -> pb_approx pb = 0 ->
  (forall i, (i < pb_n pb)%nat -> 0 <= pb_w pb i) -> exact_hessian_pair (pb_fam pb) (pb_link pb) ->
  p2_sym (pb_p pb) P2 -> p2_psd (pb_p pb) P2 -> smooth_problem pb -> solve_sound solve ->
  reach pb (ls_solver pb solve) P2 c s -> irls_step pb (ls_solver pb solve) s = Some s' -> ls_failed s s' ->
  (exists i, (i < pb_n pb)%nat /\ / 2 < Rabs (eta_of pb (st_coef s') i - eta_of pb (st_coef s) i))
  \/ (exists i, (i < pb_n pb)%nat /\ pb_large pb <= mean_of pb (st_coef s') i).
Proof.
  intros pb solve P2 c s s' Hok HA Hw He HS HP HSm Hsol R0 E HF.
  destruct (classic (exists i, (i < pb_n pb)%nat /\ pb_large pb <= mean_of pb (st_coef s') i)) as [Q|NM]; [right; exact Q|]. left.
  apply NNPP. intros NE. assert (HC : 0 <= pb_approx pb) by lra.
  destruct (failed_shape _ _ _ _ _ _ Hok HC R0 E HF) as [d [cyc [Ei [Ec NA]]]]. apply NA.
  { intros i Hi. apply Rnot_le_lt. intros L. apply NM. exists i. auto. }
  destruct (ls_fall pb solve P2 c s d cyc Hok HA Hw He HS HP HSm Hsol R0 Ei) as [Q0 D].
  rewrite Ec. apply (search_armijo pb P2 (st_coef s) d (7 / 4)); auto; try lra.
  intros i Hi. rewrite (hrow_raw pb He). apply row_short; auto. apply Rnot_lt_le. intros L. apply NE. exists i. split; [exact Hi|].
  rewrite Ec, eta_of_add, lin_pred_eq. eapply Rlt_le_trans; [exact L|]. right. f_equal. ring.
Qed.
Print Assumptions C118_failed_search_ls.

(** In linear models (normal or Tweedie power 0, identity link) the line search of irls-cd never fails, whatever the penalties and bounds,
    as long as no mean reaches the overflow limit. *)
Theorem C118_linear_model : forall pb seed P2 c s s', pb_ok pb -> pb_approx pb = 0 ->
  (forall i, (i < pb_n pb)%nat -> 0 <= pb_w pb i) -> exact_hessian_pair (pb_fam pb) (pb_link pb) -> pb_link pb = IdentityL ->
  p2_sym (pb_p pb) P2 -> p2_psd (pb_p pb) P2 -> seeds_ok seed -> in_box pb c ->
  reach pb (cd_solver pb seed) P2 c s -> irls_step pb (cd_solver pb seed) s = Some s' ->
  (forall i, (i < pb_n pb)%nat -> mean_of pb (st_coef s') i < pb_large pb) -> ~ ls_failed s s'.
Proof.
  intros pb seed P2 c s s' Hok HA Hw He El HS HP Hseed HB R0 E HM HF. assert (HC : 0 <= pb_approx pb) by lra.
  destruct (failed_shape _ _ _ _ _ _ Hok HC R0 E HF) as [d [cyc [Ei [Ec NA]]]]. apply NA; [exact HM|].
  destruct (cd_fall pb seed P2 c s d cyc Hok HA Hw He HS HP Hseed HB R0 Ei) as [Q0 D].
  rewrite Ec. apply (search_armijo pb P2 (st_coef s) d 1); auto; try lra.
  intros i Hi. rewrite (hrow_raw pb He). apply row_identity; auto.
Qed.
Print Assumptions C118_linear_model.

(** A penalised linear regression by irls-cd with step_size_tol = tau therefore makes at most 1 + 20000 * F_0 / (lambda * tau^2) iterations,
    unless the objective moves by no more than the machine-precision tolerance or a mean reaches the overflow limit. *)
Theorem C118_linear_iterations : forall pb seed P2 c lambda tau sf warned, pb_ok pb -> pb_approx pb = 0 ->
  (forall i, (i < pb_n pb)%nat -> 0 <= pb_w pb i) -> exact_hessian_pair (pb_fam pb) (pb_link pb) -> pb_link pb = IdentityL ->
  p2_sym (pb_p pb) P2 -> p2_psd (pb_p pb) P2 -> seeds_ok seed -> in_box pb c -> 0 <= lambda ->
  pb_stol pb = Some tau -> 0 <= tau ->
  (forall v, train_obj pb P2 v <= train_obj pb P2 c -> curved pb P2 lambda v) ->
  irls_solver pb (cd_solver pb seed) P2 c = Some (sf, warned) ->
  lambda * tau ^ 2 * (IZR (st_niter sf) - 1) <= 20000 * train_obj pb P2 c
  \/ exists s s', reach pb (cd_solver pb seed) P2 c s /\ irls_step pb (cd_solver pb seed) s = Some s' /\
       (tiny pb s s' \/ exists i, (i < pb_n pb)%nat /\ pb_large pb <= mean_of pb (st_coef s') i).
Proof.
  intros pb seed P2 c lambda tau sf warned Hok HA Hw He El HS HP Hseed HB Hl Et Ht HV E.
  destruct (C117_iterations pb seed P2 c lambda tau sf warned Hok ltac:(lra) Hw (exact_safe _ _ He) HS HP Hseed HB Hl Et Ht HV E) as [Q|[s [s' [R0 [E' [F|F]]]]]];
    [left; exact Q| |]; right; exists s, s'; (split; [exact R0|]); (split; [exact E'|]); [right|left; exact F].
  apply NNPP. intros N. apply (C118_linear_model pb seed P2 c s s' Hok HA Hw He El HS HP Hseed HB R0 E'); [|exact F].
  intros i Hi. apply Rnot_le_lt. intros L. apply N. exists i. auto.
Qed.
Print Assumptions C118_linear_iterations.

(** Non-vacuity, 1: a lasso-and-ridge linear regression with bounds: every hypothesis of C118_linear_model and C118_linear_iterations holds,
    and no mean can reach the limit. *)
Definition ex_pb118 : problem :=
  mkPb 1 1 (fun _ _ => 1) (fun _ => 1) (fun _ => 1) (fun _ => 0) false
       NormalF IdentityL (fun _ => / 10) 5 1000 (1 / 10000) (Some (1 / 100)) 0 None true
       (fun _ => Some (-1)) (fun _ => Some 1) false 1000000 (1 / 1000000000).
Example C118_nonvacuous : pb_ok ex_pb118 /\ exact_hessian_pair (pb_fam ex_pb118) (pb_link ex_pb118) /\
  p2_sym (pb_p ex_pb118) (P2diag (fun _ => 1)) /\ p2_psd (pb_p ex_pb118) (P2diag (fun _ => 1)) /\ seeds_ok (fun _ => 0%N) /\ in_box ex_pb118 (fun _ => 0) /\
  (forall v, curved ex_pb118 (P2diag (fun _ => 1)) 1 v) /\
  exists s', irls_step ex_pb118 (cd_solver ex_pb118 (fun _ => 0%N)) (init_state ex_pb118 (P2diag (fun _ => 1)) false (fun _ => 0)) = Some s' /\
    (forall i, (i < pb_n ex_pb118)%nat -> mean_of ex_pb118 (st_coef s') i < pb_large ex_pb118).
Proof.
  set (pb := ex_pb118). set (P2 := P2diag (fun _ => 1)).
  assert (Hok : pb_ok pb) by (split; [exact I|split; [intros; exact I|intros; simpl; lra]]).
  assert (Hbox : in_box pb (fun _ => 0)) by (intros k Hk; split; intros b Eb; simpl in Eb; injection Eb as <-; lra).
  split; [exact Hok|]. split; [exact I|]. split; [intros i j Hi Hj; simpl in Hi, Hj; assert (i = j) by lia; subst i; reflexivity|].
  split; [intros v; unfold P2, p2_entry; simpl; nra|]. split; [intros z; reflexivity|]. split; [exact Hbox|].
  split. { intros v. left. intros u. right. unfold l2_form, nc, p2_full, p2_entry, P2; simpl; ring. }
  destruct (irls_step pb _ _) as [s'|] eqn:ES.
  - exists s'. split; [reflexivity|]. intros i Hi. assert (i = 0%nat) by (simpl in Hi; lia). subst i.
    assert (B : in_box pb (st_coef s')).
    { eapply (box_reach pb (fun _ => 0%N) P2 (fun _ => 0)); [exact Hok | simpl; lra | exact Hbox |]. eapply reach_step; [constructor | exact ES]. }
    destruct (B 0%nat ltac:(unfold nc; simpl; lia)) as [_ U]. specialize (U 1 eq_refl). change (mean_of pb (st_coef s') 0) with (eta_of pb (st_coef s') 0).
    change (pb_large pb) with 1000000. unfold eta_of, nc, xt. simpl. lra.
  - exfalso. unfold irls_step in ES. destruct (prepare _ _) as [s1 Hm]. unfold cd_solver in ES.
    repeat (match type of ES with context [let '(_, _) := ?x in _] => destruct x end). discriminate.
Qed.

(** In logistic regression with any penalties and bounds the line search of irls-cd succeeds at every iterate at which no estimated
    probability p of a weighted row has p (1 - p) below 5e-7. *)
Theorem C118_logistic : forall pb seed P2 c s s', pb_ok pb -> pb_approx pb = 0 -> 1 <= pb_large pb ->
  (forall i, (i < pb_n pb)%nat -> 0 <= pb_w pb i) -> pb_fam pb = BinomialF -> pb_link pb = LogitL ->
  p2_sym (pb_p pb) P2 -> p2_psd (pb_p pb) P2 -> seeds_ok seed -> in_box pb c ->
  reach pb (cd_solver pb seed) P2 c s -> irls_step pb (cd_solver pb seed) s = Some s' ->
  (forall i, (i < pb_n pb)%nat -> 0 < pb_w pb i -> / 2000000 <= probability pb (st_coef s) i * (1 - probability pb (st_coef s) i)) -> ~ ls_failed s s'.
Proof.
  intros pb seed P2 c s s' Hok HA Hbig Hw Ef El HS HP Hseed HB R0 E HU HF. assert (HC : 0 <= pb_approx pb) by lra.
  assert (He : exact_hessian_pair (pb_fam pb) (pb_link pb)) by (rewrite Ef, El; exact I).
  destruct (failed_shape _ _ _ _ _ _ Hok HC R0 E HF) as [d [cyc [Ei [Ec NA]]]]. apply NA.
  { intros i Hi. rewrite (mean_probability pb _ _ Ef El). pose proof (probability_range pb (st_coef s') i). lra. }
  destruct (cd_fall pb seed P2 c s d cyc Hok HA Hw He HS HP Hseed HB R0 Ei) as [Q0 D].
  rewrite Ec. apply (search_armijo pb P2 (st_coef s) d 500000); auto; try lra.
  intros i Hi. pose proof (proj1 (proj2 Hok) i Hi) as Hy. rewrite Ef in Hy.
  set (x := / 2 ^ 19 * rsum (nc pb) (fun k => xt pb i k * d k)). set (e := eta_of pb (st_coef s) i).
  rewrite Ef, El. pose proof (logit_upper (pb_y pb i) (pb_w pb i) e (e + x) Hy (Hw i Hi)) as U. replace (e + x - e) with x in U by ring.
  eapply Rle_trans; [exact U|]. apply Rplus_le_compat_l. rewrite !Rmult_assoc. apply Rmult_le_compat_l; [lra|].
  rewrite <- !Rmult_assoc. apply Rmult_le_compat_r; [apply pow2_ge_0|]. rewrite (logit_row pb _ _ Ef El).
  destruct (Rle_lt_or_eq_dec 0 (pb_w pb i) (Hw i Hi)) as [Wp|<-]; [|lra]. specialize (HU i Hi Wp).
  rewrite <- Rmult_assoc, (Rmult_comm 500000), Rmult_assoc. apply Rmult_le_compat_l; lra.
Qed.
Print Assumptions C118_logistic.

(** A penalised logistic regression by irls-cd with step_size_tol = tau makes at most 1 + 20000 * F_0 / (lambda * tau^2) iterations, unless the
    objective moves by no more than the machine-precision tolerance or some p (1 - p) of a weighted row falls below 5e-7. *)
Theorem C118_logistic_iterations : forall pb seed P2 c lambda tau sf warned, pb_ok pb -> pb_approx pb = 0 -> 1 <= pb_large pb ->
  (forall i, (i < pb_n pb)%nat -> 0 <= pb_w pb i) -> pb_fam pb = BinomialF -> pb_link pb = LogitL ->
  p2_sym (pb_p pb) P2 -> p2_psd (pb_p pb) P2 -> seeds_ok seed -> in_box pb c -> 0 <= lambda ->
  pb_stol pb = Some tau -> 0 <= tau ->
  (forall v, train_obj pb P2 v <= train_obj pb P2 c -> curved pb P2 lambda v) ->
  irls_solver pb (cd_solver pb seed) P2 c = Some (sf, warned) ->
  lambda * tau ^ 2 * (IZR (st_niter sf) - 1) <= 20000 * train_obj pb P2 c
  \/ exists s s', reach pb (cd_solver pb seed) P2 c s /\ irls_step pb (cd_solver pb seed) s = Some s' /\
       (tiny pb s s' \/ exists i, (i < pb_n pb)%nat /\ 0 < pb_w pb i /\ probability pb (st_coef s) i * (1 - probability pb (st_coef s) i) < / 2000000).
Proof.
  intros pb seed P2 c lambda tau sf warned Hok HA Hbig Hw Ef El HS HP Hseed HB Hl Et Ht HV E.
  assert (He : exact_hessian_pair (pb_fam pb) (pb_link pb)) by (rewrite Ef, El; exact I).
  destruct (C117_iterations pb seed P2 c lambda tau sf warned Hok ltac:(lra) Hw (exact_safe _ _ He) HS HP Hseed HB Hl Et Ht HV E) as [Q|[s [s' [R0 [E' [F|F]]]]]];
    [left; exact Q| |]; right; exists s, s'; (split; [exact R0|]); (split; [exact E'|]); [right|left; exact F].
  apply NNPP. intros N. apply (C118_logistic pb seed P2 c s s' Hok HA Hbig Hw Ef El HS HP Hseed HB R0 E'); [|exact F].
  intros i Hi Wp. apply Rnot_lt_le. intros L. apply N. exists i. auto.
Qed.
Print Assumptions C118_logistic_iterations.

(** Non-vacuity, 2: line searches do fail.  An unpenalised Poisson regression of one row started at -30: the direction of both solvers is
    exp(30) - 1, and all its 20 halvings still overflow the limit. *)
Definition ex_pb118f : problem :=
  mkPb 1 1 (fun _ _ => 1) (fun _ => 1) (fun _ => 1) (fun _ => 0) false
       PoissonF LogL (fun _ => 0) 5 1 (1 / 10000) None 0 None false
       (fun _ => None) (fun _ => None) false 10 0.
Section Example118.
Let pb := ex_pb118f.
Let P2 := P2diag (fun _ => 0).
Let s0 := init_state pb P2 false (fun _ => -30).

Lemma ex118_ok : pb_ok pb.
Proof. split; [exact I|split; [intros; simpl; lra|intros; simpl; lra]]. Qed.
Lemma ex118_smooth : smooth_problem pb.
Proof. split; [reflexivity | split; reflexivity]. Qed.
Lemma ex118_sym : p2_sym (pb_p pb) P2.
Proof. intros i j Hi Hj. simpl in Hi, Hj. assert (i = j) by lia. subst i. reflexivity. Qed.
Lemma ex118_eta v : eta_of pb v 0 = v 0%nat.
Proof. unfold eta_of, nc, xt; simpl; ring. Qed.
Lemma ex118_mean v : mean_of pb v 0 = exp (v 0%nat).
Proof. unfold mean_of. rewrite ex118_eta. reflexivity. Qed.
Lemma ex118_row v : hrow_of pb v 0 = exp (v 0%nat).
Proof. unfold hrow_of. rewrite ex118_mean. change (pb_fam pb) with PoissonF. change (pb_link pb) with LogL. unfold hessian_row, rowwise, poisson_log_rows. cbn [snd]. change (pb_w pb 0%nat) with 1. ring. Qed.
Lemma ex118_score v : score_of pb P2 v 0 = 1 - exp (v 0%nat).
Proof.
  unfold score_of. change (pb_n pb) with 1%nat. change (nc pb) with 1%nat. cbn [rsum]. rewrite ex118_mean. change (pb_fam pb) with PoissonF. change (pb_link pb) with LogL.
  unfold gradient_row, rowwise, poisson_log_rows. cbn [fst]. change (xt pb 0 0) with 1. change (pb_y pb 0%nat) with 1. change (pb_w pb 0%nat) with 1. unfold p2_full, P2. simpl. ring.
Qed.
Lemma ex118_obj v : train_obj pb P2 v = exp (v 0%nat) - 1 - v 0%nat.
Proof.
  unfold train_obj. rewrite <- l1_pen_eq by apply ex118_ok. rewrite l1_pen_zero by apply ex118_smooth. rewrite smooth_obj_eq. unfold smooth_obj_with. rewrite half_dev_rows.
  change (pb_n pb) with 1%nat. cbn [rsum]. rewrite ex118_eta. change (pb_fam pb) with PoissonF. change (pb_link pb) with LogL.
  assert (LQ : l2_form pb P2 v = 0) by (unfold l2_form, nc, p2_full, p2_entry, P2; simpl; ring). rewrite LQ.
  change (pb_w pb 0%nat) with 1. change (pb_y pb 0%nat) with 1. change (search_mean PoissonF LogL (v 0%nat)) with (exp (v 0%nat)).
  unfold devrow, deviance, poisson_deviance. rewrite lsumf_cons, lsumf_nil. cbn [oy ow omu].
  destruct (Rlt_dec 0 1) as [_|N]; [|exfalso; lra]. rewrite ln_1, ln_exp. field.
Qed.
Lemma ex118_coef : st_coef s0 = (fun _ => -30).
Proof. unfold s0; apply init_coef. Qed.
Lemma ex118_inv : inv pb P2 s0.
Proof. exact (inv_init pb P2 false (fun _ => -30) ex118_ok). Qed.
Lemma exp30 : 1073741824 <= exp 30 <= 205891132094649.
Proof.
  assert (E : exp 30 = exp 1 ^ 30) by (replace 30 with (INR 30 * 1) at 1 by (simpl; lra); rewrite <- (Rpower_pow 30 (exp 1)) by apply exp_pos; unfold Rpower; rewrite ln_exp; f_equal; ring).
  rewrite E. pose proof exp_le_3 as E3. pose proof (exp_ineq1 1 ltac:(lra)) as E2. split.
  - replace 1073741824 with (2 ^ 30) by (cbn; lra). apply pow_incr. lra.
  - replace 205891132094649 with (3 ^ 30) by (cbn; lra). apply pow_incr. lra.
Qed.
Lemma exp_m30 : exp (-30) * exp 30 = 1.
Proof. rewrite <- exp_plus. replace (-30 + 30) with 0 by ring. apply exp_0. Qed.

Lemma ex118_fails inner s' : irls_step pb inner s0 = Some s' ->
  (forall d cyc, inner (fst (prepare pb s0)) (snd (prepare pb s0)) = Some (d, cyc) -> exp (-30) * d 0%nat = 1 - exp (-30)) -> ls_failed s0 s'.
Proof.
  intros ES HD. pose proof ex118_inv as I0. pose proof I0 as [C P A H]. pose proof ex118_coef as Ec.
  destruct (irls_step_facts _ _ _ _ ES) as [d [cyc [Ei Fa]]]. specialize (HD d cyc Ei).
  destruct (sf_ls _ _ _ _ _ _ Fa) as [E1 [E2 [E3 [E4 [E5 [E6 E7]]]]]].
  destruct (line_search_spec pb (st_P2 s0) (st_coef s0) (st_score s0) (st_eta s0) (st_obj s0) d ex118_ok (coh_eta _ _ _ C))
    as [[Hst [Hc [_ [Hmu [Ho _]]]]] [Hk [Hf [Hk19 Hacc]]]].
  set (r := line_search _ _ _ _ _ _ _) in *. rewrite P in Ho.
  unfold ls_failed. rewrite E7. destruct (ls_warn r) eqn:W; [lia|]. exfalso.
  pose proof (exp_pos (-30)) as EP. pose proof exp_m30 as EM. pose proof exp30 as [BIG _].
  assert (DV : d 0%nat = exp 30 - 1) by (apply Rmult_eq_reg_l with (exp (-30)); [|lra]; rewrite HD, Rmult_minus_distr_l, EM; ring).
  assert (FK : / 2 ^ 19 <= ls_factor r).
  { rewrite Hf. apply Rinv_le_contravar; [apply pow_lt; lra|]. apply Rle_pow; [lra | exact Hk]. }
  assert (P19 : 2 ^ 19 = 524288) by (cbn; lra). rewrite P19 in FK.
  assert (CV : 100 <= ls_coef r 0%nat).
  { rewrite Hc, Hst, Ec. unfold vadd, vscale. rewrite DV. assert (/ 524288 * (exp 30 - 1) <= ls_factor r * (exp 30 - 1)) by (apply Rmult_le_compat_r; lra). lra. }
  assert (EX : 1 + ls_coef r 0%nat < exp (ls_coef r 0%nat)) by (apply exp_ineq1; lra).
  destruct (proj1 Hacc eq_refl) as [[L _]|[L _]].
  - specialize (L 0%nat ltac:(simpl; lia)). rewrite Hmu, ex118_mean in L by (simpl; lia). change (pb_large pb) with 10 in L. lra.
  - change (pb_eps pb) with 0 in L. rewrite Rmult_0_r, Rabs_R0 in L.
    assert (EO : ls_obj r = st_obj s0) by (pose proof (Rabs_pos (ls_obj r - st_obj s0)); destruct (Req_dec (ls_obj r - st_obj s0) 0) as [|N]; [lra | pose proof (Rabs_pos_lt _ N); lra]).
    rewrite Ho, (coh_obj _ _ _ C), Ec in EO. rewrite !ex118_obj in EO. set (x := ls_coef r 0%nat) in *.
    assert (E2x : (1 + / 2 * x) ^ 2 <= exp x).
    { replace x with (/ 2 * x + / 2 * x) at 2 by field. rewrite exp_plus. pose proof (exp_ineq1 (/ 2 * x) ltac:(lra)). nra. }
    pose proof (exp_increasing (-30) 0 ltac:(lra)) as EL. rewrite exp_0 in EL. nra.
Qed.

(** the matrix handed to the inner solver *)
Lemma ex118_prepared : st_act (fst (prepare pb s0)) = (0%nat :: nil) /\ snd (prepare pb s0) 0%nat 0%nat = exp (-30) /\
  st_coef (fst (prepare pb s0)) = (fun _ => -30) /\ st_score (fst (prepare pb s0)) 0%nat = 1 - exp (-30).
Proof.
  pose proof ex118_inv as I0. pose proof I0 as [C P A H]. pose proof ex118_coef as Ec.
  destruct (prepare_spec pb s0 P2 (Rle_refl 0) P A H) as [_ [_ [HE [_ H0]]]]. specialize (H0 eq_refl).
  pose proof (prepare_facts pb s0) as PF. destruct (prepare pb s0) as [s1 Hm]. cbn [fst snd] in *.
  assert (EA : st_act s1 = (0%nat :: nil)).
  { rewrite (pf_act _ _ _ _ PF), Ec. unfold identify_active_set, is_active. simpl. rewrite (proj2 (Reqb_false (-30) 0)) by lra. reflexivity. }
  split; [exact EA|]. split; [|split; [rewrite (pf_coef _ _ _ _ PF); exact Ec|]].
  - rewrite HE by (rewrite EA; simpl; lia). rewrite EA. simpl nth. unfold exact_hessian. change (pb_n pb) with 1%nat. cbn [rsum].
    rewrite H0, (coh_hrows _ _ _ C), ex118_row, Ec by (simpl; lia). unfold p2_full, P2. simpl. change (xt pb 0 0) with 1. ring.
  - rewrite (pf_score _ _ _ _ PF), (coh_score _ _ _ C), ex118_score, Ec by (unfold nc; simpl; lia). reflexivity.
Qed.

(** one sweep over one coordinate *)
Lemma one_coordinate a seed w q : cd_act a = (0%nat :: nil) -> cd_max_iter a = 1%nat -> cd_ic a = false -> cd_random a = false ->
  cd_P1 a 0%nat = 0 -> cd_lb a 0%nat = None -> cd_ub a 0%nat = None -> cd_eps a < cd_Q a 0%nat 0%nat -> 0 < cd_Q a 0%nat 0%nat ->
  cr_w (enet_coordinate_descent_gram a seed w q) 0%nat = w 0%nat - q 0%nat / cd_Q a 0%nat 0%nat.
Proof.
  intros E1 E2 E3 E4 E5 E6 E7 E8 E9. unfold enet_coordinate_descent_gram. rewrite E2. cbn [cd_loop]. rewrite E1. cbn [length cd_sweep]. rewrite E4.
  destruct (cd_visit a 0 (mkCS w q 0 0)) as [w' q' m1 m2] eqn:EV.
  assert (EW : w' 0%nat = w 0%nat - q 0%nat / cd_Q a 0%nat 0%nat).
  { unfold cd_visit in EV. rewrite E1 in EV. cbn [nth] in EV. rewrite (proj2 (Rleb_false _ _) E8) in EV. cbn [cs_w cs_q] in EV. injection EV as <- _ _ _.
    unfold upd. rewrite Nat.eqb_refl. unfold cd_clip, cd_pen. rewrite E3. cbn [ioff Nat.leb Nat.ltb Nat.sub]. rewrite E6, E7, E5. cbn [below above]. rewrite Rminus_0_r.
    set (z := q 0%nat - w 0%nat * cd_Q a 0%nat 0%nat). assert (FS : fsign (- z) * fmax (Rabs z) 0 = - z).
    { rewrite fmax_Rmax, Rmax_left by apply Rabs_pos. destruct (fsign_cases (- z)) as [[A ->] | [[A ->] | [A ->]]]; unfold Rabs; destruct (Rcase_abs z); lra. }
    rewrite FS. unfold z. field. lra. }
  cbn [cs_w cs_q cs_wmax cs_dwmax Nat.eqb]. rewrite !orb_true_r. destruct (Rleb _ _); exact EW.
Qed.

Example C118_failure_exists : pb_ok pb /\ pb_approx pb = 0 /\ exact_hessian_pair (pb_fam pb) (pb_link pb) /\ smooth_problem pb /\ solve_sound solve1 /\
  seeds_ok (fun _ => 0%N) /\ in_box pb (fun _ => -30) /\ p2_sym (pb_p pb) P2 /\ p2_psd (pb_p pb) P2 /\
  (exists s', irls_step pb (ls_solver pb solve1) s0 = Some s' /\ ls_failed s0 s') /\
  (exists s', irls_step pb (cd_solver pb (fun _ => 0%N)) s0 = Some s' /\ ls_failed s0 s').
Proof.
  pose proof (exp_pos (-30)) as EP. pose proof ex118_prepared as [EA [EQ [EC EG]]].
  split; [exact ex118_ok|]. split; [reflexivity|]. split; [exact I|]. split; [exact ex118_smooth|]. split; [exact solve1_sound|].
  split; [intros z; reflexivity|]. split; [intros k Hk; split; intros b Eb; simpl in Eb; discriminate|]. split; [exact ex118_sym|].
  split; [intros v; unfold P2, p2_entry; simpl; nra|]. split.
  - destruct (irls_step pb (ls_solver pb solve1) s0) as [s'|] eqn:ES.
    + exists s'. split; [reflexivity|]. apply (ex118_fails _ _ ES). intros d cyc E. unfold ls_solver in E. simpl pb_has_bounds in E. cbv iota in E.
      rewrite EA in E. simpl Nat.eqb in E. cbv iota in E. unfold solve1 in E. change (nc pb) with 1%nat in E. simpl Nat.eqb in E. cbv iota in E. rewrite EQ, EG in E.
      rewrite (proj2 (Reqb_false (exp (-30)) 0)) in E by lra. injection E as <- _. field. lra.
    + exfalso. unfold irls_step in ES. destruct (prepare pb s0) as [s1 Hm]. cbn [fst snd] in *. unfold ls_solver in ES. simpl pb_has_bounds in ES. cbv iota in ES.
      rewrite EA in ES. simpl Nat.eqb in ES. cbv iota in ES. unfold solve1 in ES. change (nc pb) with 1%nat in ES. simpl Nat.eqb in ES. cbv iota in ES. rewrite EQ in ES.
      rewrite (proj2 (Reqb_false (exp (-30)) 0)) in ES by lra.
      destruct (update_quadratic _ _ _ _) as [[g sc] h]. destruct (check_convergence _ _ _ _) as [[[q1 q2] q3] q4]. discriminate.
  - destruct (irls_step pb (cd_solver pb (fun _ => 0%N)) s0) as [s'|] eqn:ES.
    + exists s'. split; [reflexivity|]. apply (ex118_fails _ _ ES). intros d cyc E. unfold cd_solver in E. cbv zeta in E.
      apply (f_equal (fun o : option ((nat -> R) * nat) => match o with Some (d, _) => d 0%nat | None => 0 end)) in E. cbv beta iota in E. rewrite <- E. clear E.
      set (s1 := fst (prepare pb s0)) in *. set (Hm := snd (prepare pb s0)) in *. rewrite EC.
      assert (QB : 16 * eps64 < exp (-30)).
      { pose proof exp_m30 as EM. pose proof exp30 as [_ UB]. unfold eps64. apply Rmult_lt_reg_r with (exp 30); [apply exp_pos|]. rewrite EM. lra. }
      rewrite one_coordinate; try reflexivity; [|exact EA| |]; change (cd_Q (cd_args_of pb s1 Hm)) with Hm; rewrite EQ; [|exact QB | exact EP]. rewrite EG. field. lra.
    + exfalso. unfold irls_step in ES. destruct (prepare _ _) as [s1 Hm]. unfold cd_solver in ES.
      repeat (match type of ES with context [let '(_, _) := ?x in _] => destruct x end). discriminate.
Qed.
End Example118.
