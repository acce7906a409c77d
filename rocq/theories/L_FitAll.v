(** Lemmas for C70-C72. *)
From Coq Require Import String List. Import ListNotations.
From Verif Require Import Base M_Std S_Std S_Fit M_Valid M_Fit S_FitAll.
From Verif Require Import L_Link L_Dist L_Dist4 L_CD L_KKT L_Hess L_Solver L_Solver2 L_Solver3 L_Obj L_LS L_Mono L_Std L_Fit L_Score L_Gap P_Solver P_Obj P_Std P_LS.
From Verif Require Import M_Solver S_Solver.
Local Open Scope R_scope.

Lemma lin_margin u se v b0' b' : user_ok u -> convex_pair (u_fam u) (u_link u) -> (u_ic u = false -> b0' = 0) ->
  let pb := std_problem u se in let z := to_std u b0' b' in
  user_obj u (pen_scale u) (fst (user_result u v)) (snd (user_result u v))
  + / 2 * user_l2 u (pen_scale u) (fun j => b' j - snd (user_result u v) j)
  + / 2 * pred_dev u (fst (user_result u v)) (snd (user_result u v)) b0' b'
  + (rsum (nc pb) (fun k => - score_of pb (std_problem_P2 u) v k * (z k - v k)) + l1_form pb z - l1_form pb v)
  <= user_obj u (pen_scale u) b0' b'.
Proof.
  intros Hok Hc Hb0 pb z.
  pose proof (to_std_result u b0' b' Hb0) as [T0 T1]. fold z in T0, T1.
  pose proof Hok as [_ [_ [Hw [_ [HS HP]]]]].
  pose proof (smooth_gap pb (std_problem_P2 u) v z (std_ok u se Hok) (std_P2_sym u HS) Hw Hc) as A.
  rewrite (pred_dev_eq u _ _ _ _ Hok Hc).
  assert (ED : forall i, eta_of pb z i = user_eta u b0' b' i).
  { intros i. unfold pb. rewrite eta_std. unfold user_eta. rewrite T0. do 2 f_equal. apply rsum_ext. intros j _. rewrite T1. reflexivity. }
  assert (EV : forall i, eta_of pb v i = user_eta u (fst (user_result u v)) (snd (user_result u v)) i) by (intros i; apply eta_std).
  rewrite (rsum_ext (pb_n pb) _ (fun i => u_w u i * pred_weight (u_fam u) (u_y u i) (mean_at (u_link u) (user_eta u (fst (user_result u v)) (snd (user_result u v)) i))
       * (unit_deviance (u_fam u) (mean_at (u_link u) (user_eta u (fst (user_result u v)) (snd (user_result u v)) i)) (mean_at (u_link u) (user_eta u b0' b' i))
          - unit_deviance (u_fam u) (mean_at (u_link u) (user_eta u (fst (user_result u v)) (snd (user_result u v)) i)) (mean_at (u_link u) (user_eta u (fst (user_result u v)) (snd (user_result u v)) i))))) in A
    by (intros i _; rewrite ED, EV; reflexivity).
  change (pb_n pb) with (u_n u) in A.
  pose proof (obj_std u se v) as O1. pose proof (obj_std u se z) as O2. fold pb in O1, O2.
  rewrite (user_obj_ext u (pen_scale u) _ _ _ _ T0 T1) in O2.
  assert (L2 : l2_form pb (std_problem_P2 u) (fun k => z k - v k) = user_l2 u (pen_scale u) (fun j => b' j - snd (user_result u v) j)).
  { unfold pb. rewrite l2_std. unfold user_l2. apply rsum_ext. intros i _. apply rsum_ext. intros j _.
    assert (Q : forall m, snd (user_result u (fun k => z k - v k)) m = b' m - snd (user_result u v) m).
    { intros m. rewrite <- (T1 m), !result_coef. ring. }
    rewrite !Q. reflexivity. }
  rewrite L2 in A. unfold train_obj in O1, O2. lra.
Qed.

Lemma close_std u v b0' b' D : (u_ic u = false -> b0' = 0) ->
  std_close u D (fst (user_result u v)) (snd (user_result u v)) b0' b' ->
  forall k, (k < ioff (u_ic u) + u_p u)%nat -> Rabs (to_std u b0' b' k - v k) <= D.
Proof. intros Hb0 [HI HJ] k Hk. apply std_distance; auto. lia. Qed.

(** a linear form with small coefficients *)
Lemma lin_lower n (g d : nat -> R) D G : 0 <= D -> (forall k, (k < n)%nat -> Rabs (d k) <= D) ->
  rsum n (fun k => Rabs (g k)) <= G -> - (G * D) <= rsum n (fun k => g k * d k).
Proof.
  intros HD Hd HG. apply Rle_trans with (- (rsum n (fun k => Rabs (g k)) * D)).
  - apply Ropp_le_contravar. apply Rmult_le_compat_r; assumption.
  - rewrite <- rsum_scal_r, <- rsum_opp. apply rsum_le. intros k Hk.
    pose proof (Rle_abs (- (g k * d k))) as H. rewrite Rabs_Ropp, Rabs_mult in H.
    assert (Rabs (g k) * Rabs (d k) <= Rabs (g k) * D) by (apply Rmult_le_compat_l; [apply Rabs_pos|apply Hd, Hk]). lra.
Qed.

Lemma l1_form_zero u se v : user_ok u -> no_l1 u -> l1_form (std_problem u se) v = 0.
Proof.
  intros Hok H. rewrite <- l1_pen_eq by (apply (proj2 (proj2 (std_ok u se Hok)))). apply l1_pen_zero. intros j Hj. cbn.
  unfold std_P1. destruct (u_scale u); rewrite (H j Hj); ring.
Qed.

(** small gradient of the smooth objective *)
Lemma near_grad u se v G F : user_ok u -> convex_pair (u_fam u) (u_link u) -> no_l1 u ->
  rsum (ioff (u_ic u) + u_p u) (fun k => Rabs (score_of (std_problem u se) (std_problem_P2 u) v k)) <= G ->
  near_optimal u G 0 F (fst (user_result u v)) (snd (user_result u v)).
Proof.
  intros Hok Hc H1 HG. split; [apply result_no_intercept|].
  intros b0' b' D _ Hb0 HD HX. pose proof (lin_margin u se v b0' b' Hok Hc Hb0) as L. cbv zeta in L.
  rewrite !l1_form_zero in L by assumption. change (nc (std_problem u se)) with (ioff (u_ic u) + u_p u)%nat in L.
  pose proof (lin_lower (ioff (u_ic u) + u_p u) (fun k => - score_of (std_problem u se) (std_problem_P2 u) v k)
    (fun k => to_std u b0' b' k - v k) D G HD (close_std u v b0' b' D Hb0 HX)) as K.
  cbv beta in K. rewrite (rsum_ext _ (fun k => Rabs (- score_of _ _ _ _)) (fun k => Rabs (score_of (std_problem u se) (std_problem_P2 u) v k))) in K by (intros; apply Rabs_Ropp).
  specialize (K HG). lra.
Qed.

(** a silent IRLS run, any inner solver *)
Lemma irls_silent pb inner P2 c sf : pb_ok pb -> 0 <= pb_approx pb -> pb_stol pb = None ->
  irls_solver pb inner P2 c = Some (sf, false) ->
  rsum (nc pb) (entry (st_coef sf) (fun k => - score_of pb P2 (st_coef sf) k) (pb_P1 pb) (pb_ic pb) (pb_lb pb) (pb_ub pb)) < pb_gtol pb.
Proof.
  intros Pok HC Hst ES.
  destruct (C27_iteration_accounting _ _ _ _ _ _ ES) as [n [hist [[H0 Hs] [Hn [_ [_ [_ [_ [HW _]]]]]]]]].
  assert (Rc : reach pb inner P2 c sf) by (rewrite <- Hn; eapply hist_reach; eauto).
  pose proof (inv_coh _ _ _ (reach_inv _ _ _ _ _ Pok HC Rc)) as C.
  destruct (proj1 HW eq_refl) as [T|[t [Et _]]]; [|congruence].
  rewrite norm_sum_full in T.
  rewrite (rsum_ext _ _ (entry (st_coef sf) (fun k => - score_of pb P2 (st_coef sf) k) (pb_P1 pb) (pb_ic pb) (pb_lb pb) (pb_ub pb))) in T; [exact T|].
  intros k Hk. unfold entry. destruct (Nat.ltb_spec k (ioff (pb_ic pb))) as [L|L].
  + rewrite (coh_score _ _ _ C) by lia. reflexivity.
  + rewrite (coh_score _ _ _ C) by exact Hk. reflexivity.
Qed.

(** a small minimum-norm subgradient at a feasible point *)
Lemma near_subgrad u se v G : user_ok u -> convex_pair (u_fam u) (u_link u) -> in_box (std_problem u se) v ->
  (let pb := std_problem u se in
   rsum (nc pb) (entry v (fun k => - score_of pb (std_problem_P2 u) v k) (pb_P1 pb) (pb_ic pb) (pb_lb pb) (pb_ub pb)) <= G) ->
  user_feasible u (snd (user_result u v)) /\
  near_optimal u G 0 (user_feasible u) (fst (user_result u v)) (snd (user_result u v)).
Proof.
  intros Hok Hc B T. cbv zeta in T. split; [apply (box_std u se); exact B|]. split; [apply result_no_intercept|].
  intros b0' b' D Fb Hb0 HD HX. pose proof (lin_margin u se v b0' b' Hok Hc Hb0) as L. cbv zeta in L.
  set (pb := std_problem u se) in *. set (z := to_std u b0' b') in *.
  assert (Bz : in_box pb z).
  { apply box_std. intros j Hj. unfold z. rewrite (proj2 (to_std_result u b0' b' Hb0)). apply Fb, Hj. }
  pose proof (close_std u v b0' b' D Hb0 HX) as Dz. fold z in Dz.
  set (g := fun k => - score_of pb (std_problem_P2 u) v k) in *.
  assert (K : - (rsum (nc pb) (entry v g (pb_P1 pb) (pb_ic pb) (pb_lb pb) (pb_ub pb)) * D)
    <= rsum (nc pb) (fun i => g i * (z i - v i)) + l1_form pb z - l1_form pb v).
  { unfold l1_form. rewrite <- rsum_scal_r, <- rsum_opp, <- rsum_plus, <- rsum_minus. apply rsum_le. intros i Hi.
    eapply Rle_trans; [|eapply Rle_trans; [apply (entry_bound v g (pb_P1 pb) (pb_ic pb) (pb_lb pb) (pb_ub pb) i (z i)); auto|]].
    - pose proof (entry_nonneg v g (pb_P1 pb) (pb_ic pb) (pb_lb pb) (pb_ub pb) i). specialize (Dz i Hi).
      apply Ropp_le_contravar. apply Rmult_le_compat_l; assumption.
    - apply (proj2 (proj2 (std_ok u se Hok))).
    - lra. }
  set (en := rsum (nc pb) (entry _ _ _ _ _ _)) in *.
  assert (en * D <= G * D) by (apply Rmult_le_compat_r; assumption).
  change (rsum (nc pb) (fun k => - score_of pb (std_problem_P2 u) v k * (z k - v k))) with (rsum (nc pb) (fun i => g i * (z i - v i))) in L.
  lra.
Qed.

(** the gradient the scipy solvers see *)
Lemma unclipped_regular u se v : convex_pair (u_fam u) (u_link u) ->
  unclipped u (fst (user_result u v)) (snd (user_result u v)) ->
  forall i, (i < u_n u)%nat -> regular (u_fam u) (u_link u) (inverse1 (u_link u)) (eta_of (std_problem u se) v i).
Proof.
  intros Hc Hu i Hi. destruct (convex_pair_regular _ _ (eta_of (std_problem u se) v i) Hc) as [A [B C]].
  split; [exact A|]. split; [exact B|].
  destruct (u_link u) eqn:El; try (apply filter_forall; reflexivity).
  2:{ unfold convex_pair in Hc. destruct (u_fam u); tauto. }
  specialize (Hu El i Hi). rewrite <- (eta_std u se) in Hu. set (eta := eta_of _ _ _) in *.
  assert (CT : continuous (fun e => / (1 + exp (- e))) eta).
  { apply (continuity_pt_filterlim (fun e => / (1 + exp (- e)))). apply derivable_continuous_pt.
    assert (D : is_derive (fun e => / (1 + exp (- e))) eta (exp (- eta) / (1 + exp (- eta)) ^ 2)).
    { auto_derive. - pose proof (exp_pos (- eta)). lra. - pose proof (exp_pos (- eta)). field. lra. }
    exists (exp (- eta) / (1 + exp (- eta)) ^ 2). apply is_derive_Reals. exact D. }
  assert (LO : locally eta (fun e => eps50 < / (1 + exp (- e)) < 1 - eps50)).
  { apply (CT (fun x => eps50 < x < 1 - eps50)). apply (locally_interval _ _ eps50 (1 - eps50)); simpl; try (cbn in Hu; lra); auto. }
  revert LO. apply filter_imp. intros e He.
  unfold inverse1. apply clip_id. unfold raw_inverse, expit. unfold Rdiv. lra.
Qed.
Lemma scipy_gradient u se v k : user_ok u -> convex_pair (u_fam u) (u_link u) ->
  unclipped u (fst (user_result u v)) (snd (user_result u v)) -> (k < ioff (u_ic u) + u_p u)%nat ->
  snd (get_obj_and_derivative (std_problem u se) (std_problem_P2 u) v) k = - score_of (std_problem u se) (std_problem_P2 u) v k.
Proof.
  intros Hok Hc Hu Hk. pose proof Hok as [_ [_ [_ [_ [HS _]]]]].
  rewrite (obj_grad_eq (std_problem u se) (std_problem_P2 u) v k (std_ok u se Hok) (std_P2_sym u HS) Hk).
  - apply grad_score. intros i Hi. destruct (convex_pair_regular _ _ (eta_of (std_problem u se) v i) Hc) as [_ [_ L]]. exact (locally_at _ _ _ L).
  - apply unclipped_regular; assumption.
Qed.

Lemma box_free u se v : no_bounds u -> in_box (std_problem u se) v.
Proof.
  intros H. apply box_std. intros j Hj. destruct (H j Hj) as [A B]. rewrite A, B. split; discriminate.
Qed.
Lemma near_weaken u e s (F F' : (nat -> R) -> Prop) b0 b : (forall b', F' b' -> F b') -> near_optimal u e s F b0 b -> near_optimal u e s F' b0 b.
Proof. intros H [A B]. split; [exact A|]. intros b0' b' D Fb. apply B, H, Fb. Qed.

Lemma rsum_const n c : rsum n (fun _ => c) = c * INR n.
Proof. induction n as [|n IH]; [cbn; ring|]. rewrite S_INR. cbn [rsum]. rewrite IH. ring. Qed.
(** values of a row of A_ineq in front of which a zero column was put *)
Lemma trust_row u q v r :
  rsum (ioff (u_ic u) + u_p u) (fun k => iq_A (trust_ineq (u_ic u) (std_ineq q (u_stds u))) r k * v k)
  = rsum (u_p u) (fun j => iq_A q r j * snd (user_result u v) j).
Proof.
  rewrite (rsum_ext (u_p u) _ (fun j => iq_A q r j * one_over (u_stds u j) * v (ioff (u_ic u) + j)%nat)) by (intros; rewrite result_coef; ring).
  unfold trust_ineq. destruct (u_ic u); cbn [ioff Nat.add].
  - rewrite rsum_S_l. cbn. ring.
  - reflexivity.
Qed.

Lemma near_kkt u se v q tol sl : user_ok u -> convex_pair (u_fam u) (u_link u) -> no_l1 u ->
  approx_kkt (ioff (u_ic u) + u_p u) (fun k => - score_of (std_problem u se) (std_problem_P2 u) v k) v
    (trust_ineq (u_ic u) (std_ineq q (u_stds u))) tol sl ->
  (forall r, (r < iq_m q)%nat -> rsum (u_p u) (fun j => iq_A q r j * snd (user_result u v) j) <= iq_b q r + tol) /\
  near_optimal u (tol * INR (ioff (u_ic u) + u_p u)) sl (user_ineq u q) (fst (user_result u v)) (snd (user_result u v)).
Proof.
  intros Hok Hc H1 [HF [lam [L0 [LG LS]]]].
  set (q' := trust_ineq (u_ic u) (std_ineq q (u_stds u))) in *.
  assert (M : iq_m q' = iq_m q) by (unfold q', trust_ineq; destruct (u_ic u); reflexivity).
  assert (BB : iq_b q' = iq_b q) by (unfold q', trust_ineq; destruct (u_ic u); reflexivity).
  rewrite M, BB in *.
  split. { intros r Hr. rewrite <- trust_row. apply HF, Hr. }
  split; [apply result_no_intercept|].
  intros b0' b' D Fb Hb0 HD HX. pose proof (lin_margin u se v b0' b' Hok Hc Hb0) as L. cbv zeta in L.
  rewrite !l1_form_zero in L by assumption. change (nc (std_problem u se)) with (ioff (u_ic u) + u_p u)%nat in L.
  set (n := (ioff (u_ic u) + u_p u)%nat) in *. set (z := to_std u b0' b') in *.
  pose proof (close_std u v b0' b' D Hb0 HX) as Dz. fold z in Dz. change (ioff (u_ic u) + u_p u)%nat with n in Dz.
  set (g := fun k => - score_of (std_problem u se) (std_problem_P2 u) v k) in *.
  change (rsum n (fun k => - score_of (std_problem u se) (std_problem_P2 u) v k * (z k - v k))) with (rsum n (fun k => g k * (z k - v k))) in L.
  assert (K : - (tol * INR n * D) <= rsum n (fun k => (g k + rsum (iq_m q) (fun r => lam r * iq_A q' r k)) * (z k - v k))).
  { apply lin_lower; [exact HD|exact Dz|].
    eapply Rle_trans; [apply (rsum_le n _ (fun _ => tol)); exact LG|]. rewrite rsum_const. lra. }
  assert (E : rsum n (fun k => (g k + rsum (iq_m q) (fun r => lam r * iq_A q' r k)) * (z k - v k))
     = rsum n (fun k => g k * (z k - v k))
       + rsum (iq_m q) (fun r => lam r * (rsum n (fun k => iq_A q' r k * z k) - rsum n (fun k => iq_A q' r k * v k)))).
  { rewrite (rsum_ext n _ (fun k => g k * (z k - v k) + rsum (iq_m q) (fun r => lam r * iq_A q' r k * (z k - v k)))).
    2:{ intros k _. rewrite Rmult_plus_distr_r. f_equal. rewrite <- rsum_scal_r. reflexivity. }
    rewrite rsum_plus. f_equal. rewrite rsum_swap. apply rsum_ext. intros r _. rewrite <- rsum_minus, <- rsum_scal.
    apply rsum_ext. intros; ring. }
  assert (U : rsum (iq_m q) (fun r => lam r * (rsum n (fun k => iq_A q' r k * z k) - rsum n (fun k => iq_A q' r k * v k))) <= sl).
  { eapply Rle_trans; [|exact LS]. apply rsum_le. intros r Hr. apply Rmult_le_compat_l; [apply L0, Hr|].
    apply Rplus_le_compat_r. unfold n, q'. rewrite trust_row.
    rewrite (rsum_ext (u_p u) _ (fun j => iq_A q r j * b' j)) by (intros j _; unfold z; rewrite (proj2 (to_std_result u b0' b' Hb0)); reflexivity).
    apply Fb, Hr. }
  lra.
Qed.


(** the score of the closed form is zero *)
Lemma closed_score pb P2 c : pb_fam pb = NormalF -> pb_link pb = IdentityL -> p2_sym (pb_p pb) P2 -> normal_eqs pb P2 c ->
  forall k, (k < nc pb)%nat -> score_of pb P2 c k = 0.
Proof.
  intros Ef El HS N k Hk. specialize (N k Hk). unfold score_of.
  assert (A : rsum (pb_n pb) (fun i => gradient_row (pb_fam pb) (pb_link pb) (pb_y pb i) (pb_w pb i) (eta_of pb c i) (mean_of pb c i) * xt pb i k)
    = rsum (pb_n pb) (fun i => pb_w pb i * (pb_y pb i - pb_off pb i) * xt pb i k) - rsum (nc pb) (fun l => rsum (pb_n pb) (fun i => pb_w pb i * xt pb i k * xt pb i l) * c l)).
  { rewrite (rsum_ext (nc pb) _ (fun l => rsum (pb_n pb) (fun i => pb_w pb i * xt pb i k * (xt pb i l * c l)))).
    2:{ intros l _. rewrite <- rsum_scal_r. apply rsum_ext. intros; ring. }
    rewrite rsum_swap, <- rsum_minus. apply rsum_ext. intros i _. unfold mean_of. rewrite Ef, El.
    rewrite residual_eq by exact I. cbn [residual mean_at]. unfold eta_of. rewrite rsum_scal. ring. }
  rewrite A, <- N.
  rewrite (rsum_ext (nc pb) (fun l => exact_hessian pb (pb_w pb) P2 k l * c l)
    (fun l => rsum (pb_n pb) (fun i => pb_w pb i * xt pb i k * xt pb i l) * c l + c l * p2_full (pb_ic pb) P2 l k)).
  - rewrite rsum_plus. ring.
  - intros l Hl. unfold exact_hessian. rewrite (p2_full_sym pb P2 k l HS Hk Hl). ring.
Qed.
(** the closed form *)
Lemma near_closed u se l F : user_ok u -> normal_identity u = true -> no_l1 u ->
  (forall pos, solve_sound (lib_solve l pos)) -> lstsq_sound (lib_lstsq l) ->
  let v := tikhonov_solver (std_problem u se) (std_problem_P2 u) (lib_solve l) (lib_lstsq l) in
  near_optimal u 0 0 F (fst (user_result u v)) (snd (user_result u v)).
Proof.
  intros Hok Hn H1 Hs Hl v.
  assert (FL : u_fam u = NormalF /\ u_link u = IdentityL).
  { unfold normal_identity in Hn. destruct (u_fam u), (u_link u); try discriminate; auto. }
  pose proof Hok as [_ [_ [Hw [_ [HS HP]]]]].
  apply (near_grad u se v 0 F Hok); [rewrite (proj1 FL), (proj2 FL); exact I|exact H1|].
  right. apply rsum_zero. intros k Hk.
  rewrite (closed_score (std_problem u se) (std_problem_P2 u)); [apply Rabs_R0|apply FL|apply FL|apply std_P2_sym, HS| |exact Hk].
  apply tikhonov_normal; auto. apply std_P2_sym, HS. apply std_P2_psd, HP.
Qed.

(** a run of the monotonic solver that ends silently *)
Lemma mono_silent pb inner q P2b ls lm lf c mf w2 : pb_ok pb -> 0 <= pb_approx pb -> pb_stol pb = None ->
  monotonic_irls_solver pb inner q P2b ls lm lf c = Some (mf, false, w2) ->
  exists P2', let x := st_coef (ms_st mf) in
  rsum (nc pb) (entry x (fun k => - score_of pb P2' x k) (pb_P1 pb) (pb_ic pb) (pb_lb pb) (pb_ub pb)) < pb_gtol pb.
Proof.
  intros Hok HC Hst E. unfold monotonic_irls_solver in E.
  destruct (existsb _ _); [discriminate|].
  destruct (update_constraint_penalty _ _ _ _ _ _) as [[P2 base] ch] eqn:EP.
  destruct (mono_loop _ _ _ _ _ _ _ _) as [m|] eqn:EL; [|discriminate]. injection E as -> Hc0 _. apply negb_false_iff in Hc0.
  destruct (mono_loop_reach pb inner q P2b lf lm ls c _ _ _ (mreach_init _ _ _ _ _ _ _ _ _ _ _ EP) EL) as [Rm H].
  destruct H as [m0 [R0 S0]]; auto.
  { cbn [ms_st]. unfold init_state. destruct (eta_mu_objective _ _ _ _ _ _) as [[[a b] d] e].
    destruct (update_quadratic _ _ _ _) as [[a' b'] d']. destruct (check_convergence _ _ _ _) as [[[q1 q2] q3] q4]. reflexivity. }
  pose proof (mono_step_facts _ _ _ _ _ _ _ _ S0) as F.
  destruct (proj1 (mf_conv _ _ _ _ _ _ _ F) Hc0) as [[T|[t [Et _]]] _]; [|congruence].
  rewrite (mf_norm _ _ _ _ _ _ _ F) in T.
  pose proof (inv_coh _ _ _ (minv_inv _ _ _ _ (mreach_inv _ _ _ _ _ _ _ _ _ Hok HC Rm))) as C.
  exists (st_P2 (ms_st mf)). cbv zeta. rewrite norm_sum_full in T.
  rewrite (rsum_ext _ _ (entry (st_coef (ms_st mf)) (fun k => - st_score (ms_st mf) k) (pb_P1 pb) (pb_ic pb) (pb_lb pb) (pb_ub pb))); [exact T|].
  intros k Hk. unfold entry. destruct (Nat.ltb_spec k (ioff (pb_ic pb))) as [L|L].
  + rewrite (coh_score _ _ _ C) by lia. reflexivity.
  + rewrite (coh_score _ _ _ C) by exact Hk. reflexivity.
Qed.

Lemma score_0_P2 pb P2 P2' c : pb_ic pb = true -> score_of pb P2 c 0%nat = score_of pb P2' c 0%nat.
Proof.
  intros H. unfold score_of. rewrite (rsum_ext (nc pb) (fun l => c l * p2_full (pb_ic pb) P2 l 0) (fun l => c l * p2_full (pb_ic pb) P2' l 0)); [reflexivity|]. intros l _. unfold p2_full. rewrite H. destruct l; reflexivity.
Qed.
Lemma entry_0 pb v g : pb_ic pb = true -> Rabs (g 0%nat) <= rsum (nc pb) (entry v g (pb_P1 pb) (pb_ic pb) (pb_lb pb) (pb_ub pb)).
Proof.
  intros H. replace (Rabs (g 0%nat)) with (entry v g (pb_P1 pb) (pb_ic pb) (pb_lb pb) (pb_ub pb) 0%nat).
  - apply (rsum_ge_one (nc pb) (entry v g (pb_P1 pb) (pb_ic pb) (pb_lb pb) (pb_ub pb)) 0%nat); [intros; apply entry_nonneg|]. unfold nc. rewrite H. cbn. lia.
  - unfold entry. rewrite H. reflexivity.
Qed.

Lemma irls_at_start pb inner P2 v : pb_ok pb -> 0 <= pb_approx pb ->
  rsum (nc pb) (entry v (fun k => - score_of pb P2 v k) (pb_P1 pb) (pb_ic pb) (pb_lb pb) (pb_ub pb)) < pb_gtol pb ->
  irls_solver pb inner P2 v = Some (init_state pb P2 false v, false).
Proof.
  intros Pok HC T. set (s0 := init_state pb P2 false v).
  assert (Ec : st_coef s0 = v).
  { unfold s0, init_state. destruct (eta_mu_objective _ _ _ _ _ _) as [[[? ?] ?] ?].
    destruct (update_quadratic _ _ _ _) as [[? ?] ?]. destruct (check_convergence _ _ _ _) as [[[? ?] ?] ?]. reflexivity. }
  assert (Rc : reach pb inner P2 v s0) by constructor.
  pose proof (inv_coh _ _ _ (reach_inv _ _ _ _ _ Pok HC Rc)) as C.
  assert (ST : stop_test pb s0).
  { left. rewrite norm_sum_full. eapply Rle_lt_trans; [|exact T]. apply Req_le. apply rsum_ext.
    intros k Hk. unfold entry. rewrite Ec. destruct (Nat.ltb_spec k (ioff (pb_ic pb))) as [L|L].
    + rewrite (coh_score _ _ _ C) by lia. rewrite Ec. reflexivity.
    + rewrite (coh_score _ _ _ C) by exact Hk. rewrite Ec. reflexivity. }
  assert (CV : st_conv s0 = true).
  { apply (reach_conv _ _ _ _ _ Rc). unfold conv_test, stop_test in *.
    pose proof (init_conv pb P2 v) as EC. cbv zeta in EC. fold s0 in EC. unfold check_convergence in EC.
    destruct (norm_min_subgrad _ _ _ _ _ _ _) as [nm mx]. injection EC as _ -> _ _. exact ST. }
  unfold irls_solver. fold s0. cbn [irls_loop]. rewrite CV, andb_false_r. cbn [negb]. rewrite CV. reflexivity.
Qed.
