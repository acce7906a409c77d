(** Theorems C53-C55: gradient and convexity of the training objective; near-optimality of a
    converged fit. *)
From Verif Require Import M_Solver S_Solver L_Link L_Dist L_Dist2 L_Dist3 L_Dist4 L_CD L_KKT L_Hess L_Solver L_Solver2 L_Solver3 L_Obj P_Solver.
From Verif Require Import M_Solver S_Solver.
Local Open Scope R_scope.

(** C54: the pair handed to L-BFGS and trust-constr is an objective (half the deviance plus half
    the L2 form without the intercept) and its derivative in every direction. *)
Theorem C54_quasi_newton_gradient : forall pb P2 c v, pb_ok pb -> p2_sym (pb_p pb) P2 ->
  (forall i, (i < pb_n pb)%nat -> dev_ok (pb_fam pb) (pb_y pb i)) ->
  (forall i, (i < pb_n pb)%nat -> regular (pb_fam pb) (pb_link pb) (inverse1 (pb_link pb)) (eta_of pb c i)) ->
  (forall c', fst (get_obj_and_derivative pb P2 c') =
     / 2 * deviance (pb_fam pb) (map (fun i => mkobs (pb_y pb i) (pb_w pb i) (inverse1 (pb_link pb) (eta_of pb c' i))) (seq 0 (pb_n pb)))
     + / 2 * l2_form pb P2 c') /\
  is_derive (fun t => fst (get_obj_and_derivative pb P2 (fun k => c k + t * v k))) 0
    (rsum (nc pb) (fun k => snd (get_obj_and_derivative pb P2 c) k * v k)).
Proof.
  intros pb P2 c v Hok HS Hd Hr. split; [intros c'; apply obj_fun_eq|].
  apply (dR_ext (fun t => smooth_obj_with pb (inverse1 (pb_link pb)) P2 (vadd c (vscale t v)))).
  { intros t. symmetry. apply obj_fun_eq. }
  eapply dR_eq; [apply smooth_derive; auto|].
  apply rsum_ext. intros k Hk. rewrite obj_grad_eq by auto. reflexivity.
Qed.
Print Assumptions C54_quasi_newton_gradient.

(** The score kept by the IRLS solvers is minus the gradient of the smooth training objective. *)
Theorem C54_score_is_gradient : forall pb inner P2 c s v, pb_ok pb -> 0 <= pb_approx pb -> p2_sym (pb_p pb) P2 ->
  (forall i, (i < pb_n pb)%nat -> dev_ok (pb_fam pb) (pb_y pb i)) ->
  reach pb inner P2 c s ->
  (forall i, (i < pb_n pb)%nat -> regular (pb_fam pb) (pb_link pb) (search_mean (pb_fam pb) (pb_link pb)) (eta_of pb (st_coef s) i)) ->
  is_derive (fun t => smooth_obj pb P2 (fun k => st_coef s k + t * v k)) 0
    (rsum (nc pb) (fun k => - st_score s k * v k)).
Proof.
  intros pb inner P2 c s v Hok HC HS Hd R Hr.
  pose proof (inv_coh _ _ _ (reach_inv _ _ _ _ _ Hok HC R)) as C.
  eapply dR_eq; [exact (smooth_derive pb (search_mean (pb_fam pb) (pb_link pb)) P2 (st_coef s) v Hok HS Hd Hr)|].
  apply rsum_ext. intros k Hk. rewrite (coh_score _ _ _ C) by exact Hk. f_equal. apply grad_score.
  intros i Hi. destruct (Hr i Hi) as [_ [_ L]]. apply (locally_at _ _ _ L).
Qed.
Print Assumptions C54_score_is_gradient.

Example C54_nonvacuous : forall c i, regular PoissonF LogL (inverse1 LogL) (eta_of (ex_pb 0) c i) /\ dev_ok PoissonF 2.
Proof. intros c i. split; [|intros []]. split; [exact I|]. split; [apply exp_pos|]. apply filter_forall. reflexivity. Qed.

(** C53 *)
Theorem C53_objective_convex : forall pb P2 a b t, pb_ok pb -> p2_sym (pb_p pb) P2 -> p2_psd (pb_p pb) P2 ->
  (forall i, (i < pb_n pb)%nat -> 0 <= pb_w pb i) -> convex_pair (pb_fam pb) (pb_link pb) -> 0 <= t <= 1 ->
  train_obj pb P2 (fun k => t * a k + (1 - t) * b k) <= t * train_obj pb P2 a + (1 - t) * train_obj pb P2 b.
Proof.
  intros pb P2 a b t Hok HS HP Hw Hc Ht. set (m := fun k => t * a k + (1 - t) * b k).
  pose proof (smooth_convex pb P2 m a Hok HS Hw Hc) as A.
  pose proof (smooth_convex pb P2 m b Hok HS Hw Hc) as B.
  pose proof (l2_form_nonneg pb P2 (fun k => a k - m k) HP). pose proof (l2_form_nonneg pb P2 (fun k => b k - m k) HP).
  assert (Z : t * rsum (nc pb) (fun k => - score_of pb P2 m k * (a k - m k)) + (1 - t) * rsum (nc pb) (fun k => - score_of pb P2 m k * (b k - m k)) = 0).
  { rewrite <- !rsum_scal, <- rsum_plus. apply rsum_zero. intros k _. unfold m. ring. }
  assert (L : l1_form pb m <= t * l1_form pb a + (1 - t) * l1_form pb b).
  { unfold l1_form. rewrite <- !rsum_scal, <- rsum_plus. apply rsum_le. intros k _.
    assert (0 <= pen_of (pb_ic pb) (pb_P1 pb) k).
    { unfold pen_of. destruct (pb_ic pb), k; try lra; apply Hok. }
    assert (Rabs (m k) <= t * Rabs (a k) + (1 - t) * Rabs (b k)).
    { unfold m. eapply Rle_trans; [apply Rabs_triang|]. rewrite !Rabs_mult, (Rabs_right t), (Rabs_right (1 - t)) by lra. lra. }
    nra. }
  unfold train_obj. nra.
Qed.
Print Assumptions C53_objective_convex.

(** Every stationary point is a global minimum over the box, by a margin of half the L2 form. *)
Theorem C53_stationary_is_global : forall pb P2 c v, pb_ok pb -> p2_sym (pb_p pb) P2 ->
  (forall i, (i < pb_n pb)%nat -> 0 <= pb_w pb i) -> convex_pair (pb_fam pb) (pb_link pb) ->
  in_box pb c -> in_box pb v ->
  (forall k, (k < nc pb)%nat ->
     coord_stationary (- score_of pb P2 c k) (pen_of (pb_ic pb) (pb_P1 pb) k)
       (bnd_of (pb_ic pb) (pb_lb pb) k) (bnd_of (pb_ic pb) (pb_ub pb) k) (c k)) ->
  train_obj pb P2 c + / 2 * l2_form pb P2 (fun k => v k - c k) <= train_obj pb P2 v.
Proof.
  intros pb P2 c v Hok HS Hw Hc Bc Bv Hst.
  pose proof (smooth_convex pb P2 c v Hok HS Hw Hc) as A.
  assert (B : 0 <= rsum (nc pb) (fun k => - score_of pb P2 c k * (v k - c k)) + (l1_form pb v - l1_form pb c)).
  { unfold l1_form. rewrite <- rsum_minus, <- rsum_plus. apply rsum_nonneg. intros k Hk.
    pose proof (Hst k Hk (v k) (Bv k Hk)). lra. }
  unfold train_obj. lra.
Qed.
Print Assumptions C53_stationary_is_global.

(** With a positive definite P2 the coefficients of a stationary point are the only optimum. *)
Theorem C53_unique_coefficients : forall pb P2 c v, pb_ok pb -> p2_sym (pb_p pb) P2 ->
  (forall u, rsum (pb_p pb) (fun i => rsum (pb_p pb) (fun j => u i * p2_entry P2 i j * u j)) <= 0 ->
     forall i, (i < pb_p pb)%nat -> u i = 0) ->
  (forall i, (i < pb_n pb)%nat -> 0 <= pb_w pb i) -> convex_pair (pb_fam pb) (pb_link pb) ->
  in_box pb c -> in_box pb v ->
  (forall k, (k < nc pb)%nat ->
     coord_stationary (- score_of pb P2 c k) (pen_of (pb_ic pb) (pb_P1 pb) k)
       (bnd_of (pb_ic pb) (pb_lb pb) k) (bnd_of (pb_ic pb) (pb_ub pb) k) (c k)) ->
  train_obj pb P2 v <= train_obj pb P2 c ->
  forall k, (ioff (pb_ic pb) <= k < nc pb)%nat -> v k = c k.
Proof.
  intros pb P2 c v Hok HS HPD Hw Hc Bc Bv Hst Hv k Hk.
  pose proof (C53_stationary_is_global pb P2 c v Hok HS Hw Hc Bc Bv Hst) as G.
  assert (L : l2_form pb P2 (fun k => v k - c k) <= 0) by lra.
  rewrite l2_form_p in L. unfold nc in Hk.
  pose proof (HPD (fun i => v (ioff (pb_ic pb) + i)%nat - c (ioff (pb_ic pb) + i)%nat) L (k - ioff (pb_ic pb))%nat ltac:(lia)) as Q.
  cbv beta in Q. replace (ioff (pb_ic pb) + (k - ioff (pb_ic pb)))%nat with k in Q by lia. lra.
Qed.
Print Assumptions C53_unique_coefficients.

Example C53_nonvacuous : convex_pair PoissonF LogL /\ convex_pair (TweedieF (3/2)) LogL /\ convex_pair BinomialF LogitL /\ convex_pair (NegBinF 2) LogL.
Proof. unfold convex_pair. lra. Qed.

(** C55: a fit that irls returns without a warning (gradient test only) is optimal up to
    gradient_tol times the distance to any feasible competitor. *)
Theorem C55_converged_fit_near_optimal : forall pb inner P2 c sf, pb_ok pb -> 0 <= pb_approx pb ->
  p2_sym (pb_p pb) P2 -> p2_psd (pb_p pb) P2 ->
  (forall i, (i < pb_n pb)%nat -> 0 <= pb_w pb i) -> convex_pair (pb_fam pb) (pb_link pb) ->
  pb_stol pb = None -> irls_solver pb inner P2 c = Some (sf, false) -> in_box pb (st_coef sf) ->
  forall v D, 0 <= D -> in_box pb v -> (forall k, (k < nc pb)%nat -> Rabs (v k - st_coef sf k) <= D) ->
  train_obj pb P2 (st_coef sf) <= train_obj pb P2 v + pb_gtol pb * D.
Proof.
  intros pb inner P2 c sf Hok HC HS HP Hw Hc Hst E Bs v D D0 Bv HD.
  destruct (C27_iteration_accounting _ _ _ _ _ _ E) as [n [hist [[H0 Hs] [Hn [_ [_ [_ [_ [HW _]]]]]]]]].
  assert (R : reach pb inner P2 c sf) by (rewrite <- Hn; eapply hist_reach; eauto).
  pose proof (inv_coh _ _ _ (reach_inv _ _ _ _ _ Hok HC R)) as C.
  destruct (proj1 HW eq_refl) as [T|[t [Et _]]]; [|congruence].
  set (nm := fst _) in T.
  assert (SUP : supports (nc pb) (smooth_obj pb P2) (st_coef sf) (fun k => - st_score sf k)).
  { intros u. apply Rle_ge. pose proof (smooth_convex pb P2 (st_coef sf) u Hok HS Hw Hc) as A.
    pose proof (l2_form_nonneg pb P2 (fun k => u k - st_coef sf k) HP).
    rewrite (rsum_ext (nc pb) (fun i => - st_score sf i * (u i - st_coef sf i)) (fun k => - score_of pb P2 (st_coef sf) k * (u k - st_coef sf k))).
    - lra.
    - intros k Hk. rewrite (coh_score _ _ _ C) by exact Hk. reflexivity. }
  pose proof (subopt (nc pb) (smooth_obj pb P2) (st_coef sf) (fun k => - st_score sf k) (pb_P1 pb) (pb_ic pb) (pb_lb pb) (pb_ub pb) v D
     (proj2 (proj2 Hok)) Bs Bv SUP HD) as S. fold nm in S.
  unfold train_obj, l1_form.
  assert (nm * D <= pb_gtol pb * D) by (apply Rmult_le_compat_r; lra). lra.
Qed.
Print Assumptions C55_converged_fit_near_optimal.

(** A fit that irls-cd starts at a feasible point and returns without a warning is near-optimal
    over the whole box: feasibility of the result is C29. *)
Theorem C55_irls_cd_near_optimal : forall pb seed P2 c sf, pb_ok pb -> 0 <= pb_approx pb -> seeds_ok seed ->
  p2_sym (pb_p pb) P2 -> p2_psd (pb_p pb) P2 ->
  (forall i, (i < pb_n pb)%nat -> 0 <= pb_w pb i) -> convex_pair (pb_fam pb) (pb_link pb) ->
  pb_stol pb = None -> in_box pb c -> irls_solver pb (cd_solver pb seed) P2 c = Some (sf, false) ->
  in_box pb (st_coef sf) /\
  forall v D, 0 <= D -> in_box pb v -> (forall k, (k < nc pb)%nat -> Rabs (v k - st_coef sf k) <= D) ->
  train_obj pb P2 (st_coef sf) <= train_obj pb P2 v + pb_gtol pb * D.
Proof.
  intros pb seed P2 c sf Hok HC Hs HS HP Hw Hc Hst Bc E.
  assert (B : in_box pb (st_coef sf)).
  { eapply C29_result_in_box; eauto. }
  split; [exact B|]. eapply C55_converged_fit_near_optimal; eauto.
Qed.
Print Assumptions C55_irls_cd_near_optimal.

(** A lasso-penalised Poisson problem whose start is accepted at once: the hypotheses hold. *)
Definition ex_pb55 : problem :=
  mkPb 2 1 (fun i _ => INR i) (fun _ => 1) (fun _ => / 2) (fun _ => 0) true
       PoissonF LogL (fun _ => 1) 0 1000 (1 / 10000) None 0 None false
       (fun _ => Some (-1)) (fun _ => Some 1) true 1000000 (1 / 1000000000).
Example C55_nonvacuous : exists sf, irls_solver ex_pb55 (cd_solver ex_pb55 ex_seed) (P2diag (fun _ => 1)) (fun _ => 0) = Some (sf, false)
  /\ pb_ok ex_pb55 /\ in_box ex_pb55 (fun _ => 0).
Proof.
  assert (Hok : pb_ok ex_pb55) by (split; [exact I|split; intros; simpl; lra]).
  destruct (irls_solver ex_pb55 (cd_solver ex_pb55 ex_seed) (P2diag (fun _ => 1)) (fun _ => 0)) as [[sf w]|] eqn:E;
    [|exfalso; eapply C27_cd_always_returns; eauto].
  destruct (C27_iteration_accounting _ _ _ _ _ _ E) as [n [hist [[H0 Hs] [Hn [_ [Hm [_ [_ [HW _]]]]]]]]].
  simpl in Hm. replace n with 0%nat in Hn by lia. rewrite H0 in Hn.
  assert (R : reach ex_pb55 (cd_solver ex_pb55 ex_seed) (P2diag (fun _ => 1)) (fun _ => 0) sf) by (rewrite <- Hn; constructor).
  pose proof (inv_coh _ _ _ (reach_inv _ _ _ _ _ Hok (Rle_refl 0) R)) as C.
  exists sf. split; [|split; [exact Hok|]].
  - rewrite (proj2 HW); [reflexivity|]. left.
    assert (Ec : st_coef sf = (fun _ => 0)).
    { rewrite <- Hn. unfold init_state. destruct (eta_mu_objective _ _ _ _ _ _) as [[[a b] d] e].
      destruct (update_quadratic _ _ _ _) as [[a' b'] d']. destruct (check_convergence _ _ _ _) as [[[q1 q2] q3] q4]. reflexivity. }
    assert (G : forall k, (k < 2)%nat -> st_score sf k = 0).
    { intros k Hk. rewrite (coh_score _ _ _ C) by (unfold nc; simpl; exact Hk). rewrite Ec. unfold score_of, mean_of, eta_of, nc, xt. simpl.
      unfold inverse1, p2_full. simpl. replace (0 + 1 * 0 + 0 * 0 + 0) with 0 by ring. replace (0 + 1 * 0 + 1 * 0 + 0) with 0 by ring.
      rewrite exp_0. unfold gradient_row. simpl. destruct k as [|[|]]; [| |lia]; simpl; ring. }
    rewrite Ec. change (seq 0 (nc ex_pb55)) with [0%nat; 1%nat]. unfold norm_min_subgrad. simpl. rewrite (G 1%nat) by lia. rewrite (G 0%nat) by lia.
    unfold subgrad_term. rewrite (proj2 (Reqb_true 0 0)) by reflexivity. rewrite !Ropp_0, !Rabs_R0.
    assert (F : fmax (0 - 1) 0 = 0) by (unfold fmax; destruct (Rltb _ _) eqn:Q; [apply Rltb_true in Q; lra|reflexivity] || (unfold fmax; repeat destruct (Rltb _ _) eqn:Q; try apply Rltb_true in Q; lra)).
    rewrite F, Rmult_0_r. rewrite !(proj2 (Rltb_false 0 0)) by lra. rewrite !andb_false_r. rewrite (proj2 (Rltb_false 0 0)) by lra. rewrite !andb_false_r, Rabs_R0. lra.
  - intros k Hk. unfold within, bnd_of. simpl. destruct k; simpl; split; intros b Hb; try discriminate; injection Hb as <-; lra.
Qed.

(** C28: the gradient norm by which the line search decides when the loss no longer changes is the one of the
    penalised objective's smooth part at the trial coefficients (and is compared with the current one). *)
Theorem C28_trial_gradient : forall pb P2 c score eta obj d, pb_ok pb -> convex_pair (pb_fam pb) (pb_link pb) ->
  (forall i, (i < pb_n pb)%nat -> eta i = eta_of pb c i) ->
  let r := line_search pb P2 c score eta obj d in
  let t := / 2 ^ (ls_k r) in
  ls_warn r = false <->
     ((forall i, (i < pb_n pb)%nat -> mean_of pb (ls_coef r) i < pb_large pb) /\
      ls_obj r - obj <= t * (1 / 10000) * (rsum (nc pb) (fun k => - score k * d k)
                              + l1_form pb (fun k => c k + d k) - l1_form pb c)) \/
     (Rabs (ls_obj r - obj) <= Rabs (obj * pb_eps pb) /\
      rsum (nc pb) (fun k => Rabs (score_of pb P2 (ls_coef r) k)) < rsum (nc pb) (fun k => Rabs (score k))).
Proof.
  intros pb P2 c score eta obj d Hok Hc He r t.
  destruct (C28_line_search pb P2 c score eta obj d Hok He) as [K [_ [_ [_ [_ [_ [_ [_ W]]]]]]]]. fold r t in W.
  destruct (line_search_spec pb P2 c score eta obj d Hok He) as [[_ [_ [L3 [L4 [_ L6]]]]] _]. fold r in L3, L4, L6.
  assert (E : trial_grad_norm pb (ls_eta r) (ls_mu r) (ls_cP2 r) = rsum (nc pb) (fun k => Rabs (score_of pb P2 (ls_coef r) k))).
  { unfold trial_grad_norm. apply rsum_ext. intros k Hk. f_equal. rewrite L6. unfold score_of.
    rewrite xt_vec_eq, coef_P2_eq by exact Hk. f_equal. apply rsum_ext. intros i Hi. f_equal. rewrite L3, L4 by exact Hi.
    destruct (convex_pair_regular (pb_fam pb) (pb_link pb) (eta_of pb (ls_coef r) i) Hc) as [HD [HM HL]].
    pose proof (locally_at _ _ _ HL) as EM. cbv beta in EM. unfold mean_of. rewrite EM.
    rewrite gradient_row_eq by (try exact HM; apply Hok).
    rewrite one_over_variance_eq by (try exact HM; try apply Hok; lra). field.
    apply Rgt_not_eq, unit_variance_pos; [apply Hok|exact HM]. }
  rewrite E in W. exact W.
Qed.
Print Assumptions C28_trial_gradient.
