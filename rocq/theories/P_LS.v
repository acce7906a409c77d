(** Theorems C28 (least squares), C30 (closed form), C31 (monotonic solver). *)
From Verif Require Import M_Solver S_Solver L_Link L_Dist L_Dist2 L_Dist3 L_Dist4 L_CD L_KKT L_Hess L_Solver L_Solver2 L_Solver3 L_Obj L_LS L_Mono P_Solver.
From Verif Require Import M_Solver S_Solver.
Local Open Scope R_scope.

(** C28 for irls-ls (no L1 penalty): an iteration whose line search does not warn does not
    increase the training objective by more than eps*|obj|. *)
Theorem C28_least_squares_descends : forall pb solve P2 c s s', pb_ok pb -> 0 <= pb_approx pb ->
  (forall i, (i < pb_n pb)%nat -> 0 <= pb_w pb i) -> safe_pair (pb_fam pb) (pb_link pb) ->
  p2_sym (pb_p pb) P2 -> p2_psd (pb_p pb) P2 -> (forall j, (j < pb_p pb)%nat -> pb_P1 pb j = 0) ->
  solve_sound solve ->
  reach pb (ls_solver pb solve) P2 c s -> irls_step pb (ls_solver pb solve) s = Some s' ->
  st_lswarn s' = S (st_lswarn s) \/
  train_obj pb P2 (st_coef s') <= train_obj pb P2 (st_coef s) + Rabs (st_obj s * pb_eps pb).
Proof.
  intros pb solve P2 c s s' Hok HC Hw Hsafe HS HP HP1 Hsol R E.
  destruct (step_descends pb (ls_solver pb solve) P2 s s' Hok (reach_inv _ _ _ _ _ Hok HC R) E) as [L|[_ L]]; auto.
  intros d cyc Ed. eapply ls_bound_nonpos; eauto. apply safe_means_ok. exact Hsafe.
Qed.
Print Assumptions C28_least_squares_descends.

(** A solver for 1x1 systems meets the contract and does solve something. *)
Definition solve1 : linear_solver := fun n A b =>
  if Nat.eqb n 1 then if Reqb (A 0%nat 0%nat) 0 then None else Some (fun _ => b 0%nat / A 0%nat 0%nat) else None.
Lemma solve1_sound : solve_sound solve1.
Proof.
  intros n A b x _ E i Hi. unfold solve1 in E. destruct (Nat.eqb_spec n 1) as [->|]; [|discriminate].
  destruct (Reqb (A 0%nat 0%nat) 0) eqn:EA; [discriminate|]. apply Reqb_false in EA. injection E as <-.
  replace i with 0%nat by lia. simpl. field. exact EA.
Qed.
Example C28_ls_nonvacuous : solve_sound solve1 /\ solve1 1%nat (fun _ _ => 2) (fun _ => 6) = Some (fun _ => 6 / 2).
Proof.
  split; [exact solve1_sound|]. unfold solve1. simpl. destruct (Reqb 2 0) eqn:E; [apply Reqb_true in E; lra|reflexivity].
Qed.

(** C30: the closed-form result solves the normal equations and is a global minimiser of the
    weighted ridge objective; the gap to any competitor is half its Hessian form. *)
Theorem C30_closed_form_optimal : forall pb P2 solve lstsq,
  (forall i, (i < pb_n pb)%nat -> 0 <= pb_w pb i) ->
  p2_sym (pb_p pb) P2 -> p2_psd (pb_p pb) P2 -> (forall pos, solve_sound (solve pos)) -> lstsq_sound lstsq ->
  let c := tikhonov_solver pb P2 solve lstsq in
  (forall k, (k < nc pb)%nat ->
     rsum (nc pb) (fun l => exact_hessian pb (pb_w pb) P2 k l * c l)
     = rsum (pb_n pb) (fun i => pb_w pb i * (pb_y pb i - pb_off pb i) * xt pb i k)) /\
  (forall v, ridge_obj pb P2 c <= ridge_obj pb P2 v) /\
  (forall v, ridge_obj pb P2 v = ridge_obj pb P2 c
     + / 2 * rsum (nc pb) (fun k => rsum (nc pb) (fun l => (v k - c k) * exact_hessian pb (pb_w pb) P2 k l * (v l - c l)))).
Proof.
  intros pb P2 solve lstsq Hw HS HP Hsol Hl c.
  pose proof (tikhonov_normal pb P2 solve lstsq Hw HS HP Hsol Hl) as N. fold c in N.
  assert (X : forall v, ridge_obj pb P2 v = ridge_obj pb P2 c
     + / 2 * rsum (nc pb) (fun k => rsum (nc pb) (fun l => (v k - c k) * exact_hessian pb (pb_w pb) P2 k l * (v l - c l)))).
  { intros v. rewrite quad_exact. rewrite <- (ridge_expand pb P2 c (fun k => v k - c k) HS N). f_equal.
    apply FunctionalExtensionality.functional_extensionality. intros k. unfold vadd. ring. }
  split; [exact N|]. split; [|exact X].
  intros v. rewrite (X v). pose proof (exact_psd pb (pb_w pb) P2 (fun k => v k - c k) Hw HP). lra.
Qed.
Print Assumptions C30_closed_form_optimal.

(** ... and the only one when the system matrix is positive definite. *)
Theorem C30_closed_form_unique : forall pb P2 solve lstsq,
  (forall i, (i < pb_n pb)%nat -> 0 <= pb_w pb i) ->
  p2_sym (pb_p pb) P2 -> p2_psd (pb_p pb) P2 -> (forall pos, solve_sound (solve pos)) -> lstsq_sound lstsq ->
  (forall d, rsum (nc pb) (fun k => rsum (nc pb) (fun l => d k * exact_hessian pb (pb_w pb) P2 k l * d l)) <= 0 ->
     forall k, (k < nc pb)%nat -> d k = 0) ->
  forall v, ridge_obj pb P2 v <= ridge_obj pb P2 (tikhonov_solver pb P2 solve lstsq) ->
  forall k, (k < nc pb)%nat -> v k = tikhonov_solver pb P2 solve lstsq k.
Proof.
  intros pb P2 solve lstsq Hw HS HP Hsol Hl PD v Hv k Hk.
  destruct (C30_closed_form_optimal pb P2 solve lstsq Hw HS HP Hsol Hl) as [_ [_ X]]. rewrite (X v) in Hv.
  pose proof (PD (fun k => v k - tikhonov_solver pb P2 solve lstsq k) ltac:(lra) k Hk). lra.
Qed.
Print Assumptions C30_closed_form_unique.

(** The ridge objective is the training objective of the Normal family with identity link. *)
Theorem C30_ridge_is_training_objective : forall pb P2 c, pb_fam pb = NormalF -> pb_link pb = IdentityL ->
  (forall j, (j < pb_p pb)%nat -> pb_P1 pb j = 0) -> (forall j, 0 <= pb_P1 pb j) ->
  train_obj pb P2 c = ridge_obj pb P2 c.
Proof.
  intros pb P2 c Ef El HP1 Hn. unfold train_obj, smooth_obj, ridge_obj. rewrite <- l1_pen_eq by exact Hn. rewrite l1_pen_zero by exact HP1.
  rewrite Rplus_0_r. f_equal. unfold half_deviance. f_equal. unfold fitted. rewrite Ef, El.
  rewrite deviance_rows. rewrite lsumf_map, lsumf_seq. apply rsum_ext. intros i _.
  unfold devrow, search_mean, inverse1. simpl. unfold normal_deviance. rewrite lsumf_cons, lsumf_nil. cbn [oy ow omu]. ring.
Qed.
Print Assumptions C30_ridge_is_training_objective.

Definition ex_pb30 : problem :=
  mkPb 3 1 (fun i _ => INR i) (fun i => INR i * INR i) (fun _ => / 3) (fun i => INR i / 10) true
       NormalF IdentityL (fun _ => 0) 1 1000 (1 / 10000) None 0 None false
       (fun _ => None) (fun _ => None) false 1000000 (1 / 1000000000).
(** The contracts are satisfiable together and the hypotheses hold for a concrete ridge problem:
    a direct 2x2 solver. *)
Definition solve2 (pos : bool) : linear_solver := fun n A b =>
  let det := A 0%nat 0%nat * A 1%nat 1%nat - A 0%nat 1%nat * A 1%nat 0%nat in
  if Nat.eqb n 2 then
    if Reqb det 0 then None
    else Some (fun i => match i with
      | O => (b 0%nat * A 1%nat 1%nat - A 0%nat 1%nat * b 1%nat) / det
      | _ => (A 0%nat 0%nat * b 1%nat - A 1%nat 0%nat * b 0%nat) / det end)
  else None.
Example C30_nonvacuous : (forall pos, solve_sound (solve2 pos)) /\
  (exists x, solve2 true (nc ex_pb30) (tikhonov_matrix ex_pb30 (P2diag (fun _ => 1))) (tikhonov_rhs ex_pb30) = Some x) /\
  (forall i, (i < pb_n ex_pb30)%nat -> 0 <= pb_w ex_pb30 i) /\ p2_sym 1 (P2diag (fun _ => 1)) /\ p2_psd 1 (P2diag (fun _ => 1)).
Proof.
  split; [|split; [|split; [|split]]].
  - intros pos n A b x _ E i Hi. unfold solve2 in E. destruct (Nat.eqb_spec n 2) as [->|]; [|discriminate].
    destruct (Reqb _ 0) eqn:EA; [discriminate|]. apply Reqb_false in EA. injection E as <-.
    destruct i as [|[|i]]; [| |lia]; simpl; field; exact EA.
  - unfold solve2. change (nc ex_pb30) with 2%nat. simpl Nat.eqb. cbv iota.
    destruct (Reqb _ 0) eqn:EA; [|eexists; reflexivity]. exfalso. apply Reqb_true in EA.
    rewrite !tikhonov_matrix_eq in EA by (unfold nc; simpl; lia).
    unfold exact_hessian, xt, p2_full, p2_entry in EA. simpl in EA. lra.
  - intros i _. simpl. lra.
  - intros i j _ _. unfold p2_entry. rewrite (Nat.eqb_sym i j). destruct (Nat.eqb_spec j i); [subst; reflexivity|reflexivity].
  - intros v. unfold p2_entry. simpl. nra.
Qed.

(** C31: when the monotonic solver returns without the non-convergence warning there is no
    violation warning either and every inequality row exceeds its bound (zero) by at most 1e-6;
    without the violation warning the latter holds in any case. *)
Theorem C31_silent_success_feasible : forall pb inner q P2b ls lm lf c mf w1 w2,
  monotonic_irls_solver pb inner q P2b ls lm lf c = Some (mf, w1, w2) ->
  (forall r, (r < iq_m q)%nat -> iq_b q r = 0) /\
  (w1 = false -> w2 = false) /\
  (w2 = false <-> forall r, (r < iq_m q)%nat -> row_dot pb q r (st_coef (ms_st mf)) <= 1 / 1000000).
Proof.
  intros pb inner q P2b ls lm lf c mf w1 w2 E. unfold monotonic_irls_solver in E.
  destruct (existsb _ _) eqn:EB; [discriminate|].
  destruct (update_constraint_penalty _ _ _ _ _ _) as [[P2 base] ch] eqn:EP.
  destruct (mono_loop _ _ _ _ _ _ _ _) as [m|] eqn:EL; [|discriminate]. injection E as -> <- <-.
  assert (B0 : forall r, (r < iq_m q)%nat -> iq_b q r = 0).
  { intros r Hr. destruct (Reqb (iq_b q r) 0) eqn:Q; [apply Reqb_true in Q; exact Q|]. exfalso.
    assert (T : existsb (fun r => negb (Reqb (iq_b q r) 0)) (seq 0 (iq_m q)) = true); [|congruence].
    apply existsb_exists. exists r. rewrite in_seq, Q. split; [lia|reflexivity]. }
  split; [exact B0|]. split.
  - intros Hc. apply negb_false_iff in Hc.
    destruct (mono_loop_reach pb inner q P2b lf lm ls c _ _ _ (mreach_init _ _ _ _ _ _ _ _ _ _ _ EP) EL) as [_ H].
    destruct H as [m0 [_ S0]]; auto.
    { cbn [ms_st]. unfold init_state. destruct (eta_mu_objective _ _ _ _ _ _) as [[[a b] d] e].
      destruct (update_quadratic _ _ _ _) as [[a' b'] d']. destruct (check_convergence _ _ _ _) as [[[q1 q2] q3] q4]. reflexivity. }
    apply (mf_conv _ _ _ _ _ _ _ (mono_step_facts _ _ _ _ _ _ _ _ S0)). exact Hc.
  - split.
    + intros H r Hr. pose proof (any_gt_false _ _ _ _ H r Hr) as Q. unfold iq_val in Q. rewrite (B0 r Hr) in Q. unfold row_dot. lra.
    + intros H. destruct (any_gt pb q (st_coef (ms_st mf)) (1 / 1000000)) eqn:Q; [|reflexivity]. exfalso.
      destruct (any_gt_true _ _ _ _ Q) as [r [Hr L]]. unfold iq_val in L. rewrite (B0 r Hr) in L. specialize (H r Hr). unfold row_dot in H. lra.
Qed.
Print Assumptions C31_silent_success_feasible.

(** The penalty weight starts at lam_start, never decreases, never exceeds lam_max, and is raised
    whenever the current coefficients violate a row. *)
Theorem C31_penalty_weight : forall pb inner q P2b lf lm ls c m,
  1 <= lf -> 0 <= ls <= lm -> mreach pb inner q P2b lf lm ls c m ->
  ls <= ms_lam m <= lm /\
  forall m', mono_step pb inner q P2b lf lm m = Some m' ->
    ms_lam m <= ms_lam m' /\
    ms_lam m' = (if existsb (fun r => Rltb (iq_b q r) (row_dot pb q r (st_coef (ms_st m)))) (seq 0 (iq_m q))
                 then Rmin (lf * ms_lam m) lm else ms_lam m).
Proof.
  intros pb inner q P2b lf lm ls c m Hlf Hls R.
  assert (EX : forall c, any_gt pb q c 0 = existsb (fun r => Rltb (iq_b q r) (row_dot pb q r c)) (seq 0 (iq_m q))).
  { intros c0. unfold any_gt. induction (seq 0 (iq_m q)) as [|r l IH]; [reflexivity|]. simpl. rewrite IH. f_equal.
    unfold iq_val. fold (row_dot pb q r c0). destruct (Rltb 0 _) eqn:E; symmetry; [apply Rltb_true in E; apply Rltb_true|apply Rltb_false in E; apply Rltb_false]; lra. }
  assert (B : ls <= ms_lam m <= lm).
  { induction R as [P2 base ch E|m m' R IH E]; [simpl; lra|].
    rewrite (mf_lam _ _ _ _ _ _ _ (mono_step_facts _ _ _ _ _ _ _ _ E)). destruct (any_gt _ _ _ _); [|exact IH].
    split; [apply Rmin_glb; [nra|lra]|apply Rmin_r]. }
  split; [exact B|]. intros m' E. rewrite (mf_lam _ _ _ _ _ _ _ (mono_step_facts _ _ _ _ _ _ _ _ E)), EX.
  destruct (existsb _ _); split; try lra.
  - apply Rmin_glb; [nra|lra].
  - rewrite Rmult_comm. reflexivity.
Qed.
Print Assumptions C31_penalty_weight.

(** The L2 matrix of an iteration is the user's plus the penalty weight times the sum of a a' over
    the rows violated when the iteration started; so the L2 term gains lam/2 times the sum of
    squared row values. *)
Theorem C31_penalty_matrix : forall pb inner q P2b lf lm m m', mono_step pb inner q P2b lf lm m = Some m' ->
  let V := violated pb q (st_coef (ms_st m)) in
  (forall i j, p2_entry (st_P2 (ms_st m')) i j =
     p2_entry P2b i j + ms_lam m' * lsumf (fun r => iq_A q r i * iq_A q r j) V) /\
  (forall u, l2_form pb (st_P2 (ms_st m')) u = l2_form pb P2b u + ms_lam m' * lsumf (fun r => (row_dot pb q r u) ^ 2) V).
Proof.
  intros pb inner q P2b lf lm m m' E V. pose proof (mono_step_facts _ _ _ _ _ _ _ _ E) as F.
  split; [apply (mf_P2 _ _ _ _ _ _ _ F)|]. apply l2_form_penalty. apply (mf_P2 _ _ _ _ _ _ _ F).
Qed.
Print Assumptions C31_penalty_matrix.

(** A run that ends without the non-convergence warning (gradient test only) is near-optimal among
    the feasible coefficients, for the user's objective: up to gradient_tol times the distance, and up
    to the residual pull of rows that were penalised in the last iteration although they ended strictly
    inside their bound. *)
Theorem C31_near_optimal : forall pb inner q P2b ls lm lf c mf w2,
  pb_ok pb -> 0 <= pb_approx pb -> p2_sym (pb_p pb) P2b -> p2_psd (pb_p pb) P2b ->
  (forall i, (i < pb_n pb)%nat -> 0 <= pb_w pb i) -> convex_pair (pb_fam pb) (pb_link pb) ->
  pb_stol pb = None -> 1 <= lf -> 0 <= ls <= lm ->
  monotonic_irls_solver pb inner q P2b ls lm lf c = Some (mf, false, w2) ->
  let x := st_coef (ms_st mf) in in_box pb x ->
  exists m0, mreach pb inner q P2b lf lm ls c m0 /\ mono_step pb inner q P2b lf lm m0 = Some mf /\
  let V := violated pb q (st_coef (ms_st m0)) in
  forall v D, 0 <= D -> in_box pb v -> feasible pb q v ->
    (forall k, (k < nc pb)%nat -> Rabs (v k - x k) <= D) ->
    train_obj pb P2b x <= train_obj pb P2b v + pb_gtol pb * D
      + ms_lam mf * lsumf (fun r => if Rltb (row_dot pb q r x) 0 then row_dot pb q r x * row_dot pb q r v else 0) V.
Proof.
  intros pb inner q P2b ls lm lf c mf w2 Hok HC HS HP Hw Hc Hst Hlf Hls E x Bx.
  destruct (C31_silent_success_feasible _ _ _ _ _ _ _ _ _ _ _ E) as [B0 _].
  unfold monotonic_irls_solver in E.
  destruct (existsb _ _); [discriminate|].
  destruct (update_constraint_penalty _ _ _ _ _ _) as [[P2 base] ch] eqn:EP.
  destruct (mono_loop _ _ _ _ _ _ _ _) as [m|] eqn:EL; [|discriminate]. injection E as -> Hc0 _. apply negb_false_iff in Hc0.
  destruct (mono_loop_reach pb inner q P2b lf lm ls c _ _ _ (mreach_init _ _ _ _ _ _ _ _ _ _ _ EP) EL) as [Rm H].
  destruct H as [m0 [R0 S0]]; auto.
  { cbn [ms_st]. unfold init_state. destruct (eta_mu_objective _ _ _ _ _ _) as [[[a b] d] e].
    destruct (update_quadratic _ _ _ _) as [[a' b'] d']. destruct (check_convergence _ _ _ _) as [[[q1 q2] q3] q4]. reflexivity. }
  pose proof (mono_step_facts _ _ _ _ _ _ _ _ S0) as F.
  destruct (proj1 (mf_conv _ _ _ _ _ _ _ F) Hc0) as [[T|[t [Et _]]] _]; [|congruence].
  rewrite (mf_norm _ _ _ _ _ _ _ F) in T.
  pose proof (inv_coh _ _ _ (minv_inv _ _ _ _ (mreach_inv _ _ _ _ _ _ _ _ _ Hok HC Rm))) as C. fold x in C, T.
  exists m0. split; [exact R0|]. split; [exact S0|]. intros V v D D0 Bv Fv HD. set (P2' := st_P2 (ms_st mf)) in *. set (lam := ms_lam mf).
  destruct (C31_penalty_weight pb inner q P2b lf lm ls c mf Hlf Hls Rm) as [[L0 _] _]. fold lam in L0.
  destruct (C31_penalty_matrix pb inner q P2b lf lm m0 mf S0) as [PE PL]. fold V P2' lam in PE, PL.
  assert (HS' : p2_sym (pb_p pb) P2').
  { intros i j Hi Hj. rewrite !PE, (HS i j Hi Hj). f_equal. f_equal. apply lsumf_ext. intros; ring. }
  pose proof (smooth_convex pb P2' x v Hok HS' Hw Hc) as SC. unfold smooth_obj in SC. rewrite !PL in SC.
  set (f := fun u : nat -> R => rsum (nc pb) (fun k => - st_score (ms_st mf) k * (u k - x k))).
  assert (SUP : supports (nc pb) f x (fun k => - st_score (ms_st mf) k)).
  { intros u. unfold f. rewrite (rsum_zero (nc pb) (fun k => - st_score (ms_st mf) k * (x k - x k))) by (intros; ring). lra. }
  pose proof (subopt (nc pb) f x (fun k => - st_score (ms_st mf) k) (pb_P1 pb) (pb_ic pb) (pb_lb pb) (pb_ub pb) v D
     (proj2 (proj2 Hok)) Bx Bv SUP HD) as S.
  set (nm := fst _) in *. assert (nm * D <= pb_gtol pb * D) by (apply Rmult_le_compat_r; lra).
  unfold f in S. rewrite (rsum_zero (nc pb) (fun k => - st_score (ms_st mf) k * (x k - x k))) in S by (intros; ring).
  rewrite (rsum_ext (nc pb) (fun k => - st_score (ms_st mf) k * (v k - x k)) (fun k => - score_of pb P2' x k * (v k - x k))) in S.
  2:{ intros k Hk. rewrite (coh_score _ _ _ C) by exact Hk. reflexivity. }
  pose proof (l2_form_nonneg pb P2b (fun k => v k - x k) HP).
  assert (G : - lam * lsumf (fun r => if Rltb (row_dot pb q r x) 0 then row_dot pb q r x * row_dot pb q r v else 0) V
    <= / 2 * (lam * lsumf (fun r => row_dot pb q r x ^ 2) V) - / 2 * (lam * lsumf (fun r => row_dot pb q r v ^ 2) V)
       + / 2 * (lam * lsumf (fun r => row_dot pb q r (fun k => v k - x k) ^ 2) V)).
  { rewrite <- !lsumf_scal, <- lsumf_minus, <- lsumf_plus. apply lsumf_le. intros r Hr.
    unfold V, violated in Hr. apply filter_In in Hr. destruct Hr as [Hr _]. apply in_seq in Hr.
    pose proof (Fv r ltac:(lia)) as Fr. rewrite (B0 r ltac:(lia)) in Fr.
    assert (ED : row_dot pb q r (fun k => v k - x k) = row_dot pb q r v - row_dot pb q r x).
    { unfold row_dot. rewrite <- rsum_minus. apply rsum_ext. intros; ring. }
    rewrite ED. set (a := row_dot pb q r x) in *. set (b := row_dot pb q r v) in *.
    replace (/ 2 * (lam * a ^ 2) - / 2 * (lam * b ^ 2) + / 2 * (lam * (b - a) ^ 2)) with (lam * (a * a - a * b)) by field.
    replace (- lam * (if Rltb a 0 then a * b else 0)) with (lam * - (if Rltb a 0 then a * b else 0)) by ring.
    apply Rmult_le_compat_l; [lra|]. destruct (Rltb a 0) eqn:Ea; [nra|]. apply Rltb_false in Ea. nra. }
  unfold train_obj, smooth_obj, l1_form. lra.
Qed.
Print Assumptions C31_near_optimal.

(** A run that succeeds silently: one feature, identity link, increasing constraint. *)
Definition ex_pb31 : problem :=
  mkPb 1 1 (fun _ _ => 1) (fun _ => 1) (fun _ => 1) (fun _ => 0) false
       NormalF IdentityL (fun _ => 0) 5 1000 (1 / 10000) None 0 None false
       (fun _ => None) (fun _ => None) false 1000000 (1 / 1000000000).
Definition ex_ineq : ineq := mkIneq 1 (fun _ _ => -1) (fun _ => 0).
Example C31_nonvacuous : exists mf, monotonic_irls_solver ex_pb31 (ls_solver ex_pb31 solve1) ex_ineq (P2diag (fun _ => 0))
    100000 1000000000 100 (fun _ => 1) = Some (mf, false, false).
Proof.
  set (pb := ex_pb31). set (q := ex_ineq). set (P2b := P2diag (fun _ => 0)).
  assert (Hok : pb_ok pb) by (split; [exact I|split; [intros; exact I|intros; simpl; lra]]).
  assert (HS : p2_sym 1 P2b) by (intros i j _ _; simpl; destruct (Nat.eqb i j), (Nat.eqb j i); reflexivity).
  assert (EV : forall c, any_gt pb q c 0 = Rltb 0 (0 + -1 * c 0%nat - 0)) by (intros; unfold any_gt; simpl; apply orb_false_r).
  assert (EV6 : forall c, any_gt pb q c (1/1000000) = Rltb (1/1000000) (0 + -1 * c 0%nat - 0)) by (intros; unfold any_gt; simpl; apply orb_false_r).
  assert (UP : forall b c lam, c 0%nat = 1 -> update_constraint_penalty pb q P2b b c lam = (P2b, true, negb b)).
  { intros b c lam Hc. unfold update_constraint_penalty, build_monotonic_penalty. rewrite EV, Hc. rewrite (proj2 (Rltb_false _ _)) by lra. reflexivity. }
  set (s0 := init_state pb P2b true (fun _ => 1)).
  assert (EB : existsb (fun r : nat => negb (Reqb (iq_b q r) 0)) (seq 0 (iq_m q)) = false).
  { simpl. rewrite (proj2 (Reqb_true 0 0)) by reflexivity. reflexivity. }
  unfold monotonic_irls_solver. rewrite EB. rewrite (UP false (fun _ => 1)) by reflexivity.
  pose proof (inv_init pb P2b true (fun _ => 1) Hok) as I0. fold s0 in I0.
  assert (Ec : st_coef s0 = (fun _ => 1)) by (unfold s0; apply init_coef).
  assert (SC : forall c, c 0%nat = 1 -> score_of pb P2b c 0 = 0).
  { intros c Hc. unfold score_of, mean_of, eta_of, nc, xt, search_mean, inverse1, p2_full, p2_entry, P2b. simpl. unfold gradient_row. simpl. rewrite Hc.
    ring. }
  assert (S0 : st_score s0 0%nat = 0).
  { rewrite (coh_score _ _ _ (inv_coh _ _ _ I0)) by (unfold nc; simpl; lia). apply SC. rewrite Ec. reflexivity. }
  (* one iteration *)
  assert (ST : exists m', mono_step pb (ls_solver pb solve1) q P2b 100 1000000000 (mkMs s0 100000 true) = Some m').
  { unfold mono_step. cbn [ms_st ms_lam ms_base]. rewrite (UP true (st_coef s0)) by (rewrite Ec; reflexivity). simpl negb. cbv iota.
    destruct (irls_step pb (ls_solver pb solve1) (set_P2 s0 P2b (st_hinit s0))) as [s'|] eqn:ES; [eexists; reflexivity|]. exfalso.
    unfold irls_step in ES. set (sx := set_P2 s0 P2b (st_hinit s0)) in *.
    assert (IX : inv pb P2b sx).
    { destruct I0 as [[I1 I2 I3 I4 I5 I6] I7 I8 I9]. constructor; simpl; auto. constructor; simpl; auto. }
    destruct (prepare_spec pb sx P2b (Rle_refl 0) (inv_P2 _ _ _ IX) (inv_act _ _ _ IX) (inv_hess _ _ _ IX)) as [_ [_ [HE [_ H0]]]].
    pose proof (prepare_facts pb sx) as PF. destruct (prepare pb sx) as [s1 Hm]. cbn [fst snd] in *.
    unfold ls_solver in ES. simpl pb_has_bounds in ES. cbv iota in ES.
    assert (EA : st_act s1 = [0%nat]).
    { rewrite (pf_act _ _ _ _ PF). assert (Ecx : st_coef sx = (fun _ => 1)) by exact Ec. rewrite Ecx. unfold identify_active_set, is_active. simpl.
      rewrite (proj2 (Reqb_false 1 0)) by lra. reflexivity. }
    rewrite EA in ES. simpl Nat.eqb in ES. cbv iota in ES. unfold solve1 in ES. change (nc pb) with 1%nat in ES. simpl Nat.eqb in ES. cbv iota in ES.
    destruct (Reqb (Hm 0%nat 0%nat) 0) eqn:EH.
    - apply Reqb_true in EH. rewrite HE in EH by (rewrite EA; simpl; lia). rewrite EA in EH. simpl nth in EH.
      unfold exact_hessian in EH. simpl in EH. rewrite H0 in EH by reflexivity.
      assert (Q : st_hrows sx 0%nat = 1).
      { rewrite (coh_hrows _ _ _ (inv_coh _ _ _ IX)) by (simpl; lia). unfold hrow_of, hessian_row. simpl. ring. }
      rewrite Q in EH. unfold xt in EH. simpl in EH. lra.
    - destruct (update_quadratic _ _ _ _) as [[g sc] h]. destruct (check_convergence _ _ _ _) as [[[q1 q2] q3] q4]. discriminate. }
  destruct ST as [m' ES]. pose proof (mono_step_facts _ _ _ _ _ _ _ _ ES) as F.
  assert (MI : minv pb q P2b (mkMs s0 100000 true)) by (constructor; [cbn [ms_st]; rewrite (inv_P2 _ _ _ I0); exact I0|intros _; exact (inv_P2 _ _ _ I0)]).
  pose proof (minv_step _ _ _ _ _ _ _ _ Hok (Rle_refl 0) MI ES) as MI'.
  assert (EC' : st_coef (ms_st m') 0%nat = 1).
  { unfold mono_step in ES. cbn [ms_st ms_lam ms_base] in ES. rewrite (UP true (st_coef s0)) in ES by (rewrite Ec; reflexivity). simpl negb in ES. cbv iota in ES.
    set (sx := set_P2 s0 P2b (st_hinit s0)) in *.
    destruct (irls_step pb (ls_solver pb solve1) sx) as [s'|] eqn:E1; [|discriminate].
    assert (IX : inv pb P2b sx).
    { destruct I0 as [[I1 I2 I3 I4 I5 I6] I7 I8 I9]. constructor; simpl; auto. constructor; simpl; auto. }
    destruct (irls_step_facts _ _ _ _ E1) as [d [cyc [Ei Fs]]].
    pose proof (ls_direction pb solve1 P2b sx d cyc Hok (Rle_refl 0) HS solve1_sound IX Ei 0%nat ltac:(unfold nc; simpl; lia)) as DD.
    destruct (prepare_spec pb sx P2b (Rle_refl 0) (inv_P2 _ _ _ IX) (inv_act _ _ _ IX) (inv_hess _ _ _ IX)) as [_ [_ [_ [_ H0]]]].
    assert (D0 : d 0%nat = 0).
    { assert (SX : st_score sx 0%nat = 0) by exact S0. rewrite SX in DD. unfold exact_hessian in DD. change (nc pb) with 1%nat in DD. change (pb_n pb) with 1%nat in DD. cbn [rsum] in DD. rewrite H0 in DD by reflexivity.
      assert (Q : st_hrows sx 0%nat = 1).
      { rewrite (coh_hrows _ _ _ (inv_coh _ _ _ IX)) by (simpl; lia). unfold hrow_of, hessian_row. simpl. ring. }
      rewrite Q in DD. unfold xt in DD. simpl in DD. lra. }
    destruct (sf_ls _ _ _ _ _ _ Fs) as [L1 _].
    destruct (line_search_spec pb (st_P2 sx) (st_coef sx) (st_score sx) (st_eta sx) (st_obj sx) d Hok (coh_eta _ _ _ (inv_coh _ _ _ IX))) as [[A1 [A2 _]] _].
    assert (Q : st_coef s' 0%nat = 1).
    { rewrite L1, A2, A1. unfold vadd, vscale. rewrite D0. change (st_coef sx 0%nat) with (st_coef s0 0%nat). rewrite Ec. ring. }
    injection ES as <-. cbn [ms_st]. destruct (_ && _)%bool; exact Q. }
  assert (CV : st_conv (ms_st m') = true).
  { apply (mf_conv _ _ _ _ _ _ _ F). split.
    - left. rewrite (mf_norm _ _ _ _ _ _ _ F). change (seq 0 (nc pb)) with [0%nat]. unfold norm_min_subgrad. simpl.
      rewrite (coh_score _ _ _ (inv_coh _ _ _ (minv_inv _ _ _ _ MI'))) by (unfold nc; simpl; lia).
      assert (EP : score_of pb (st_P2 (ms_st m')) (st_coef (ms_st m')) 0 = 0).
      { assert (E00 : p2_entry (st_P2 (ms_st m')) 0 0 = 0).
        { rewrite (mf_P2 _ _ _ _ _ _ _ F). cbn [ms_st]. rewrite violated_nil by (rewrite EV, Ec; apply Rltb_false; lra). simpl. unfold lsumf. simpl. ring. }
        rewrite <- (SC _ EC'). unfold score_of. f_equal. change (nc pb) with 1%nat. simpl. unfold p2_full. rewrite E00. simpl. ring. }
      rewrite EP, EC'. unfold subgrad_term. rewrite (proj2 (Reqb_false 1 0)) by lra. unfold at_bound. simpl.
      replace (- 0 + fsign 1 * 0) with 0 by ring. rewrite Rabs_R0. lra.
    - rewrite EV6, EC'. apply Rltb_false. lra. }
  assert (LP : forall f, mono_loop pb (ls_solver pb solve1) q P2b 100 1000000000 f m' = Some m').
  { intros [|f]; [reflexivity|]. cbn [mono_loop]. rewrite CV, andb_false_r. reflexivity. }
  assert (E0 : st_conv s0 = false /\ st_niter s0 = 0%Z).
  { unfold s0, init_state. destruct (eta_mu_objective _ _ _ _ _ _) as [[[a b] d] e].
    destruct (update_quadratic _ _ _ _) as [[a' b'] d']. destruct (check_convergence _ _ _ _) as [[[q1 q2] q3] q4]. split; reflexivity. }
  destruct E0 as [E01 E02].
  assert (L0 : mono_loop pb (ls_solver pb solve1) q P2b 100 1000000000 (S (Z.to_nat (pb_max_iter pb))) (mkMs s0 100000 true) = Some m').
  { cbn [mono_loop]. cbn [ms_st]. rewrite E01, E02. change (Z.ltb 0 (pb_max_iter pb) && negb false)%bool with true. cbv iota. rewrite ES. apply LP. }
  exists m'. fold s0. rewrite L0, CV, EV6, EC'. rewrite (proj2 (Rltb_false _ _)) by lra. reflexivity.
Qed.
