(** Theorems C33-C37, C56, C57: standardisation, warm starts, penalties, end-to-end fit. *)
From Verif Require Import M_Std S_Std L_Link L_Dist L_Dist4 L_CD L_KKT L_Hess L_Solver L_Solver2 L_Solver3 L_Obj L_Std P_Solver P_Obj.
From Verif Require Import M_Solver S_Solver.
Local Open Scope R_scope.

(** C33: for all column means and standard deviations (including constant columns). *)
Theorem C33_predictions_unchanged : forall p (X : nat -> nat -> R) (m s : nat -> R) (c0 : R) (c : nat -> R),
  let b := unstandardize p m (Some s) c0 c in
  forall i, fst b + rsum p (fun j => X i j * snd b j) = c0 + rsum p (fun j => std_X X m s i j * c j).
Proof. intros. apply unstd_eta. Qed.
Print Assumptions C33_predictions_unchanged.

(** Which columns count as constant (_utils.py 303-313): exactly those whose standard deviation is
    below 10 * sqrt(eps), eps = 2^-52 the spacing of the doubles at 1. Such a column is only
    centred and its coefficient reported as the solver found it; any other column is centred and
    divided by its standard deviation, and its coefficient divided by it too. *)
Theorem C33_threshold : forall p X m s c0 c i j, 0 <= s j ->
  (s j < 10 * sqrt (/ 2 ^ 52) ->
     std_X X m s i j = X i j - m j /\ snd (unstandardize p m (Some s) c0 c) j = c j) /\
  (10 * sqrt (/ 2 ^ 52) <= s j ->
     std_X X m s i j = (X i j - m j) / s j /\ snd (unstandardize p m (Some s) c0 c) j = c j / s j).
Proof.
  intros p X m s c0 c i j S0.
  assert (E : 10 * sqrt (/ 2 ^ 52) = std_threshold).
  { replace (/ 2 ^ 52) with (/ 2 ^ 26 * / 2 ^ 26) by (rewrite <- Rinv_mult; f_equal; ring).
    rewrite sqrt_square by (left; apply Rinv_0_lt_compat, pow_lt; lra). reflexivity. }
  assert (T : 0 < std_threshold) by (unfold std_threshold; apply Rdiv_lt_0_compat; [lra|apply pow_lt; lra]).
  rewrite E. unfold std_X, unstandardize, one_over. cbn [snd]. rewrite (Rabs_right (s j)) by lra.
  split; intros H.
  - rewrite (proj2 (Rltb_true _ _)) by exact H. split; ring.
  - rewrite (proj2 (Rltb_false _ _)) by exact H. split; field; lra.
Qed.
Print Assumptions C33_threshold.

(** ... and for the fit: the linear predictor the solver sees is that of the reported
    intercept_ and coef_ on the raw X plus offset; without intercept the reported one is 0. *)
Theorem C33_fit_linear_predictor : forall u se v,
  (forall i, eta_of (std_problem u se) v i
     = fst (user_result u v) + rsum (u_p u) (fun j => u_X u i j * snd (user_result u v) j) + u_off u i) /\
  (u_ic u = false -> fst (user_result u v) = 0).
Proof. intros. split; [intros; apply eta_std|apply result_no_intercept]. Qed.
Print Assumptions C33_fit_linear_predictor.

(** centering: the standardized columns have weighted mean zero, and unit weighted second moment
    unless (numerically) constant *)
Theorem C33_columns_standardized : forall u j, u_ic u = true -> rsum (u_n u) (u_w u) = 1 ->
  (forall i, (i < u_n u)%nat -> 0 <= u_w u i) ->
  let z i := std_X (u_X u) (u_means u) (u_stds u) i j in
  rsum (u_n u) (fun i => u_w u i * z i) = 0 /\
  (std_threshold <= u_stds u j -> rsum (u_n u) (fun i => u_w u i * (z i) ^ 2) = 1).
Proof.
  intros u j Hic Hw W0. unfold std_X, u_means, col_means. rewrite Hic. set (mj := wmean _ _ _). cbv zeta. split.
  - rewrite (rsum_ext (u_n u) _ (fun i => one_over (u_stds u j) * (u_w u i * u_X u i j - mj * u_w u i))) by (intros; ring).
    rewrite rsum_scal, rsum_minus, rsum_scal, Hw. unfold mj, wmean. ring.
  - intros Ht. rewrite (rsum_ext (u_n u) _ (fun i => (one_over (u_stds u j)) ^ 2 * (u_w u i * (u_X u i j - mj) ^ 2))) by (intros; ring).
    rewrite rsum_scal.
    assert (E : rsum (u_n u) (fun i => u_w u i * (u_X u i j - mj) ^ 2) = u_stds u j ^ 2).
    { unfold u_stds, col_stds. fold mj. symmetry. apply pow2_sqrt. apply rsum_nonneg. intros i Hi. apply Rmult_le_pos; [exact (W0 i Hi)|apply pow2_ge_0]. }
    rewrite E. unfold one_over. rewrite (proj2 (Rltb_false _ _)).
    + assert (0 < std_threshold) by (unfold std_threshold; apply Rdiv_lt_0_compat; [lra|apply pow_lt; lra]). field. lra.
    + rewrite Rabs_right; [lra|]. apply Rle_ge, sqrt_pos.
Qed.
Print Assumptions C33_columns_standardized.

(** C34 *)
Theorem C34_penalty_preserved : forall u se v, u_scale u = false ->
  let b := snd (user_result u v) in
  l1_form (std_problem u se) v = rsum (u_p u) (fun j => u_P1 u j * Rabs (b j)) /\
  l2_form (std_problem u se) (std_problem_P2 u) v
    = rsum (u_p u) (fun i => rsum (u_p u) (fun j => b i * p2_entry (u_P2 u) i j * b j)).
Proof.
  intros u se v Hs b. rewrite l1_std, l2_std. unfold pen_scale. rewrite Hs. split.
  - apply rsum_ext. intros. rewrite Rmult_1_l. reflexivity.
  - apply rsum_ext. intros i _. apply rsum_ext. intros j _. fold b. ring.
Qed.
Print Assumptions C34_penalty_preserved.

(** the whole objective, and every user-scale parameter is the image of a standardized one, so
    minimising one is minimising the other; with scale_predictors the penalties act on the
    coefficients times the column scale *)
Theorem C34_objective_preserved : forall u se,
  (forall v, train_obj (std_problem u se) (std_problem_P2 u) v
     = user_obj u (pen_scale u) (fst (user_result u v)) (snd (user_result u v))) /\
  (u_scale u = false -> forall j, pen_scale u j = 1) /\
  (u_scale u = true -> forall j, std_threshold <= u_stds u j -> pen_scale u j = u_stds u j) /\
  (forall b0 b, (u_ic u = false -> b0 = 0) ->
     exists v, fst (user_result u v) = b0 /\ forall j, snd (user_result u v) j = b j).
Proof.
  intros u se. split; [apply obj_std|]. split; [|split].
  - intros H j. unfold pen_scale. rewrite H. reflexivity.
  - intros H j Ht. unfold pen_scale. rewrite H. unfold col_scale. rewrite (proj2 (Rltb_false _ _)); [reflexivity|].
    rewrite Rabs_right; [lra|apply Rle_ge, stds_nonneg].
  - intros b0 b H. exists (to_std u b0 b). apply to_std_result; exact H.
Qed.
Print Assumptions C34_objective_preserved.

(** C35 *)
Theorem C35_bounds_preserved : forall u se v,
  in_box (std_problem u se) v <-> user_feasible u (snd (user_result u v)).
Proof. intros. apply box_std. Qed.
Print Assumptions C35_bounds_preserved.

Theorem C35_inequalities_preserved : forall u se q v,
  (forall r, row_dot (std_problem u se) (std_ineq q (u_stds u)) r v
     = rsum (u_p u) (fun j => iq_A q r j * snd (user_result u v) j)) /\
  (feasible (std_problem u se) (std_ineq q (u_stds u)) v <-> user_ineq u q (snd (user_result u v))).
Proof.
  intros u se q v.
  assert (E : forall r, row_dot (std_problem u se) (std_ineq q (u_stds u)) r v
     = rsum (u_p u) (fun j => iq_A q r j * snd (user_result u v) j)).
  { intros r. unfold row_dot. apply rsum_ext. intros j _. rewrite result_coef. simpl. ring. }
  split; [exact E|]. unfold feasible, user_ineq. split; intros H r Hr; specialize (H r Hr).
  - rewrite E in H. exact H.
  - rewrite E. exact H.
Qed.
Print Assumptions C35_inequalities_preserved.

(** C36: what one gets back from a warm start, in all cases; exact iff the column is not
    numerically constant (or its coefficient is 0, or its standard deviation 1). *)
Theorem C36_warm_start_roundtrip : forall p m s c0 c,
  let '(a0, a) := standardize_warm_start p m (Some s) c0 c in
  let '(b0, b) := unstandardize p m (Some s) a0 a in
  b0 = c0 /\
  (forall j, std_threshold <= Rabs (s j) -> b j = c j) /\
  (forall j, Rabs (s j) < std_threshold -> b j = s j * c j).
Proof.
  intros. unfold standardize_warm_start, unstandardize.
  assert (T : 0 < std_threshold) by (unfold std_threshold; apply Rdiv_lt_0_compat; [lra|apply pow_lt; lra]).
  split; [ring|split]; intros j H; unfold one_over.
  - rewrite (proj2 (Rltb_false _ _)) by lra. assert (s j <> 0) by (intros E; rewrite E, Rabs_R0 in H; lra). field. assumption.
  - rewrite (proj2 (Rltb_true _ _)) by lra. ring.
Qed.
Print Assumptions C36_warm_start_roundtrip.

(** without column standard deviations (no scaling): always the identity *)
Theorem C36_warm_start_roundtrip_unscaled : forall p m c0 c,
  let '(a0, a) := standardize_warm_start p m None c0 c in
  unstandardize p m None a0 a = (c0, c).
Proof. intros. unfold standardize_warm_start, unstandardize. f_equal. ring. Qed.
Print Assumptions C36_warm_start_roundtrip_unscaled.

(** A warm start with an intercept and no binding bounds starts the next fit at exactly the
    previous predictions. *)
Theorem C36_warm_start_reproduces_predictions : forall u se guess b0 b,
  u_ic u = true -> (forall j, (j < u_p u)%nat -> std_threshold <= u_stds u j) ->
  (forall j, (j < u_p u)%nat -> u_lb u j = None /\ u_ub u j = None) ->
  let v := get_start_coef (u_p u) (u_ic u) (u_means u) (u_stds u) guess (u_lb u) (u_ub u) (StartWarm b0 b) in
  forall i, eta_of (std_problem u se) v i = user_eta u b0 b i.
Proof.
  intros u se guess b0 b Hic Ht Hb v i. rewrite eta_std.
  assert (V0 : v 0%nat = b0 + rsum (u_p u) (fun j => u_means u j * one_over (u_stds u j) * (b j * u_stds u j))).
  { unfold v, get_start_coef. rewrite Hic. cbn. reflexivity. }
  assert (VS : forall j, (j < u_p u)%nat -> v (S j) = b j * u_stds u j).
  { intros j Hj. unfold v, get_start_coef. rewrite Hic. unfold clip_start. cbn [ioff].
    destruct (Nat.ltb_spec (S j) 1); [lia|]. replace (S j - 1)%nat with j by lia. destruct (Hb j Hj) as [-> ->]. reflexivity. }
  assert (Q : forall j, (j < u_p u)%nat -> u_stds u j * one_over (u_stds u j) = 1).
  { intros j Hj. assert (0 < std_threshold) by (unfold std_threshold; apply Rdiv_lt_0_compat; [lra|apply pow_lt; lra]). specialize (Ht j Hj).
    unfold one_over. rewrite (proj2 (Rltb_false _ _)) by (rewrite Rabs_right by lra; lra). field. lra. }
  assert (F : fst (user_result u v) = b0).
  { unfold user_result, unpack. rewrite Hic. cbn [unstandardize fst]. rewrite V0.
    rewrite (rsum_ext (u_p u) (fun j => u_means u j * one_over (u_stds u j) * v (S j)) (fun j => u_means u j * one_over (u_stds u j) * (b j * u_stds u j))); [ring|].
    intros j Hj. rewrite VS by exact Hj. reflexivity. }
  unfold user_eta. rewrite F. f_equal. f_equal. apply rsum_ext. intros j Hj. rewrite result_coef, Hic. cbn [ioff Nat.add].
  rewrite VS by exact Hj. rewrite Rmult_assoc, Q by exact Hj. ring.
Qed.
Print Assumptions C36_warm_start_reproduces_predictions.

(** Finding F4: for a constant column the round trip loses the coefficient and the predictions. *)
Theorem C36_constant_column_refuted : exists p X m s c0 c,
  let '(a0, a) := standardize_warm_start p m (Some s) c0 c in
  let '(b0, b) := unstandardize p m (Some s) a0 a in
  b 0%nat <> c 0%nat /\ b0 + rsum p (fun j => X 0%nat j * b j) <> c0 + rsum p (fun j => X 0%nat j * c j).
Proof.
  exists 1%nat, (fun _ _ => 3), (fun _ => 3), (fun _ => 0), 1, (fun _ => 2).
  unfold standardize_warm_start, unstandardize, one_over.
  rewrite Rabs_R0, (proj2 (Rltb_true 0 std_threshold)) by (unfold std_threshold; apply Rdiv_lt_0_compat; [lra|apply pow_lt; lra]).
  simpl. lra.
Qed.
Print Assumptions C36_constant_column_refuted.

(** Finding F6: without an intercept a warm start is not rescaled; the solver starts at other
    predictions than those of the previous fit. *)
Theorem C36_no_intercept_refuted : exists u se guess b0 b,
  u_ic u = false /\ (forall j, std_threshold <= u_stds u j) /\ (forall j, u_lb u j = None /\ u_ub u j = None) /\
  eta_of (std_problem u se) (get_start_coef (u_p u) (u_ic u) (u_means u) (u_stds u) guess (u_lb u) (u_ub u) (StartWarm b0 b)) 0
    <> user_eta u b0 b 0.
Proof.
  exists (mkUser 2 1 (fun i _ => match i with O => -2 | _ => 2 end) (fun _ => 0) (fun _ => / 2) (fun _ => 0) false NormalF IdentityL
            (fun _ => 0) (P2diag (fun _ => 0)) (fun _ => None) (fun _ => None) false).
  exists (mkSettings 1 1 1 None 0 None false false 0 0), 0, 0, (fun _ => 1).
  assert (S : forall j, u_stds (mkUser 2 1 (fun i _ => match i with O => -2 | _ => 2 end) (fun _ => 0) (fun _ => / 2) (fun _ => 0) false NormalF IdentityL
            (fun _ => 0) (P2diag (fun _ => 0)) (fun _ => None) (fun _ => None) false) j = 2).
  { intros j. unfold u_stds, col_stds, wmean. simpl.
    match goal with |- sqrt ?x = 2 => replace x with (2 * 2) by field end. apply sqrt_square. lra. }
  assert (T : std_threshold <= 2).
  { unfold std_threshold. apply Rmult_le_reg_r with (2 ^ 26); [apply pow_lt; lra|]. unfold Rdiv. rewrite Rmult_assoc, Rinv_l; [|apply pow_nonzero; lra]. simpl. lra. }
  split; [reflexivity|]. split; [intros j; rewrite S; exact T|]. split; [intros; split; reflexivity|].
  rewrite eta_std. unfold user_eta. rewrite result_no_intercept by reflexivity. cbn [u_p rsum]. rewrite result_coef, S.
  unfold one_over. rewrite (proj2 (Rltb_false _ _)) by (rewrite Rabs_right; lra). cbn. lra.
Qed.
Print Assumptions C36_no_intercept_refuted.

(** C37 *)
Theorem C37_p2_setup : forall a p alpha l1 P2, setup_p2 a p alpha l1 = Some P2 ->
  let M := match a with
           | P2Identity => fun i j => if Nat.eqb i j then 1 else 0
           | P2Array1 l => fun i j => if Nat.eqb i j then nth i l 0 else 0
           | P2Array2 _ _ M => M
           end in
  p2_sym p P2 /\ (forall b, qform p (p2_entry P2) b = alpha * (1 - l1) * qform p M b).
Proof.
  intros a p alpha l1 P2 E M. destruct a as [|l|r c N]; simpl in E.
  - injection E as <-. split.
    + intros i j _ _. simpl. rewrite Nat.eqb_sym. destruct (Nat.eqb_spec j i); [subst; reflexivity|reflexivity].
    + intros b. unfold qform. rewrite <- rsum_scal. apply rsum_ext. intros i _. rewrite <- rsum_scal. apply rsum_ext. intros j _.
      unfold M. simpl. destruct (Nat.eqb i j); ring.
  - destruct (Nat.eqb _ _); [|discriminate]. injection E as <-. split.
    + intros i j _ _. simpl. rewrite Nat.eqb_sym. destruct (Nat.eqb_spec j i); [subst; reflexivity|reflexivity].
    + intros b. unfold qform. rewrite <- rsum_scal. apply rsum_ext. intros i _. rewrite <- rsum_scal. apply rsum_ext. intros j _.
      unfold M. simpl. destruct (Nat.eqb_spec i j); [subst; ring|ring].
  - destruct (_ && _)%bool; [|discriminate]. injection E as <-. split.
    + intros i j _ _. simpl. ring.
    + intros b. unfold qform, M. simpl.
      transitivity (/ 2 * (alpha * (1 - l1)) * rsum p (fun i => rsum p (fun j => b i * N i j * b j))
                    + / 2 * (alpha * (1 - l1)) * rsum p (fun i => rsum p (fun j => b i * N j i * b j))).
      * rewrite <- !rsum_scal, <- rsum_plus. apply rsum_ext. intros i _. rewrite <- !rsum_scal, <- rsum_plus. apply rsum_ext. intros j _. field.
      * rewrite (rsum_swap p p (fun i j => b i * N j i * b j)).
        rewrite (rsum_ext p (fun j => rsum p (fun i => b i * N j i * b j)) (fun i => rsum p (fun j => b i * N i j * b j))); [field|].
        intros i _. apply rsum_ext. intros j _. ring.
Qed.
Print Assumptions C37_p2_setup.

(** accepted shapes; P1 *)
Theorem C37_shapes_and_p1 : forall p alpha l1,
  (forall a, setup_p2 a p alpha l1 = None <->
     match a with P2Identity => False | P2Array1 l => length l <> p | P2Array2 r c _ => r <> p \/ c <> p end) /\
  (forall a, setup_p1 a p alpha l1 = None <-> match a with P1Identity => False | P1Array l => length l <> p end) /\
  (forall P1, setup_p1 P1Identity p alpha l1 = Some P1 -> forall j, P1 j = alpha * l1) /\
  (forall l P1, setup_p1 (P1Array l) p alpha l1 = Some P1 -> forall j, (j < p)%nat -> P1 j = alpha * l1 * nth j l 0).
Proof.
  intros. split; [|split; [|split]].
  - intros [|l|r c N]; simpl.
    + split; [discriminate|tauto].
    + destruct (Nat.eqb_spec (length l) p); split; intros; try discriminate; try tauto.
    + destruct (Nat.eqb_spec r c), (Nat.eqb_spec r p); simpl; split; intros H; try discriminate; try reflexivity; try lia.
  - intros [|l]; simpl; [split; [discriminate|tauto]|]. destruct (Nat.eqb_spec (length l) p); split; intros; try discriminate; try tauto.
  - intros P1 E j. simpl in E. injection E as <-. ring.
  - intros l P1 E j Hj. simpl in E. destruct (Nat.eqb _ _); [|discriminate]. injection E as <-. reflexivity.
Qed.
Print Assumptions C37_shapes_and_p1.

(** The two routes by which alpha reaches the penalty agree: setting it up with alpha, or with
    alpha = 1 and multiplying afterwards (regularisation path); standardisation commutes with it. *)
Theorem C37_alpha_commutes : forall a1 a2 p alpha l1 scale s,
  (forall P1, setup_p1 a1 p 1 l1 = Some P1 -> exists P1', setup_p1 a1 p alpha l1 = Some P1' /\
     forall j, p1_scale alpha (std_P1 scale P1 s) j = std_P1 scale P1' s j) /\
  (forall P2, setup_p2 a2 p 1 l1 = Some P2 -> exists P2', setup_p2 a2 p alpha l1 = Some P2' /\
     forall i j, p2_entry (p2_scale alpha (std_P2 scale P2 s)) i j = p2_entry (std_P2 scale P2' s) i j).
Proof.
  intros. split.
  - intros P1 E. destruct a1 as [|l]; simpl in E.
    + injection E as <-. eexists. split; [reflexivity|]. intros j. unfold p1_scale, std_P1. destruct scale; ring.
    + simpl. destruct (Nat.eqb _ _); [|discriminate]. injection E as <-. eexists. split; [reflexivity|].
      intros j. unfold p1_scale, std_P1. destruct scale; ring.
  - intros P2 E. destruct a2 as [|l|r c N]; simpl in E; simpl.
    + injection E as <-. eexists. split; [reflexivity|]. intros i j. destruct scale; simpl; destruct (Nat.eqb i j); ring.
    + destruct (Nat.eqb _ _); [|discriminate]. injection E as <-. eexists. split; [reflexivity|].
      intros i j. destruct scale; simpl; destruct (Nat.eqb i j); ring.
    + destruct (_ && _)%bool; [|discriminate]. injection E as <-. eexists. split; [reflexivity|].
      intros i j. destruct scale; simpl; field.
Qed.
Print Assumptions C37_alpha_commutes.

Example C37_nonvacuous : exists P2, setup_p2 (P2Array2 2 2 (fun i j => match i, j with 0%nat, 1%nat => 4 | _, _ => 1 end)) 2 2 (/ 2) = Some P2
  /\ p2_entry P2 0 1 = 5 / 2 /\ p2_entry P2 1 0 = 5 / 2.
Proof. eexists. split; [reflexivity|]. simpl. split; field. Qed.
