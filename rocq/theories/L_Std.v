From Verif Require Import M_Solver S_Solver L_Link L_Dist L_Dist4 L_Solver L_Solver3 L_Obj.
From Verif Require Import M_Std S_Std.
From Verif Require Import M_Solver S_Solver.
Local Open Scope R_scope.

Lemma one_over_pos s : 0 <= s -> 0 < one_over s.
Proof.
  intros Hs. unfold one_over. destruct (Rltb _ _) eqn:E; [lra|]. apply Rltb_false in E. rewrite Rabs_right in E by lra.
  assert (0 < std_threshold) by (unfold std_threshold; apply Rdiv_lt_0_compat; [lra|apply pow_lt; lra]).
  apply Rdiv_lt_0_compat; lra.
Qed.
Lemma stds_nonneg u j : 0 <= u_stds u j.
Proof. apply sqrt_pos. Qed.
Lemma inv_pos u j : 0 < one_over (u_stds u j).
Proof. apply one_over_pos, stds_nonneg. Qed.
Lemma col_scale_inv u j : col_scale u j = / one_over (u_stds u j).
Proof.
  unfold col_scale, one_over. destruct (Rltb _ _) eqn:E; [field|]. unfold Rdiv. rewrite Rmult_1_l, Rinv_inv. reflexivity.
Qed.

Lemma unstd_eta p (X : nat -> nat -> R) m s c0 c i :
  fst (unstandardize p m (Some s) c0 c) + rsum p (fun j => X i j * snd (unstandardize p m (Some s) c0 c) j)
  = c0 + rsum p (fun j => std_X X m s i j * c j).
Proof.
  unfold unstandardize, std_X. cbn [fst snd].
  rewrite (rsum_ext p (fun j => (X i j * one_over (s j) + - m j * one_over (s j)) * c j)
    (fun j => X i j * (c j * one_over (s j)) - m j * one_over (s j) * c j)) by (intros; ring).
  rewrite rsum_minus. ring.
Qed.

Lemma eta_std u se v i : eta_of (std_problem u se) v i
  = user_eta u (fst (user_result u v)) (snd (user_result u v)) i.
Proof.
  rewrite eta_of_eq. unfold user_eta. change (pb_off (std_problem u se) i) with (u_off u i). f_equal.
  unfold lin_pred, user_result, unpack. cbn [std_problem pb_ic pb_p pb_X].
  destruct (u_ic u); symmetry; cbn [ioff Nat.add]; apply unstd_eta.
Qed.

Lemma result_coef u v j : snd (user_result u v) j = v (ioff (u_ic u) + j)%nat * one_over (u_stds u j).
Proof. unfold user_result, unpack, unstandardize. destruct (u_ic u); reflexivity. Qed.
Lemma result_no_intercept u v : u_ic u = false -> fst (user_result u v) = 0.
Proof.
  intros H. unfold user_result, unpack, unstandardize, u_means, col_means. rewrite H. cbn [fst].
  rewrite rsum_zero; [ring|intros; ring].
Qed.

Lemma l2_std u se v : l2_form (std_problem u se) (std_problem_P2 u) v
  = rsum (u_p u) (fun i => rsum (u_p u) (fun j => (pen_scale u i * snd (user_result u v) i) * p2_entry (u_P2 u) i j * (pen_scale u j * snd (user_result u v) j))).
Proof.
  rewrite l2_form_p. simpl. apply rsum_ext. intros i _. apply rsum_ext. intros j _. rewrite !result_coef.
  unfold std_problem_P2, std_P2, pen_scale. destruct (u_scale u).
  - rewrite !col_scale_inv. pose proof (inv_pos u i). pose proof (inv_pos u j). field. lra.
  - destruct (u_P2 u) as [w|M]; simpl.
    + destruct (Nat.eqb_spec i j); [subst; ring|ring].
    + ring.
Qed.
Lemma l1_std u se v : l1_form (std_problem u se) v
  = rsum (u_p u) (fun j => u_P1 u j * Rabs (pen_scale u j * snd (user_result u v) j)).
Proof.
  unfold l1_form. rewrite rsum_nc. simpl. unfold pen_of, std_P1, pen_scale.
  assert (Q : forall j x, (if u_scale u then u_P1 u else fun j => u_P1 u j * one_over (u_stds u j)) j * Rabs x
     = u_P1 u j * Rabs ((if u_scale u then col_scale u else fun _ => 1) j * (x * one_over (u_stds u j)))).
  { intros j x. pose proof (inv_pos u j). destruct (u_scale u).
    - rewrite col_scale_inv. f_equal. f_equal. field. lra.
    - rewrite Rmult_1_l, Rabs_mult, (Rabs_right (one_over _)) by lra. ring. }
  destruct (u_ic u) eqn:E; cbn [ioff].
  - rewrite Rmult_0_l, Rplus_0_l. apply rsum_ext. intros j _. rewrite result_coef, E. cbn [ioff]. rewrite <- Q. reflexivity.
  - rewrite Rplus_0_l. apply rsum_ext. intros j _. rewrite result_coef, E. cbn [ioff]. rewrite <- Q. reflexivity.
Qed.

Lemma obj_std u se v : train_obj (std_problem u se) (std_problem_P2 u) v
  = user_obj u (pen_scale u) (fst (user_result u v)) (snd (user_result u v)).
Proof.
  unfold train_obj, smooth_obj, user_obj. rewrite l2_std, l1_std. f_equal. f_equal. unfold half_deviance, fitted. simpl.
  f_equal. f_equal. apply map_ext. intros i. rewrite eta_std. reflexivity.
Qed.

(** every user-scale vector comes from a standardized one *)
Definition to_std (u : user) (b0 : R) (b : nat -> R) : nat -> R :=
  pack (u_ic u) (b0 + rsum (u_p u) (fun j => u_means u j * b j)) (fun j => b j * col_scale u j).
Lemma to_std_result u b0 b : (u_ic u = false -> b0 = 0) ->
  fst (user_result u (to_std u b0 b)) = b0 /\ forall j, snd (user_result u (to_std u b0 b)) j = b j.
Proof.
  intros H. split.
  - unfold user_result, to_std, unpack, pack, unstandardize. destruct (u_ic u) eqn:E; cbn [fst].
    + rewrite (rsum_ext (u_p u) (fun j => u_means u j * one_over (u_stds u j) * (b j * col_scale u j)) (fun j => u_means u j * b j)); [ring|].
      intros j _. rewrite col_scale_inv. pose proof (inv_pos u j). field. lra.
    + rewrite (H eq_refl). rewrite rsum_zero; [ring|]. intros j _. unfold u_means, col_means. rewrite E. ring.
  - intros j. rewrite result_coef. unfold to_std, pack. pose proof (inv_pos u j).
    destruct (u_ic u); cbn [ioff Nat.add]; rewrite col_scale_inv; field; lra.
Qed.

Lemma box_std u se v : in_box (std_problem u se) v <-> user_feasible u (snd (user_result u v)).
Proof.
  unfold in_box, user_feasible, nc. simpl.
  assert (Q : forall j x, within (std_bounds (u_lb u) (u_stds u) j) (std_bounds (u_ub u) (u_stds u) j) x
     <-> within (u_lb u j) (u_ub u j) (x * one_over (u_stds u j))).
  { intros j x. pose proof (inv_pos u j) as P. unfold within, std_bounds.
    assert (D : forall b y, b / one_over (u_stds u j) <= y <-> b <= y * one_over (u_stds u j)).
    { intros b y. split; intros H.
      - replace b with (b / one_over (u_stds u j) * one_over (u_stds u j)) by (field; lra). apply Rmult_le_compat_r; lra.
      - apply Rmult_le_reg_r with (one_over (u_stds u j)); auto. replace (b / one_over (u_stds u j) * one_over (u_stds u j)) with b by (field; lra). exact H. }
    assert (D' : forall b y, y <= b / one_over (u_stds u j) <-> y * one_over (u_stds u j) <= b).
    { intros b y. split; intros H.
      - replace b with (b / one_over (u_stds u j) * one_over (u_stds u j)) by (field; lra). apply Rmult_le_compat_r; lra.
      - apply Rmult_le_reg_r with (one_over (u_stds u j)); auto. replace (b / one_over (u_stds u j) * one_over (u_stds u j)) with b by (field; lra). exact H. }
    destruct (u_lb u j) as [l|], (u_ub u j) as [b|]; split; intros [A B]; split; intros t Et; try discriminate; injection Et as <-;
      try (apply D; apply A; reflexivity); try (apply D'; apply B; reflexivity); try (apply A; f_equal; fail); try (apply D, A; reflexivity); try (apply D', B; reflexivity). }
  split.
  - intros H j Hj. rewrite result_coef. apply Q. specialize (H (ioff (u_ic u) + j)%nat ltac:(lia)). unfold bnd_of in H. destruct (u_ic u); exact H.
  - intros H k Hk. unfold bnd_of. destruct (u_ic u) eqn:E; cbn [ioff] in Hk.
    + destruct k as [|j]; [split; intros; discriminate|]. apply Q. specialize (H j ltac:(lia)). rewrite result_coef, E in H. exact H.
    + apply Q. specialize (H k ltac:(lia)). rewrite result_coef, E in H. exact H.
Qed.
