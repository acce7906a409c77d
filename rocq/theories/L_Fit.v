From Verif Require Import M_Std S_Std L_Link L_Dist L_Dist4 L_CD L_KKT L_Hess L_Solver L_Solver2 L_Solver3 L_Obj L_Std P_Solver P_Obj.
From Verif Require Import M_Solver S_Solver.
Local Open Scope R_scope.

Lemma user_obj_ext u k b0 b b0' b' : b0 = b0' -> (forall j, b j = b' j) -> user_obj u k b0 b = user_obj u k b0' b'.
Proof.
  intros -> E. unfold user_obj, user_eta. f_equal; [f_equal; f_equal|].
  - f_equal. apply map_ext. intros i. f_equal. f_equal. f_equal. f_equal. apply rsum_ext. intros j _. rewrite E. reflexivity.
  - apply rsum_ext. intros i _. apply rsum_ext. intros j _. rewrite !E. reflexivity.
  - apply rsum_ext. intros j _. rewrite E. reflexivity.
Qed.

Lemma std_ok u se : user_ok u -> pb_ok (std_problem u se).
Proof.
  intros [A [B [_ [C _]]]]. split; [exact A|split; [exact B|]]. intros j. simpl. unfold std_P1. destruct (u_scale u); [apply C|].
  apply Rmult_le_pos; [apply C|]. left. apply inv_pos.
Qed.
Lemma std_P2_sym u : p2_sym (u_p u) (u_P2 u) -> p2_sym (u_p u) (std_problem_P2 u).
Proof.
  intros H i j Hi Hj. specialize (H i j Hi Hj). unfold std_problem_P2, std_P2. destruct (u_scale u); [exact H|].
  destruct (u_P2 u) as [d|M]; simpl in *.
  - rewrite (Nat.eqb_sym j i). destruct (Nat.eqb_spec i j); [subst; reflexivity|reflexivity].
  - rewrite H. ring.
Qed.
Lemma std_P2_psd u : p2_psd (u_p u) (u_P2 u) -> p2_psd (u_p u) (std_problem_P2 u).
Proof.
  intros H v. unfold std_problem_P2, std_P2. destruct (u_scale u); [apply H|].
  specialize (H (fun j => v j * one_over (u_stds u j))). cbv beta in H.
  erewrite rsum_ext; [exact H|]. intros i _. apply rsum_ext. intros j _.
  destruct (u_P2 u) as [d|M]; simpl; [|ring]. destruct (Nat.eqb_spec i j); [subst; ring|ring].
Qed.

Lemma clip_zero lb ub : within lb ub 0 -> clip_hi ub (clip_lo lb 0) = 0.
Proof.
  intros [A B]. unfold clip_hi, clip_lo. destruct lb as [l|]; [specialize (A l eq_refl)|]; destruct ub as [b|]; try specialize (B b eq_refl);
    try rewrite Rmax_left by lra; try rewrite Rmin_left by lra; reflexivity.
Qed.
Lemma clip_sign lb ub s x : 0 < s -> (forall y, lb = Some y \/ ub = Some y -> y = 0) ->
  within lb ub (clip_hi ub (clip_lo lb x) * s).
Proof.
  intros Hs H. destruct lb as [l|], ub as [b|]; simpl.
  - pose proof (H l (or_introl eq_refl)). pose proof (H b (or_intror eq_refl)). subst.
    assert (E : Rmin (Rmax x 0) 0 = 0). { apply Rmin_right. apply Rmax_r. }
    rewrite E. split; intros y Ey; injection Ey as <-; lra.
  - pose proof (H l (or_introl eq_refl)). subst. split; intros y Ey; [injection Ey as <-|discriminate].
    apply Rmult_le_pos; [apply Rmax_r|lra].
  - pose proof (H b (or_intror eq_refl)). subst. split; intros y Ey; [discriminate|injection Ey as <-].
    pose proof (Rmin_r x 0). nra.
  - split; intros y Ey; discriminate.
Qed.

(** the clipped start is feasible on the standardized scale *)
Lemma start_in_box u se guess a : start_ok u a ->
  in_box (std_problem u se) (get_start_coef (u_p u) (u_ic u) (u_means u) (u_stds u) guess (u_lb u) (u_ub u) a).
Proof.
  intros [[-> H]|H]; apply box_std; intros j Hj; rewrite result_coef; unfold get_start_coef, clip_start;
    (destruct (Nat.ltb_spec (ioff (u_ic u) + j) (ioff (u_ic u))); [lia|]);
    replace (ioff (u_ic u) + j - ioff (u_ic u))%nat with j by lia; cbv zeta.
  - assert (E : pack (u_ic u) guess (fun _ => 0) (ioff (u_ic u) + j)%nat = 0) by (unfold pack; destruct (u_ic u); reflexivity).
    rewrite E, clip_zero by (apply H; exact Hj). rewrite Rmult_0_l. apply H; exact Hj.
  - apply clip_sign; [apply inv_pos|]. intros y. apply H; exact Hj.
Qed.

(** distance on the standardized scale between a result and a competitor *)
Lemma std_distance u v b0 b D : (u_ic u = false -> b0 = 0) ->
  (u_ic u = true -> Rabs (b0 - fst (user_result u v) + rsum (u_p u) (fun j => u_means u j * (b j - snd (user_result u v) j))) <= D) ->
  (forall j, (j < u_p u)%nat -> col_scale u j * Rabs (b j - snd (user_result u v) j) <= D) ->
  forall k, (k < u_p u + ioff (u_ic u))%nat -> Rabs (to_std u b0 b k - v k) <= D.
Proof.
  intros H0 HI HD k Hk.
  assert (Q : forall j, (j < u_p u)%nat -> b j * col_scale u j - v (ioff (u_ic u) + j)%nat = col_scale u j * (b j - snd (user_result u v) j)).
  { intros j Hj. rewrite result_coef, col_scale_inv. pose proof (inv_pos u j). field. lra. }
  assert (P : forall j, 0 < col_scale u j) by (intros j; rewrite col_scale_inv; apply Rinv_0_lt_compat, inv_pos).
  assert (Q' : forall j, (j < u_p u)%nat -> Rabs (b j * col_scale u j - v (ioff (u_ic u) + j)%nat) <= D).
  { intros j Hj. rewrite Q, Rabs_mult, (Rabs_right (col_scale u j)) by (try exact Hj; pose proof (P j); lra). apply HD, Hj. }
  unfold to_std, pack. destruct (u_ic u) eqn:E; cbn [ioff Nat.add] in *.
  - destruct k as [|j]; [|apply Q'; lia].
    replace (b0 + rsum (u_p u) (fun j => u_means u j * b j) - v 0%nat)
      with (b0 - fst (user_result u v) + rsum (u_p u) (fun j => u_means u j * (b j - snd (user_result u v) j))); [apply HI; reflexivity|].
    rewrite (rsum_ext (u_p u) (fun j => u_means u j * (b j - snd (user_result u v) j)) (fun j => u_means u j * b j - u_means u j * snd (user_result u v) j)) by (intros; ring).
    rewrite rsum_minus. unfold user_result, unpack. rewrite E. cbn [unstandardize fst snd].
    rewrite (rsum_ext (u_p u) (fun j => u_means u j * one_over (u_stds u j) * v (S j)) (fun j => u_means u j * (v (S j) * one_over (u_stds u j)))) by (intros; ring).
    ring.
  - apply Q'. lia.
Qed.
