(** Least-squares directions, the closed form and the monotonic penalty. *)
From Verif Require Import M_Solver S_Solver L_Link L_Dist L_Dist2 L_Dist3 L_Dist4 L_CD L_KKT L_Hess L_Solver L_Solver2 L_Solver3 L_Obj.
From Verif Require Import M_Solver S_Solver.
Local Open Scope R_scope.

Lemma filter_len_le {A} (f : A -> bool) l : (length (filter f l) <= length l)%nat.
Proof. induction l; simpl; auto. destruct (f a); simpl; lia. Qed.
Lemma filter_full {A} (f : A -> bool) l : length (filter f l) = length l -> filter f l = l.
Proof.
  induction l as [|a l IH]; simpl; auto. destruct (f a) eqn:E; simpl; intros H.
  - f_equal. apply IH. lia.
  - exfalso. pose proof (filter_len_le f l). lia.
Qed.
Lemma identify_full pb c sc mx : length (identify_active_set pb c sc mx) = nc pb ->
  identify_active_set pb c sc mx = seq 0 (nc pb).
Proof.
  unfold identify_active_set, nc. rewrite app_length, map_length. intros H.
  rewrite filter_full.
  - destruct (pb_ic pb); simpl.
    + f_equal. rewrite seq_shift. reflexivity.
    + rewrite map_id. reflexivity.
  - rewrite seq_length. destruct (pb_ic pb); simpl in H; lia.
Qed.

Lemma ls_direction pb solve P2 s d cyc : pb_ok pb -> 0 <= pb_approx pb -> p2_sym (pb_p pb) P2 ->
  solve_sound solve -> inv pb P2 s ->
  ls_solver pb solve (fst (prepare pb s)) (snd (prepare pb s)) = Some (d, cyc) ->
  forall k, (k < nc pb)%nat ->
    rsum (nc pb) (fun l => exact_hessian pb (st_hrows (fst (prepare pb s))) P2 k l * d l) = st_score s k.
Proof.
  intros Hok HC HS Hsol [C P A H] E k Hk.
  destruct (prepare_spec pb s P2 HC P A H) as [A1 [_ [HE _]]].
  pose proof (prepare_facts pb s) as PF. set (s1 := fst (prepare pb s)) in *. set (Hm := snd (prepare pb s)) in *.
  unfold ls_solver in E. destruct (pb_has_bounds pb); [discriminate|].
  destruct (Nat.eqb (length (st_act s1)) (nc pb)) eqn:EL; [|discriminate]. apply Nat.eqb_eq in EL.
  destruct (solve (nc pb) Hm (st_score s1)) as [x|] eqn:ES; [|discriminate]. injection E as -> _.
  assert (Eact : st_act s1 = seq 0 (nc pb)).
  { rewrite (pf_act _ _ _ _ PF) in *. apply identify_full. exact EL. }
  assert (HE' : forall a b, (a < nc pb)%nat -> (b < nc pb)%nat -> Hm a b = exact_hessian pb (st_hrows s1) P2 a b).
  { intros a b Ha Hb. rewrite HE by (rewrite EL; auto). rewrite Eact, !seq_nth by auto. reflexivity. }
  assert (SY : symmetric (nc pb) Hm).
  { intros i j Hi Hj. rewrite !HE' by auto. apply exact_hessian_sym; auto. }
  rewrite <- (pf_score _ _ _ _ PF). rewrite <- (Hsol _ _ _ _ SY ES k Hk).
  apply rsum_ext. intros l Hl. rewrite HE' by auto. reflexivity.
Qed.

Lemma l1_pen_zero pb c : (forall j, (j < pb_p pb)%nat -> pb_P1 pb j = 0) -> l1_pen pb c = 0.
Proof. intros H. apply rsum_zero. intros j Hj. rewrite H by exact Hj. rewrite Rmult_0_l. apply Rabs_R0. Qed.

Lemma quad_sum n (A : nat -> nat -> R) d b : (forall k, (k < n)%nat -> rsum n (fun l => A k l * d l) = b k) ->
  rsum n (fun k => rsum n (fun l => d k * A k l * d l)) = rsum n (fun k => b k * d k).
Proof.
  intros H. apply rsum_ext. intros k Hk. rewrite <- H by exact Hk. rewrite <- rsum_scal_r. apply rsum_ext. intros; ring.
Qed.

Lemma ls_bound_nonpos pb solve P2 inner c s d cyc : pb_ok pb -> 0 <= pb_approx pb ->
  (forall i, (i < pb_n pb)%nat -> 0 <= pb_w pb i) -> means_ok pb -> p2_sym (pb_p pb) P2 -> p2_psd (pb_p pb) P2 ->
  (forall j, (j < pb_p pb)%nat -> pb_P1 pb j = 0) ->
  solve_sound solve -> reach pb inner P2 c s ->
  ls_solver pb solve (fst (prepare pb s)) (snd (prepare pb s)) = Some (d, cyc) ->
  ls_bound pb (st_coef s) (st_score s) d <= 0.
Proof.
  intros Hok HC Hw Hm HS HP HP1 Hsol R E.
  pose proof (reach_inv _ _ _ _ _ Hok HC R) as I.
  pose proof (ls_direction pb solve P2 s d cyc Hok HC HS Hsol I E) as D.
  destruct (old_rows_nonneg pb inner P2 c s Hok HC Hw Hm R) as [_ [_ N]].
  pose proof (exact_psd pb _ P2 d N HP) as Q. rewrite (quad_sum _ _ _ _ D) in Q.
  unfold ls_bound. rewrite !l1_pen_zero by exact HP1. unfold dot. lra.
Qed.

(** ** the closed form *)
Lemma has_l2_false p P2 : has_l2_penalty p P2 = false -> forall i j, (i < p)%nat -> (j < p)%nat -> p2_entry P2 i j = 0.
Proof.
  intros H i j Hi Hj. destruct P2 as [v|M]; simpl in *.
  - destruct (Nat.eqb i j); [|reflexivity].
    destruct (Reqb (v i) 0) eqn:E; [apply Reqb_true in E; exact E|].
    assert (T : existsb (fun i => negb (Reqb (v i) 0)) (seq 0 p) = true); [|congruence].
    apply existsb_exists. exists i. rewrite in_seq, E. split; [lia|reflexivity].
  - destruct (Reqb (M i j) 0) eqn:E; [apply Reqb_true in E; exact E|].
    assert (T : existsb (fun i => existsb (fun j => negb (Reqb (M i j) 0)) (seq 0 p)) (seq 0 p) = true); [|congruence].
    apply existsb_exists. exists i. rewrite in_seq. split; [lia|]. apply existsb_exists. exists j. rewrite in_seq, E. split; [lia|reflexivity].
Qed.

Lemma tikhonov_matrix_eq pb P2 k l : (k < nc pb)%nat -> (l < nc pb)%nat ->
  tikhonov_matrix pb P2 k l = exact_hessian pb (pb_w pb) P2 k l.
Proof.
  intros Hk Hl. unfold tikhonov_matrix. cbv zeta.
  assert (ES : sandwich pb (pb_w pb) (seq 0 (pb_n pb)) (seq 0 (pb_p pb)) k l
               = rsum (pb_n pb) (fun i => pb_w pb i * xt pb i k * xt pb i l)).
  { pose proof (sandwich_exact pb (pb_w pb) (seq 0 (pb_n pb)) (seq 0 (nc pb)) k l (act_ok_full pb)) as Q.
    rewrite seq_length in Q. specialize (Q Hk Hl (or_introl eq_refl)). rewrite !seq_nth in Q by auto. simpl Nat.add in Q.
    rewrite <- Q. f_equal. unfold nc, ioff. destruct (pb_ic pb); simpl.
    - rewrite <- seq_shift, map_map. rewrite <- (map_id (seq 0 (pb_p pb))) at 1. apply map_ext. intros; lia.
    - rewrite <- (map_id (seq 0 (pb_p pb))) at 1. apply map_ext. intros; lia. }
  rewrite ES. unfold exact_hessian. set (S := rsum _ _). unfold nc, ioff in *.
  destruct (has_l2_penalty (pb_p pb) P2) eqn:E2; simpl negb; cbv iota.
  - unfold p2_full, p2_entry. destruct (pb_ic pb); destruct P2 as [v|M]; simpl in *.
    + destruct k as [|k], l as [|l]; simpl; try lra;
      try (destruct (Nat.eqb_spec k l); simpl; rewrite ?Nat.sub_0_r; lra).
    + destruct k as [|k], l as [|l]; simpl; rewrite ?Nat.sub_0_r; try lra.
    + rewrite andb_true_r. rewrite ?Nat.sub_0_r. destruct (Nat.eqb k l); lra.
    + rewrite ?Nat.sub_0_r. lra.
  - assert (Z : p2_full (pb_ic pb) P2 k l = 0); [|lra].
    unfold p2_full. destruct (pb_ic pb); simpl in *; [destruct k as [|k], l as [|l]; auto; apply (has_l2_false (pb_p pb)); auto; lia|].
    apply (has_l2_false (pb_p pb)); auto.
Qed.

Lemma tikhonov_rhs_eq pb k : (k < nc pb)%nat ->
  tikhonov_rhs pb k = rsum (pb_n pb) (fun i => pb_w pb i * (pb_y pb i - pb_off pb i) * xt pb i k).
Proof. intros Hk. unfold tikhonov_rhs. rewrite xt_vec_eq by exact Hk. reflexivity. Qed.

Lemma quad_zero g q : (forall t, 0 <= 2 * t * g + t * t * q) -> g = 0.
Proof.
  intros H. destruct (Req_dec g 0) as [|N]; [assumption|]. exfalso.
  destruct (Rle_dec q 0) as [Hq|Hq].
  - pose proof (H 1). pose proof (H (-1)). nra.
  - specialize (H (- g / q)). replace (2 * (- g / q) * g + - g / q * (- g / q) * q) with (- (g * g) / q) in H by (field; lra).
    assert (0 < g * g) by nra. assert (0 < g * g / q) by (apply Rdiv_lt_0_compat; lra). lra.
Qed.
Lemma lstsq_normal n A b x : (forall v, residual_sq n A b x <= residual_sq n A b v) ->
  forall j, (j < n)%nat -> rsum n (fun i => (rsum n (fun j => A i j * x j) - b i) * A i j) = 0.
Proof.
  intros H. set (r := fun i => rsum n (fun j => A i j * x j) - b i). set (g := fun j => rsum n (fun i => r i * A i j)).
  assert (Z : rsum n (fun j => g j * g j) = 0).
  { apply (quad_zero _ (rsum n (fun i => (rsum n (fun j => A i j * g j)) ^ 2))). intros t.
    specialize (H (fun j => x j + t * g j)). unfold residual_sq in H.
    rewrite (rsum_ext n (fun i => (rsum n (fun j => A i j * (x j + t * g j)) - b i) ^ 2)
      (fun i => (r i) ^ 2 + 2 * t * (r i * rsum n (fun j => A i j * g j)) + t * t * (rsum n (fun j => A i j * g j)) ^ 2)) in H.
    - rewrite !rsum_plus, !rsum_scal in H.
      assert (E : rsum n (fun i => r i * rsum n (fun j => A i j * g j)) = rsum n (fun j => g j * g j)).
      { rewrite (rsum_ext n _ (fun i => rsum n (fun j => r i * A i j * g j))) by (intros; rewrite <- rsum_scal; apply rsum_ext; intros; ring).
        rewrite rsum_swap. apply rsum_ext. intros j _. unfold g at 3. rewrite <- rsum_scal. apply rsum_ext. intros; ring. }
      fold r in H. rewrite E in H. change (rsum n (fun i => (rsum n (fun j => A i j * x j) - b i) ^ 2)) with (rsum n (fun i => r i ^ 2)) in H. lra.
    - intros i _. replace (rsum n (fun j => A i j * (x j + t * g j))) with (rsum n (fun j => A i j * x j) + t * rsum n (fun j => A i j * g j)).
      + unfold r. ring.
      + rewrite <- rsum_scal, <- rsum_plus. apply rsum_ext. intros; ring. }
  intros j Hj. assert (G : g j * g j = 0) by (apply (rsum_zero_inv n (fun j => g j * g j)); auto; intros; nra).
  change (g j = 0). nra.
Qed.

Definition normal_eqs (pb : problem) (P2 : P2t) (x : nat -> R) : Prop := forall k, (k < nc pb)%nat ->
  rsum (nc pb) (fun l => exact_hessian pb (pb_w pb) P2 k l * x l)
  = rsum (pb_n pb) (fun i => pb_w pb i * (pb_y pb i - pb_off pb i) * xt pb i k).

Lemma tikhonov_normal pb P2 solve lstsq : (forall i, (i < pb_n pb)%nat -> 0 <= pb_w pb i) ->
  p2_sym (pb_p pb) P2 -> p2_psd (pb_p pb) P2 -> (forall pos, solve_sound (solve pos)) -> lstsq_sound lstsq ->
  normal_eqs pb P2 (tikhonov_solver pb P2 solve lstsq).
Proof.
  intros Hw HS HP Hsol Hl k Hk. set (A := tikhonov_matrix pb P2). set (b := tikhonov_rhs pb).
  assert (SY : symmetric (nc pb) A).
  { intros i j Hi Hj. unfold A. rewrite !tikhonov_matrix_eq by auto. apply exact_hessian_sym; auto. }
  assert (G : forall k, (k < nc pb)%nat -> rsum (nc pb) (fun l => A k l * tikhonov_solver pb P2 solve lstsq l) = b k).
  { unfold tikhonov_solver. cbv zeta. fold A b. destruct (solve _ _ _ _) as [x|] eqn:E; [eapply Hsol; eauto|].
    set (x := lstsq (nc pb) A b). set (r := fun i => rsum (nc pb) (fun j => A i j * x j) - b i).
    pose proof (lstsq_normal (nc pb) A b x (Hl (nc pb) A b)) as N. fold r in N. change (fun i => _ - b i) with r in N.
    assert (Ar : forall j, (j < nc pb)%nat -> rsum (nc pb) (fun i => A j i * r i) = 0).
    { intros j Hj. rewrite <- (N j Hj). apply rsum_ext. intros i Hi. rewrite (SY i j) by auto. unfold r. ring. }
    assert (Q : rsum (nc pb) (fun k => rsum (nc pb) (fun l => r k * A k l * r l)) = 0).
    { rewrite (quad_sum _ _ _ (fun _ => 0)) by exact Ar. apply rsum_zero. intros; ring. }
    rewrite (rsum_ext (nc pb) _ (fun k => rsum (nc pb) (fun l => r k * exact_hessian pb (pb_w pb) P2 k l * r l))) in Q.
    2:{ intros i Hi. apply rsum_ext. intros j Hj. unfold A. rewrite tikhonov_matrix_eq by auto. reflexivity. }
    rewrite quad_exact in Q. pose proof (l2_form_nonneg pb P2 r HP).
    assert (NN : forall i, (i < pb_n pb)%nat -> 0 <= pb_w pb i * (rsum (nc pb) (fun k => xt pb i k * r k)) ^ 2)
      by (intros; apply Rmult_le_pos; [auto|apply pow2_ge_0]).
    pose proof (rsum_nonneg _ _ NN).
    assert (Z : forall i, (i < pb_n pb)%nat -> pb_w pb i * rsum (nc pb) (fun k => xt pb i k * r k) = 0).
    { intros i Hi. pose proof (rsum_zero_inv _ _ NN ltac:(lra) i Hi) as Z. cbv beta in Z.
      destruct (Req_dec (pb_w pb i) 0) as [W|W]; [rewrite W; ring|].
      apply Rmult_integral in Z. destruct Z as [Z|Z]; [contradiction|]. assert (Z' : rsum (nc pb) (fun k => xt pb i k * r k) = 0) by nra. rewrite Z'. ring. }
    assert (RB : rsum (nc pb) (fun k => r k * b k) = 0).
    { rewrite (rsum_ext (nc pb) _ (fun k => rsum (pb_n pb) (fun i => (pb_y pb i - pb_off pb i) * (pb_w pb i * (xt pb i k * r k))))).
      - rewrite rsum_swap. apply rsum_zero. intros i Hi. rewrite rsum_scal, rsum_scal, Z by exact Hi. ring.
      - intros j Hj. unfold b. rewrite tikhonov_rhs_eq by exact Hj. rewrite <- rsum_scal. apply rsum_ext. intros; ring. }
    assert (RA : rsum (nc pb) (fun k => r k * rsum (nc pb) (fun j => A k j * x j)) = 0).
    { rewrite (rsum_ext (nc pb) _ (fun k => rsum (nc pb) (fun j => x j * (A j k * r k)))).
      - rewrite rsum_swap. apply rsum_zero. intros j Hj. rewrite rsum_scal, Ar by exact Hj. ring.
      - intros i Hi. rewrite <- rsum_scal. apply rsum_ext. intros j Hj. rewrite (SY i j) by auto. ring. }
    assert (RR : rsum (nc pb) (fun k => r k * r k) = 0).
    { rewrite (rsum_ext (nc pb) _ (fun k => r k * rsum (nc pb) (fun j => A k j * x j) - r k * b k)) by (intros; unfold r; ring).
      rewrite rsum_minus. lra. }
    intros j Hj. assert (W1 : r j * r j = 0) by (apply (rsum_zero_inv (nc pb) (fun k => r k * r k)); auto; intros; nra).
    assert (W2 : r j = 0) by nra. unfold r in W2. lra. }
  rewrite <- tikhonov_rhs_eq by exact Hk. fold b. rewrite <- (G k Hk). apply rsum_ext. intros l Hl'. unfold A. rewrite tikhonov_matrix_eq by auto. reflexivity.
Qed.

Lemma ridge_expand pb P2 c d : p2_sym (pb_p pb) P2 -> normal_eqs pb P2 c ->
  ridge_obj pb P2 (vadd c d) = ridge_obj pb P2 c
  + / 2 * (rsum (pb_n pb) (fun i => pb_w pb i * (rsum (nc pb) (fun k => xt pb i k * d k)) ^ 2) + l2_form pb P2 d).
Proof.
  intros HS N. unfold ridge_obj.
  pose proof (l2_form_add pb P2 c d 1 HS) as L.
  assert (E1 : vadd c (vscale 1 d) = vadd c d).
  { apply FunctionalExtensionality.functional_extensionality. intros k. unfold vadd, vscale. ring. }
  rewrite E1 in L. 
  rewrite (rsum_ext (pb_n pb) (fun i => pb_w pb i * (pb_y pb i - eta_of pb (vadd c d) i) ^ 2)
    (fun i => pb_w pb i * (pb_y pb i - eta_of pb c i) ^ 2
       + (-2) * (pb_w pb i * (pb_y pb i - eta_of pb c i) * rsum (nc pb) (fun k => xt pb i k * d k))
       + pb_w pb i * (rsum (nc pb) (fun k => xt pb i k * d k)) ^ 2)).
  2:{ intros i _. rewrite <- E1, eta_of_add, lin_pred_eq. ring. }
  rewrite !rsum_plus, rsum_scal.
  assert (G : rsum (pb_n pb) (fun i => pb_w pb i * (pb_y pb i - eta_of pb c i) * rsum (nc pb) (fun k => xt pb i k * d k))
    = rsum (nc pb) (fun k => rsum (nc pb) (fun l => c l * p2_full (pb_ic pb) P2 l k) * d k)).
  { rewrite (rsum_ext (pb_n pb) _ (fun i => rsum (nc pb) (fun k => pb_w pb i * (pb_y pb i - eta_of pb c i) * xt pb i k * d k)))
      by (intros; rewrite <- rsum_scal; apply rsum_ext; intros; ring).
    rewrite rsum_swap. apply rsum_ext. intros k Hk. rewrite rsum_scal_r. f_equal.
    specialize (N k Hk). unfold exact_hessian in N.
    rewrite (rsum_ext (nc pb) _ (fun l => rsum (pb_n pb) (fun i => pb_w pb i * xt pb i k * (xt pb i l * c l)) + c l * p2_full (pb_ic pb) P2 l k)) in N.
    2:{ intros l Hl. rewrite (p2_full_sym pb P2 k l HS Hk Hl). rewrite Rmult_plus_distr_r, <- rsum_scal_r. f_equal; [apply rsum_ext; intros; ring|ring]. }
    rewrite rsum_plus, rsum_swap in N.
    assert (E : rsum (pb_n pb) (fun i => pb_w pb i * (pb_y pb i - eta_of pb c i) * xt pb i k)
      = rsum (pb_n pb) (fun i => pb_w pb i * (pb_y pb i - pb_off pb i) * xt pb i k)
        - rsum (pb_n pb) (fun j => rsum (nc pb) (fun i => pb_w pb j * xt pb j k * (xt pb j i * c i)))).
    { rewrite <- rsum_minus. apply rsum_ext. intros i _. rewrite rsum_scal. unfold eta_of. ring. }
    lra. }
  lra.
Qed.
