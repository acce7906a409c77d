(** Lemmas for C43. *)
From Verif Require Import M_CV S_CV L_Path L_Path2 L_Path3 L_Pred.
From Coq Require Import FunctionalExtensionality Permutation.
From Verif Require Import M_Solver S_Solver.
Local Open Scope R_scope.

Lemma all_opt_spec {A} (l : list (option A)) v : all_opt l = Some v -> l = map Some v.
Proof.
  revert v. induction l as [|[a|] l IH]; intros v H; simpl in H.
  - injection H as <-. reflexivity.
  - destruct (all_opt l) as [w|]; [|discriminate]. injection H as <-. simpl. rewrite (IH w eq_refl). reflexivity.
  - discriminate.
Qed.
Lemma all_opt_map_Some {A} (v : list A) : all_opt (map Some v) = Some v.
Proof. induction v as [|a v IH]; [reflexivity|]. simpl. rewrite IH. reflexivity. Qed.
Lemma all_opt_length {A} (l : list (option A)) v : all_opt l = Some v -> length v = length l.
Proof. intros H. rewrite (all_opt_spec l v H), map_length. reflexivity. Qed.
Lemma all_opt_nth {A B} (f : A -> option B) l v k d d' : all_opt (map f l) = Some v -> (k < length l)%nat -> f (nth k l d) = Some (nth k v d').
Proof.
  intros H Hk. pose proof (all_opt_length _ _ H) as L. rewrite map_length in L. apply all_opt_spec in H.
  apply (f_equal (fun x => nth_error x k)) in H. rewrite !nth_error_map in H.
  rewrite (nth_error_nth' l d Hk), (nth_error_nth' v d') in H by lia. simpl in H. injection H as H. exact H.
Qed.
Lemma all_opt_none {A} (l : list (option A)) : all_opt l = None <-> In None l.
Proof.
  induction l as [|[a|] l IH]; simpl.
  - split; [discriminate|intros []].
  - destruct (all_opt l) as [w|]; simpl.
    + split; [discriminate|]. intros [H|H]; [discriminate|]. apply IH in H. discriminate.
    + split; [intros _; right; apply IH; reflexivity|reflexivity].
  - split; [left; reflexivity|reflexivity].
Qed.

(** *** weights *)
Definition norm_row (c : R) (r : row) : row := mkRow (r_x r) (r_y r) (r_w r / c) (r_off r).
Lemma norm_row0 c : norm_row c row0 = row0.
Proof. unfold norm_row, row0. simpl. f_equal. unfold Rdiv. ring. Qed.
Lemma pick_norm rows idx : pick (norm_rows rows) idx = map (norm_row (lsum (map r_w rows))) (pick rows idx).
Proof.
  unfold pick, norm_rows. rewrite map_map. apply map_ext. intros i.
  change (fun r => mkRow (r_x r) (r_y r) (r_w r / lsum (map r_w rows)) (r_off r)) with (norm_row (lsum (map r_w rows))).
  rewrite <- (norm_row0 (lsum (map r_w rows))) at 1. apply map_nth.
Qed.
Lemma lsum_norm c l : lsum (map r_w (map (norm_row c) l)) = lsum (map r_w l) / c.
Proof. induction l as [|x l IH]; simpl; [unfold Rdiv; ring|]. rewrite IH. unfold Rdiv. ring. Qed.
Lemma normalise_norm c l : c <> 0 -> normalise_weights (map r_w (map (norm_row c) l)) = normalise_weights (map r_w l).
Proof.
  intros Hc. unfold normalise_weights. rewrite lsum_norm. rewrite !map_map. apply map_ext. intros x. simpl.
  destruct (Req_dec (lsum (map r_w l)) 0) as [E|E].
  - rewrite E. unfold Rdiv. rewrite Rmult_0_l, Rinv_0. ring.
  - field. auto.
Qed.
Lemma with_rows_norm u c l : c <> 0 -> with_rows u (map (norm_row c) l) = with_rows u l.
Proof.
  intros Hc. unfold with_rows. rewrite normalise_norm by exact Hc. rewrite map_length.
  assert (E : forall i, nth i (map (norm_row c) l) row0 = norm_row c (nth i l row0)).
  { intros i. rewrite <- (norm_row0 c) at 1. apply map_nth. }
  f_equal; apply functional_extensionality; intros i; rewrite E; reflexivity.
Qed.
Lemma rows_path_norm solve u se h a alphas c l : c <> 0 ->
  rows_path solve u se h a alphas (map (norm_row c) l) = rows_path solve u se h a alphas l.
Proof. intros Hc. unfold rows_path. rewrite with_rows_norm by exact Hc. reflexivity. Qed.
Lemma norm_rows_map rows : norm_rows rows = map (norm_row (lsum (map r_w rows))) rows.
Proof. reflexivity. Qed.
Lemma test_deviance_norm u c l b : c <> 0 -> test_deviance u (map (norm_row c) l) b = test_deviance u l b.
Proof.
  intros Hc. unfold test_deviance. rewrite lsum_norm, map_length.
  assert (E : Reqb (lsum (map r_w l) / c) 0 = Reqb (lsum (map r_w l)) 0).
  { destruct (Reqb (lsum (map r_w l)) 0) eqn:E.
    - apply Reqb_true in E. apply Reqb_true. rewrite E. unfold Rdiv. ring.
    - apply Reqb_false in E. apply Reqb_false. intros F. apply E.
      replace (lsum (map r_w l)) with (lsum (map r_w l) / c * c) by (field; exact Hc). rewrite F. ring. }
  rewrite E. destruct (Reqb (lsum (map r_w l)) 0 && negb (Nat.eqb (length l) 0))%bool eqn:B; [reflexivity|].
  f_equal. f_equal. rewrite map_map. apply map_ext. intros r. cbn [norm_row r_y r_w r_x r_off]. f_equal.
  destruct (Req_dec (lsum (map r_w l)) 0) as [Z|Z].
  - rewrite Z. unfold Rdiv. rewrite Rmult_0_l, Rinv_0. ring.
  - field. auto.
Qed.
Lemma test_deviance_heldout u l b : lsum (map r_w l) <> 0 -> test_deviance u l b = Some (heldout u l b).
Proof.
  intros H. unfold test_deviance. rewrite (proj2 (Reqb_false _ 0) H). cbn [andb]. f_equal. unfold heldout. f_equal.
  apply map_ext. intros r. f_equal. f_equal. unfold row_eta, eta_row. ring.
Qed.

(** *** argmin with NaN *)
Lemma first_nan_none l k : first_nan l k = None -> exists v, l = map Some v.
Proof.
  revert k. induction l as [|[x|] l IH]; intros k H; simpl in H.
  - exists []. reflexivity.
  - destruct (IH _ H) as [v ->]. exists (x :: v). reflexivity.
  - discriminate.
Qed.
Lemma first_nan_some v k : first_nan (map Some v) k = None.
Proof. revert k. induction v as [|x v IH]; intros k; [reflexivity|]. simpl. apply IH. Qed.
Lemma np_argmin_some v : np_argmin (map Some v) = argmin v.
Proof. unfold np_argmin. rewrite first_nan_some, map_map, map_id. reflexivity. Qed.
Lemma np_argmin_lt l q : np_argmin l = Some q -> (q < length l)%nat.
Proof.
  unfold np_argmin. destruct (first_nan l 0) as [k|] eqn:E.
  - intros H. injection H as <-. assert (G : forall l s k, first_nan l s = Some k -> (s <= k < s + length l)%nat).
    { clear. induction l as [|[x|] l IH]; intros s k H; simpl in H; [discriminate| |].
      - apply IH in H. simpl. lia.
      - injection H as <-. simpl. lia. }
    apply G in E. lia.
  - intros H. apply argmin_spec in H as [m [H _]]. rewrite <- (map_length (fun o : option R => match o with Some x => x | None => 0 end)).
    apply nth_error_Some. congruence.
Qed.

(** *** flattening *)
Lemma concat_grid_length {A} (f : nat -> nat -> A) n m s : length (concat (map (fun i => map (f i) (seq 0 m)) (seq s n))) = (n * m)%nat.
Proof. revert s. induction n as [|n IH]; intros s; [reflexivity|]. simpl. rewrite app_length, map_length, seq_length, IH. reflexivity. Qed.
Lemma concat_grid_nth {A} (f : nat -> nat -> A) n m s i j : (i < n)%nat -> (j < m)%nat ->
  nth_error (concat (map (fun i => map (f i) (seq 0 m)) (seq s n))) (i * m + j) = Some (f (s + i)%nat j).
Proof.
  revert s i. induction n as [|n IH]; intros s i Hi Hj; [lia|]. cbn [seq map concat].
  destruct i as [|i].
  - rewrite nth_error_app1 by (rewrite map_length, seq_length; simpl; lia). simpl.
    rewrite nth_error_map. rewrite (nth_error_nth' (seq 0 m) 0%nat) by (rewrite seq_length; lia). rewrite seq_nth by lia.
    simpl. rewrite Nat.add_0_r. reflexivity.
  - rewrite nth_error_app2 by (rewrite map_length, seq_length; simpl; lia).
    rewrite map_length, seq_length. replace (S i * m + j - m)%nat with (i * m + j)%nat by (simpl; lia).
    rewrite IH by lia. replace (S s + i)%nat with (s + S i)%nat by lia. reflexivity.
Qed.

(** *** sorting *)
Lemma insert_perm x l : Permutation (insert_asc x l) (x :: l).
Proof.
  induction l as [|y l IH]; [reflexivity|]. simpl. destruct (Rleb x y); [reflexivity|].
  rewrite IH. apply perm_swap.
Qed.
Lemma sort_asc_perm l : Permutation (sort_asc l) l.
Proof. induction l as [|x l IH]; [reflexivity|]. simpl. rewrite insert_perm. apply perm_skip, IH. Qed.
Fixpoint asc (l : list R) : Prop := match l with [] => True | x :: r => (forall y, In y r -> x <= y) /\ asc r end.
Lemma insert_asc_asc x l : asc l -> asc (insert_asc x l).
Proof.
  induction l as [|y l IH]; intros H; [simpl; split; [intros ? []|exact I]|]. simpl.
  destruct H as [H1 H2]. destruct (Rleb x y) eqn:E.
  - apply Rleb_true in E. split; [|split; assumption]. intros z [<-|Hz]; [exact E|]. specialize (H1 z Hz). lra.
  - apply Rleb_false in E. split; [|apply IH, H2]. intros z Hz.
    apply (Permutation_in z (insert_perm x l)) in Hz as [<-|Hz]; [lra|apply H1, Hz].
Qed.
Lemma sort_asc_asc l : asc (sort_asc l).
Proof. induction l as [|x l IH]; [exact I|]. simpl. apply insert_asc_asc, IH. Qed.
Lemma asc_nth l i j : asc l -> (i <= j)%nat -> (j < length l)%nat -> nth i l 0 <= nth j l 0.
Proof.
  revert i j. induction l as [|x l IH]; intros i j H Hij Hj; [simpl in Hj; lia|]. destruct H as [H1 H2].
  destruct j as [|j]; [assert (i = 0%nat) by lia; subst; lra|].
  destruct i as [|i]; simpl in *; [apply H1, nth_In; lia|apply IH; auto; lia].
Qed.
Lemma sort_desc_perm l : Permutation (sort_desc l) l.
Proof. unfold sort_desc. rewrite <- Permutation_rev. apply sort_asc_perm. Qed.
Lemma sort_desc_desc l : descending (sort_desc l).
Proof.
  intros i j Hij Hj. unfold sort_desc in *. rewrite rev_length in Hj.
  rewrite !rev_nth by lia. apply asc_nth; [apply sort_asc_asc|lia|lia].
Qed.

(** *** KFold *)
Lemma fold_start_total n k : (1 <= k)%nat -> fold_start n k k = n.
Proof.
  intros Hk. assert (G : forall i, fold_start n k i = (i * (n / k) + Nat.min i (n mod k))%nat).
  { induction i as [|i IH]; [reflexivity|]. cbn [fold_start]. rewrite IH. unfold fold_size. rewrite Nat.mul_succ_l. destruct (Nat.ltb_spec i (n mod k)); lia. }
  rewrite G. pose proof (Nat.mod_upper_bound n k ltac:(lia)). rewrite Nat.min_r by lia. symmetry. apply Nat.div_mod. lia.
Qed.
Lemma fold_start_mono n k i j : (i <= j)%nat -> (fold_start n k i <= fold_start n k j)%nat.
Proof. induction 1; [lia|]. simpl. lia. Qed.
Lemma fold_find n k r : forall K, (r < fold_start n k K)%nat -> exists i, (i < K)%nat /\ (fold_start n k i <= r < fold_start n k i + fold_size n k i)%nat.
Proof.
  induction K as [|K IH]; intros H; [simpl in H; lia|]. cbn [fold_start] in H.
  destruct (Nat.lt_ge_cases r (fold_start n k K)) as [L|L].
  - destruct (IH L) as [i [Hi Hr]]. exists i. split; [lia|exact Hr].
  - exists K. split; [lia|lia].
Qed.

(** *** the grid and the table *)
Lemma make_grid_length mi ra na n p amax l : make_grid mi ra na n p amax = Some l -> length l = na.
Proof.
  unfold make_grid, logspace, linspace. destruct mi as [m|].
  - destruct (Rleb amax m); [discriminate|]. intros H. injection H as <-. rewrite !map_length, seq_length. reflexivity.
  - destruct ra; intros H; injection H as <-; rewrite !map_length, seq_length; reflexivity.
Qed.
Lemma cv_grid_rect us se rows alphas mi ra na grid : cv_grid us se rows alphas mi ra na = Some grid ->
  length grid = length us /\ exists m, forall i, (i < length us)%nat -> length (nth i grid []) = m.
Proof.
  unfold cv_grid. destruct alphas as [l|]; intros H.
  - injection H as <-. rewrite map_length. split; [reflexivity|]. exists (length (sort_desc l)). intros i Hi.
    rewrite (nth_indep _ [] (sort_desc l)) by (rewrite map_length; exact Hi).
    change (sort_desc l) with ((fun _ : user => sort_desc l) (nth 0 us (nth 0 us (mkUser 0 0 (fun _ _ => 0) (fun _ => 0) (fun _ => 0) (fun _ => 0) true NormalF IdentityL (fun _ => 0) (P2diag (fun _ => 0)) (fun _ => None) (fun _ => None) true)))) at 2.
    rewrite map_nth. reflexivity.
  - pose proof (all_opt_length _ _ H) as L. rewrite map_length in L. split; [exact L|]. exists na. intros i Hi.
    pose proof (all_opt_nth _ us grid i (nth 0 us (mkUser 0 0 (fun _ _ => 0) (fun _ => 0) (fun _ => 0) (fun _ => 0) true NormalF IdentityL (fun _ => 0) (P2diag (fun _ => 0)) (fun _ => None) (fun _ => None) true)) [] H Hi) as E.
    cbn beta in E. unfold get_alpha_path in E. destruct (alpha_max _); [|discriminate]. apply make_grid_length in E. exact E.
Qed.
Lemma fit_path_length solve u se alphas start fp : fit_path solve u se alphas start = Some fp -> length (fp_path fp) = length alphas.
Proof.
  intros H. unfold fit_path in H. destruct (solve_path _ _ _ _ _) as [sols|] eqn:E; [|discriminate].
  destruct (rev sols); [discriminate|]. injection H as <-. cbn [fp_path]. rewrite map_length.
  apply solve_path_chained in E. destruct E as [E _]. exact E.
Qed.
Lemma rows_path_length solve u se h a alphas rows fp : rows_path solve u se h a alphas rows = Some fp -> length (fp_path fp) = length alphas.
Proof. unfold rows_path. destruct (start_guess _ _ _); [|discriminate]. apply fit_path_length. Qed.
Lemma mean_opt_some v : mean_opt (map Some v) = Some (lsum v / INR (length v)).
Proof. unfold mean_opt. rewrite all_opt_map_Some, map_length. reflexivity. Qed.
Lemma nth_error_ext {A} (l1 l2 : list A) : (forall k, nth_error l1 k = nth_error l2 k) -> l1 = l2.
Proof.
  revert l2. induction l1 as [|x l1 IH]; intros l2 H.
  - destruct l2 as [|y l2]; [reflexivity|]. specialize (H 0%nat). discriminate.
  - destruct l2 as [|y l2]; [specialize (H 0%nat); discriminate|]. f_equal.
    + specialize (H 0%nat). injection H as ->. reflexivity.
    + apply IH. intros k. apply (H (S k)).
Qed.
