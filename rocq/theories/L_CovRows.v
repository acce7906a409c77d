(** covariance_matrix depends on the rows through sums over the rows. *)
From Verif Require Import M_Cov S_Cov L_Cov L_Rows L_CV S_CovRows.
From Coq Require Import FunctionalExtensionality Permutation.
From Verif Require Import M_Solver S_Solver.
Import ListNotations.
Local Open Scope R_scope.

Lemma on_sum c rows (F : crow -> R) : rsum (ci_n (on_rows c rows)) (fun i => F (nth i rows crow0)) = lsumf F rows.
Proof. apply rsum_nth. Qed.

(** design row with the intercept *)
Definition cx (c : cov_in) (r : crow) (k : nat) : R := if ci_ic c then match k with O => 1 | S j => cvr_x r j end else cvr_x r k.
Lemma on_x c rows i k : ci_x (on_rows c rows) i k = cx c (nth i rows crow0) k.
Proof. reflexivity. Qed.

Lemma on_obs c rows : ci_obs (on_rows c rows) = map (fun r => mkobs (cvr_y r) (cvr_w r) (cvr_mu r)) rows.
Proof.
  unfold ci_obs. cbn [ci_n on_rows ci_y ci_w ci_mu]. apply nth_ext with (d := mkobs 0 0 0) (d' := mkobs (cvr_y crow0) (cvr_w crow0) (cvr_mu crow0)).
  - rewrite !map_length, seq_length. reflexivity.
  - intros i Hi. rewrite map_length, seq_length in Hi. rewrite (map_nth (fun r => mkobs (cvr_y r) (cvr_w r) (cvr_mu r))).
    rewrite (nth_indep _ _ ((fun i => mkobs (cvr_y (nth i rows crow0)) (cvr_w (nth i rows crow0)) (cvr_mu (nth i rows crow0))) 0%nat)) by (rewrite map_length, seq_length; exact Hi).
    rewrite (map_nth (fun i => mkobs (cvr_y (nth i rows crow0)) (cvr_w (nth i rows crow0)) (cvr_mu (nth i rows crow0)))). rewrite seq_nth by exact Hi. reflexivity.
Qed.

(** same weighted sums, same weighted sums of squares *)
Definition wsame (rows rows' : list crow) : Prop := forall G : (nat -> R) -> R -> R -> R,
  lsumf (fun r => cvr_w r * G (cvr_x r) (cvr_y r) (cvr_mu r)) rows = lsumf (fun r => cvr_w r * G (cvr_x r) (cvr_y r) (cvr_mu r)) rows'.
Definition w2same (rows rows' : list crow) : Prop := forall G : (nat -> R) -> R -> R -> R,
  lsumf (fun r => cvr_w r * cvr_w r * G (cvr_x r) (cvr_y r) (cvr_mu r)) rows = lsumf (fun r => cvr_w r * cvr_w r * G (cvr_x r) (cvr_y r) (cvr_mu r)) rows'.

Section Same.
  Variables (c : cov_in) (rows rows' : list crow).
  Hypothesis W : wsame rows rows'.

  Lemma same_total : lsumf cvr_w rows = lsumf cvr_w rows'.
  Proof.
    specialize (W (fun _ _ _ => 1)). rewrite (lsumf_ext _ _ cvr_w rows), (lsumf_ext _ _ cvr_w rows') in W by (intros; ring). exact W.
  Qed.
  Lemma same_total_weight : rsum (ci_n (on_rows c rows)) (ci_w (on_rows c rows)) = rsum (ci_n (on_rows c rows')) (ci_w (on_rows c rows')).
  Proof. rewrite !(on_sum c _ cvr_w : rsum _ (ci_w (on_rows c _)) = _). apply same_total. Qed.
  Lemma same_dispersion : ci_dispersion (on_rows c rows) = ci_dispersion (on_rows c rows').
  Proof.
    unfold ci_dispersion. cbn [ci_phi on_rows]. destruct (ci_phi c); [reflexivity|].
    change (dispersion (ci_fam c) Pearson true (INR (ci_k c)) (ci_obs (on_rows c rows)) = dispersion (ci_fam c) Pearson true (INR (ci_k c)) (ci_obs (on_rows c rows'))).
    rewrite !on_obs. unfold dispersion. rewrite !lsumf_map. cbn [ow]. rewrite (same_total : lsumf (fun a => cvr_w a) rows = lsumf (fun a => cvr_w a) rows'). f_equal.
    specialize (W (fun _ y mu => pearson_residual (ci_fam c) (mkobs y 1 mu))).
    assert (P : forall r, pearson_residual (ci_fam c) (mkobs (cvr_y r) (cvr_w r) (cvr_mu r)) = pearson_residual (ci_fam c) (mkobs (cvr_y r) 1 (cvr_mu r))) by reflexivity.
    rewrite (lsumf_ext _ _ (fun r => cvr_w r * pearson_residual (ci_fam c) (mkobs (cvr_y r) 1 (cvr_mu r))) rows), (lsumf_ext _ _ (fun r => cvr_w r * pearson_residual (ci_fam c) (mkobs (cvr_y r) 1 (cvr_mu r))) rows') by (intros; rewrite P; reflexivity).
    exact W.
  Qed.
  Lemma variance_linear f lk mu eta phi w : one_over_variance f lk mu eta phi w = w * one_over_variance f lk mu eta phi 1.
  Proof. unfold one_over_variance. destruct f; try (unfold Rdiv; ring). destruct lk; unfold Rdiv; ring. Qed.
  Lemma same_fisher phi : fisher_information (on_rows c rows) phi = fisher_information (on_rows c rows') phi.
  Proof.
    apply functional_extensionality. intros k. apply functional_extensionality. intros l. unfold fisher_information, info_sandwich.
    transitivity (lsumf (fun r => fisher_W (ci_fam c) (ci_link c) (cvr_y r) (cvr_mu r) (cvr_w r) phi * cx c r k * cx c r l) rows); [exact (on_sum c rows (fun r => fisher_W (ci_fam c) (ci_link c) (cvr_y r) (cvr_mu r) (cvr_w r) phi * cx c r k * cx c r l))|].
    transitivity (lsumf (fun r => fisher_W (ci_fam c) (ci_link c) (cvr_y r) (cvr_mu r) (cvr_w r) phi * cx c r k * cx c r l) rows'); [|symmetry; exact (on_sum c rows' (fun r => fisher_W (ci_fam c) (ci_link c) (cvr_y r) (cvr_mu r) (cvr_w r) phi * cx c r k * cx c r l))].
    specialize (W (fun x y mu => fisher_W (ci_fam c) (ci_link c) y mu 1 phi * cx c (mkCRow x y 1 mu 0) k * cx c (mkCRow x y 1 mu 0) l)).
    erewrite (lsumf_ext _ _ _ rows), (lsumf_ext _ _ _ rows'); [exact W| |]; intros r _; cbv beta; unfold cx; cbn [cvr_x]; unfold fisher_W; rewrite variance_linear; ring.
  Qed.
  Lemma same_observed phi : observed_information (on_rows c rows) phi = observed_information (on_rows c rows') phi.
  Proof.
    apply functional_extensionality. intros k. apply functional_extensionality. intros l. unfold observed_information, info_sandwich.
    transitivity (lsumf (fun r => observed_W (ci_fam c) (ci_link c) (cvr_y r) (cvr_mu r) (cvr_w r) phi * cx c r k * cx c r l) rows); [exact (on_sum c rows (fun r => observed_W (ci_fam c) (ci_link c) (cvr_y r) (cvr_mu r) (cvr_w r) phi * cx c r k * cx c r l))|].
    transitivity (lsumf (fun r => observed_W (ci_fam c) (ci_link c) (cvr_y r) (cvr_mu r) (cvr_w r) phi * cx c r k * cx c r l) rows'); [|symmetry; exact (on_sum c rows' (fun r => observed_W (ci_fam c) (ci_link c) (cvr_y r) (cvr_mu r) (cvr_w r) phi * cx c r k * cx c r l))].
    specialize (W (fun x y mu => observed_W (ci_fam c) (ci_link c) y mu 1 phi * cx c (mkCRow x y 1 mu 0) k * cx c (mkCRow x y 1 mu 0) l)).
    erewrite (lsumf_ext _ _ _ rows), (lsumf_ext _ _ _ rows'); [exact W| |]; intros r _; cbv beta; unfold cx; cbn [cvr_x]; unfold observed_W; cbv zeta; rewrite variance_linear; ring.
  Qed.
  Lemma same_nonrobust expected : covariance_matrix (on_rows c rows) false expected None = covariance_matrix (on_rows c rows') false expected None.
  Proof.
    unfold covariance_matrix. rewrite same_total_weight, same_dispersion, same_fisher. reflexivity.
  Qed.
  Hypothesis W2 : w2same rows rows'.
  Lemma same_gram phi : gram (ci_n (on_rows c rows)) (score_matrix (on_rows c rows) phi) = gram (ci_n (on_rows c rows')) (score_matrix (on_rows c rows') phi).
  Proof.
    apply functional_extensionality. intros k. apply functional_extensionality. intros l. unfold gram, score_matrix.
    transitivity (lsumf (fun r => score_W (ci_fam c) (ci_link c) (cvr_y r) (cvr_mu r) (cvr_w r) phi * cx c r k * (score_W (ci_fam c) (ci_link c) (cvr_y r) (cvr_mu r) (cvr_w r) phi * cx c r l)) rows); [exact (on_sum c rows (fun r => score_W (ci_fam c) (ci_link c) (cvr_y r) (cvr_mu r) (cvr_w r) phi * cx c r k * (score_W (ci_fam c) (ci_link c) (cvr_y r) (cvr_mu r) (cvr_w r) phi * cx c r l)))|].
    transitivity (lsumf (fun r => score_W (ci_fam c) (ci_link c) (cvr_y r) (cvr_mu r) (cvr_w r) phi * cx c r k * (score_W (ci_fam c) (ci_link c) (cvr_y r) (cvr_mu r) (cvr_w r) phi * cx c r l)) rows'); [|symmetry; exact (on_sum c rows' (fun r => score_W (ci_fam c) (ci_link c) (cvr_y r) (cvr_mu r) (cvr_w r) phi * cx c r k * (score_W (ci_fam c) (ci_link c) (cvr_y r) (cvr_mu r) (cvr_w r) phi * cx c r l)))].
    specialize (W2 (fun x y mu => score_W (ci_fam c) (ci_link c) y mu 1 phi * cx c (mkCRow x y 1 mu 0) k * (score_W (ci_fam c) (ci_link c) y mu 1 phi * cx c (mkCRow x y 1 mu 0) l))).
    erewrite (lsumf_ext _ _ _ rows), (lsumf_ext _ _ _ rows'); [exact W2| |]; intros r _; cbv beta; unfold cx; cbn [cvr_x]; unfold score_W; rewrite variance_linear; ring.
  Qed.
  Lemma same_robust robust expected : covariance_matrix (on_rows c rows) robust expected None = covariance_matrix (on_rows c rows') robust expected None.
  Proof.
    destruct robust; [|apply same_nonrobust].
    unfold covariance_matrix. rewrite same_total_weight, same_dispersion, same_fisher, same_observed, same_gram. reflexivity.
  Qed.
End Same.

Lemma perm_wsame rows rows' : Permutation rows rows' -> wsame rows rows'.
Proof. intros H G. apply lsumf_perm, H. Qed.
Lemma perm_w2same rows rows' : Permutation rows rows' -> w2same rows rows'.
Proof. intros H G. apply lsumf_perm, H. Qed.
Lemma zero_wsame rows : wsame (drop_zero_rows rows) rows.
Proof.
  intros G. induction rows as [|r rows IH]; [reflexivity|]. unfold drop_zero_rows. cbn [filter]. destruct (Reqb (cvr_w r) 0) eqn:E; cbn [negb].
  - apply Reqb_true in E. rewrite lsumf_cons, E. fold (drop_zero_rows rows). rewrite IH. ring.
  - rewrite !lsumf_cons. fold (drop_zero_rows rows). rewrite IH. reflexivity.
Qed.
Lemma zero_w2same rows : w2same (drop_zero_rows rows) rows.
Proof.
  intros G. induction rows as [|r rows IH]; [reflexivity|]. unfold drop_zero_rows. cbn [filter]. destruct (Reqb (cvr_w r) 0) eqn:E; cbn [negb].
  - apply Reqb_true in E. rewrite lsumf_cons, E. fold (drop_zero_rows rows). rewrite IH. ring.
  - rewrite !lsumf_cons. fold (drop_zero_rows rows). rewrite IH. reflexivity.
Qed.
Lemma written_wsame l : wsame (frequency l) (written_out l).
Proof.
  intros G. induction l as [|[k r] l IH]; [reflexivity|]. unfold frequency, written_out in *. cbn [map flat_map fst snd]. rewrite lsumf_cons, lsumf_app, IH. f_equal.
  cbn [set_cw cvr_w cvr_x cvr_y cvr_mu]. clear IH. induction k as [|k IH]; [rewrite lsumf_nil; simpl; ring|].
  cbn [repeat]. rewrite lsumf_cons, <- IH. cbn [set_cw cvr_w cvr_x cvr_y cvr_mu]. rewrite S_INR. ring.
Qed.

(** clusters *)
Lemma n_groups_perm g g' : Permutation g g' -> n_groups g = n_groups g'.
Proof.
  intros H. unfold n_groups. apply Permutation_length, NoDup_Permutation; try apply NoDup_nodup. intros x. rewrite !nodup_In.
  split; apply Permutation_in; [exact H|apply Permutation_sym, H].
Qed.
Lemma group_sum_rows c rows phi : group_sum (map cvr_g rows) (ci_n (on_rows c rows)) (score_matrix (on_rows c rows) phi) =
  if existsb (fun r => match py_index (n_groups (map cvr_g rows)) (cvr_g r) with None => true | _ => false end) rows then None
  else Some (fun g k => lsumf (fun r => (match py_index (n_groups (map cvr_g rows)) (cvr_g r) with Some h => if Nat.eqb h g then 1 else 0 | None => 0 end)
        * (score_W (ci_fam c) (ci_link c) (cvr_y r) (cvr_mu r) (cvr_w r) phi * cx c r k)) rows).
Proof.
  unfold group_sum. rewrite map_length. cbn [ci_n on_rows]. rewrite Nat.eqb_refl. cbn [negb]. rewrite map_map. set (ng := n_groups _).
  destruct (all_opt _) as [cols|] eqn:E.
  - destruct (existsb _ rows) eqn:X.
    + exfalso. apply existsb_exists in X as [r [Hr X]]. assert (N : In None (map (fun r => py_index ng (cvr_g r)) rows)) by (apply in_map_iff; exists r; split; [destruct (py_index ng (cvr_g r)); congruence|exact Hr]).
      apply all_opt_none in N. congruence.
    + f_equal. apply functional_extensionality. intros g. apply functional_extensionality. intros k. rewrite <- (rsum_nth crow rows crow0). apply rsum_ext. intros i Hi.
      pose proof (all_opt_nth (fun r => py_index ng (cvr_g r)) rows cols i crow0 0%nat E Hi) as Q. cbv beta in Q. rewrite Q. reflexivity.
  - apply all_opt_none in E. apply in_map_iff in E as [r [Er Hr]]. assert (X : existsb (fun r => match py_index ng (cvr_g r) with None => true | _ => false end) rows = true) by (apply existsb_exists; exists r; rewrite Er; auto).
    rewrite X. reflexivity.
Qed.
Lemma existsb_perm {A} (f : A -> bool) l l' : Permutation l l' -> existsb f l = existsb f l'.
Proof.
  intros H. destruct (existsb f l) eqn:E; symmetry.
  - apply existsb_exists in E as [x [Hx E]]. apply existsb_exists. exists x. split; [apply (Permutation_in _ H Hx)|exact E].
  - apply Bool.not_true_is_false. intros E'. apply existsb_exists in E' as [x [Hx E']]. assert (existsb f l = true); [|congruence].
    apply existsb_exists. exists x. split; [apply (Permutation_in _ (Permutation_sym H) Hx)|exact E'].
Qed.
Lemma perm_clustered c robust expected rows rows' : Permutation rows rows' ->
  covariance_matrix (on_rows c rows) robust expected (Some (map cvr_g rows)) = covariance_matrix (on_rows c rows') robust expected (Some (map cvr_g rows')).
Proof.
  intros H. pose proof (perm_wsame _ _ H) as W. unfold covariance_matrix. rewrite !group_sum_rows.
  rewrite (same_total_weight c _ _ W), (same_dispersion c _ _ W), (same_fisher c _ _ W), (same_observed c _ _ W).
  rewrite (n_groups_perm (map cvr_g rows) (map cvr_g rows')) by (apply Permutation_map, H). set (ng := n_groups _). set (phi := ci_dispersion _).
  rewrite (existsb_perm _ rows rows' H).
  match goal with |- context[fun g k => lsumf (@?F g k) rows] => replace (fun g k => lsumf (F g k) rows) with (fun g k => lsumf (F g k) rows') end; [reflexivity|].
  apply functional_extensionality. intros g. apply functional_extensionality. intros k. symmetry. apply lsumf_perm, H.
Qed.
