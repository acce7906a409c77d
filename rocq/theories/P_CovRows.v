(** Theorems C77: standard errors and the rows of the data. *)
From Verif Require Import M_Cov S_Cov L_Cov L_Lin S_CovRows L_CovRows P_Cov.
From Coq Require Import FunctionalExtensionality Permutation.
From Verif Require Import M_Solver S_Solver.
Import ListNotations.
Local Open Scope R_scope.

(** The order of the rows does not matter, for any kind of covariance matrix. *)
Theorem C77_row_order : forall c robust expected clustered rows rows', Permutation rows rows' ->
  covariance_matrix (on_rows c rows) robust expected (labels clustered rows) = covariance_matrix (on_rows c rows') robust expected (labels clustered rows').
Proof.
  intros c rb e [|] rows rows' H; cbn [labels]; [apply perm_clustered, H|]. apply same_robust; [apply perm_wsame|apply perm_w2same]; exact H.
Qed.
Print Assumptions C77_row_order.

(** Rows of weight zero do not matter without clusters. *)
Theorem C77_zero_weights : forall c robust expected rows,
  covariance_matrix (on_rows c (drop_zero_rows rows)) robust expected None = covariance_matrix (on_rows c rows) robust expected None.
Proof. intros. apply same_robust; [apply zero_wsame|apply zero_w2same]. Qed.
Print Assumptions C77_zero_weights.

(** Non-robust matrices: integer weights are repetitions of the row. *)
Theorem C77_repetition : forall c expected l,
  covariance_matrix (on_rows c (frequency l)) false expected None = covariance_matrix (on_rows c (written_out l)) false expected None.
Proof. intros. apply same_nonrobust, written_wsame. Qed.
Print Assumptions C77_repetition.

(** With robust=True weights are not repetitions (the outer product of a row's score carries the square of
    its weight), and with clusters a row of weight zero counts as a cluster: finding F37. *)
Definition ex77 : cov_in := mkCI 0 0 true NormalF IdentityL (fun _ _ => 0) (fun _ => 0) (fun _ => 0) (fun _ => 0) (Some 1) false.
Definition ex77_row (y w : R) (g : Z) : crow := mkCRow (fun _ => 0) y w 1 g.
Lemma ex77_info rows : information (on_rows ex77 rows) false 0%nat 0%nat = lsumf cvr_w rows.
Proof.
  unfold information, observed_information, info_sandwich.
  transitivity (lsumf (fun r => observed_W NormalF IdentityL (cvr_y r) (cvr_mu r) (cvr_w r) 1 * cx ex77 r 0 * cx ex77 r 0) rows); [exact (on_sum ex77 rows (fun r => observed_W NormalF IdentityL (cvr_y r) (cvr_mu r) (cvr_w r) 1 * cx ex77 r 0 * cx ex77 r 0))|].
  apply lsumf_ext. intros r _. unfold observed_W, one_over_variance. cbn. field.
Qed.
Lemma ex77_solve rows M : lsumf cvr_w rows <> 0 -> exists Y V, gsolve_mat 1 (information (on_rows ex77 rows) false) M = Some Y /\
  gsolve_mat 1 (information (on_rows ex77 rows) false) (transpose Y) = Some V /\ V 0%nat 0%nat = M 0%nat 0%nat / (lsumf cvr_w rows) ^ 2.
Proof.
  intros NZ. assert (NS : nonsingular 1 (information (on_rows ex77 rows) false)).
  { intros x Hx j Hj. replace j with 0%nat by lia. specialize (Hx 0%nat ltac:(lia)). unfold mulv in Hx. cbn [rsum] in Hx. rewrite ex77_info in Hx.
    apply Rplus_eq_reg_l with 0. destruct (Rmult_integral (lsumf cvr_w rows) (x 0%nat)); lra. }
  destruct (gsolve_mat_complete 1 _ M NS) as [Y EY]. destruct (gsolve_mat_complete 1 _ (transpose Y) NS) as [V EV]. exists Y, V. split; [exact EY|]. split; [exact EV|].
  apply gsolve_mat_sound in EY as [_ EY]. apply gsolve_mat_sound in EV as [_ EV]. specialize (EY 0%nat 0%nat ltac:(lia)). specialize (EV 0%nat 0%nat ltac:(lia)).
  unfold mulm, transpose in EY, EV. cbn [rsum] in EY, EV. rewrite ex77_info in EY, EV.
  rewrite <- EY. replace (Y 0%nat 0%nat) with (lsumf cvr_w rows * V 0%nat 0%nat) by lra. field. exact NZ.
Qed.
Theorem C77_robust_repetition_refuted : exists c l V V',
  covariance_matrix (on_rows c (frequency l)) true false None = Some V /\
  covariance_matrix (on_rows c (written_out l)) true false None = Some V' /\ V 0%nat 0%nat <> V' 0%nat 0%nat.
Proof.
  exists ex77, [(2%nat, ex77_row 0 0 0); (1%nat, ex77_row 3 0 0)]. cbn [frequency written_out map flat_map repeat app fst snd].
  set (r1 := [set_cw (INR 2) (ex77_row 0 0 0); set_cw (INR 1) (ex77_row 3 0 0)]).
  set (r2 := [set_cw 1 (ex77_row 0 0 0); set_cw 1 (ex77_row 0 0 0); set_cw 1 (ex77_row 3 0 0)]).
  assert (T1 : lsumf cvr_w r1 = 3) by (unfold lsumf, r1; cbn; lra). assert (T2 : lsumf cvr_w r2 = 3) by (unfold lsumf, r2; cbn; lra).
  assert (G : forall rows, lsumf cvr_w rows = 3 -> exists V, covariance_matrix (on_rows ex77 rows) true false None = Some V /\
     V 0%nat 0%nat = gram (length rows) (score_matrix (on_rows ex77 rows) 1) 0%nat 0%nat / 6).
  { intros rows TR. unfold covariance_matrix. cbv zeta. change (ci_ill (on_rows ex77 rows)) with false. cbv iota.
    rewrite (on_sum ex77 rows cvr_w : rsum (ci_n (on_rows ex77 rows)) (ci_w (on_rows ex77 rows)) = _), TR.
    change (ci_k (on_rows ex77 rows)) with 1%nat. rewrite (proj2 (Reqb_false _ _)) by (simpl; lra).
    change (observed_information (on_rows ex77 rows) (ci_dispersion (on_rows ex77 rows))) with (information (on_rows ex77 rows) false).
    match goal with |- context[gsolve_mat _ _ ?M] => destruct (ex77_solve rows M) as [Y [V [EY [EV V00]]]]; [lra|] end. rewrite EY, EV.
    eexists. split; [reflexivity|]. cbv beta. rewrite V00, TR. cbn [ci_n on_rows]. change (ci_dispersion (on_rows ex77 rows)) with 1. simpl INR. field. }
  destruct (G r1 T1) as [V [E1 V1]]. destruct (G r2 T2) as [V' [E2 V2]]. exists V, V'. split; [exact E1|]. split; [exact E2|]. rewrite V1, V2.
  unfold gram, score_matrix, score_W, one_over_variance. cbn. lra.
Qed.
Print Assumptions C77_robust_repetition_refuted.

Theorem C77_cluster_zero_weight_refuted : exists c rows V V',
  covariance_matrix (on_rows c rows) true false (Some (map cvr_g rows)) = Some V /\
  covariance_matrix (on_rows c (drop_zero_rows rows)) true false (Some (map cvr_g (drop_zero_rows rows))) = Some V' /\ V 0%nat 0%nat <> V' 0%nat 0%nat.
Proof.
  set (d := [ex77_row 0 1 0; ex77_row 2 1 1]). set (r := d ++ [ex77_row 1 0 2]).
  assert (D : drop_zero_rows r = d).
  { unfold drop_zero_rows, r, d, ex77_row. cbn [app filter cvr_w]. rewrite (proj2 (Reqb_false 1 0)) by lra. rewrite (proj2 (Reqb_true 0 0)) by lra. reflexivity. }
  exists ex77, r. rewrite D.
  assert (G : forall rows, lsumf cvr_w rows = 2 -> n_groups (map cvr_g rows) <> 1%nat ->
     existsb (fun q => match py_index (n_groups (map cvr_g rows)) (cvr_g q) with None => true | _ => false end) rows = false ->
     exists V, covariance_matrix (on_rows ex77 rows) true false (Some (map cvr_g rows)) = Some V /\
     let g := INR (n_groups (map cvr_g rows)) in
     V 0%nat 0%nat = rsum (n_groups (map cvr_g rows)) (fun h => (lsumf (fun q => (match py_index (n_groups (map cvr_g rows)) (cvr_g q) with Some i => if Nat.eqb i h then 1 else 0 | None => 0 end)
        * (score_W NormalF IdentityL (cvr_y q) (cvr_mu q) (cvr_w q) 1 * cx ex77 q 0)) rows) ^ 2) / 4 * (g / (g - 1))).
  { intros rows TR NG EX. unfold covariance_matrix. cbv zeta. change (ci_ill (on_rows ex77 rows)) with false. cbv iota.
    rewrite (on_sum ex77 rows cvr_w : rsum (ci_n (on_rows ex77 rows)) (ci_w (on_rows ex77 rows)) = _), TR.
    change (ci_k (on_rows ex77 rows)) with 1%nat. rewrite (proj2 (Reqb_false _ _)) by (simpl; lra).
    change (observed_information (on_rows ex77 rows) (ci_dispersion (on_rows ex77 rows))) with (information (on_rows ex77 rows) false).
    rewrite group_sum_rows, EX. apply Nat.eqb_neq in NG. rewrite NG.
    match goal with |- context[gsolve_mat _ _ ?M] => destruct (ex77_solve rows M) as [Y [V [EY [EV V00]]]]; [lra|] end. rewrite EY, EV.
    eexists. split; [reflexivity|]. cbv beta. rewrite V00, TR. unfold gram. change (ci_dispersion (on_rows ex77 rows)) with 1. change (ci_fam ex77) with NormalF. change (ci_link ex77) with IdentityL.
    rewrite (rsum_ext _ (fun i => _ * _) (fun h => (lsumf (fun q => (match py_index (n_groups (map cvr_g rows)) (cvr_g q) with Some i => if Nat.eqb i h then 1 else 0 | None => 0 end)
        * (score_W NormalF IdentityL (cvr_y q) (cvr_mu q) (cvr_w q) 1 * cx ex77 q 0)) rows) ^ 2)) by (intros; ring).
    simpl (INR 1). set (a := rsum _ _). set (g := INR _). unfold Rdiv. replace ((2 - 1) * / (2 - 1)) with 1 by field. replace (/ 2 ^ 2) with (/ 4) by (f_equal; ring). ring. }
  destruct (G r) as [V [E1 V1]]; [unfold lsumf, r, d; cbn; lra|discriminate|reflexivity|].
  destruct (G d) as [V' [E2 V2]]; [unfold lsumf, d; cbn; lra|discriminate|reflexivity|].
  exists V, V'. split; [exact E1|]. split; [exact E2|]. rewrite V1, V2. unfold r, d.
  change (n_groups (map cvr_g ([ex77_row 0 1 0; ex77_row 2 1 1] ++ [ex77_row 1 0 2]))) with 3%nat. change (n_groups (map cvr_g [ex77_row 0 1 0; ex77_row 2 1 1])) with 2%nat.
  unfold lsumf, score_W, one_over_variance. cbn. change (Pos.to_nat 1) with 1%nat. change (Pos.to_nat 2) with 2%nat. cbn. intros H. field_simplify in H; lra.
Qed.
Print Assumptions C77_cluster_zero_weight_refuted.

(** Non-vacuity of C77_row_order and C77_zero_weights: matrices exist for the data above. *)
Example ex77_defined : exists V, covariance_matrix (on_rows ex77 [ex77_row 0 1 0; ex77_row 2 1 1; ex77_row 1 0 2]) true false None = Some V.
Proof.
  apply C47_defined. split; [reflexivity|]. split; [unfold dof, total_weight; cbn; lra|].
  exists (fun _ _ => 1 / 2). intros i j Hi Hj. change (ci_k _) with 1%nat in *. replace i with 0%nat by lia. replace j with 0%nat by lia. cbn [rsum]. rewrite ex77_info.
  unfold identity, lsumf. cbn. lra.
Qed.
