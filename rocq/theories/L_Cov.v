(** Lemmas for C46-C48. *)
From Verif Require Import M_Cov S_Cov L_Lin L_CV L_Dist.
From Coq Require Import FunctionalExtensionality.
From Verif Require Import M_Solver S_Solver.
Local Open Scope R_scope.

Lemma prod_is_mulm k A B C : prod_is k A B C <-> forall i j, (i < k)%nat -> (j < k)%nat -> mulm k A B i j = C i j.
Proof. reflexivity. Qed.
Lemma prod3_is_mulm k A B D C : prod3_is k A B D C <-> forall i j, (i < k)%nat -> (j < k)%nat -> mulm k A (mulm k B D) i j = C i j.
Proof.
  unfold prod3_is, mulm. split; intros H i j Hi Hj; rewrite <- (H i j Hi Hj); apply rsum_ext; intros l _.
  - rewrite <- rsum_scal. apply rsum_ext. intros; ring.
  - rewrite <- rsum_scal. apply rsum_ext. intros; ring.
Qed.
Lemma mulm_ext k A A' B B' i j : (forall l, (l < k)%nat -> A i l = A' i l) -> (forall l, (l < k)%nat -> B l j = B' l j) -> mulm k A B i j = mulm k A' B' i j.
Proof. intros H1 H2. unfold mulm. apply rsum_ext. intros l Hl. rewrite H1, H2 by exact Hl. reflexivity. Qed.
Lemma transpose_mulm k A B i j : transpose (mulm k A B) i j = mulm k (transpose B) (transpose A) i j.
Proof. unfold transpose, mulm. apply rsum_ext. intros; ring. Qed.
Lemma cancel_left k A X Y : nonsingular k A -> (forall i j, (i < k)%nat -> (j < k)%nat -> mulm k A X i j = mulm k A Y i j) ->
  forall i j, (i < k)%nat -> (j < k)%nat -> X i j = Y i j.
Proof.
  intros H E i j Hi Hj. apply (nonsingular_unique k A (fun i => X i j) (fun i => Y i j) H); [|exact Hi].
  intros r Hr. exact (E r j Hr Hj).
Qed.
Lemma cancel_right k A X Y : nonsingular k A -> (forall i j, (i < k)%nat -> (j < k)%nat -> mulm k X A i j = mulm k Y A i j) ->
  forall i j, (i < k)%nat -> (j < k)%nat -> X i j = Y i j.
Proof.
  intros H E i j Hi Hj. apply (cancel_left k (transpose A) (transpose X) (transpose Y) (nonsingular_transpose k A H)); [|exact Hj|exact Hi].
  intros r s Hr Hs. rewrite <- !transpose_mulm. unfold transpose. apply E; assumption.
Qed.
Lemma invertible_nonsingular k A : invertible k A -> nonsingular k A.
Proof.
  intros [B HB]. assert (NB : nonsingular k B).
  { apply (right_inverse_nonsingular k A B). intros i j Hi Hj. rewrite (proj1 (prod_is_mulm k A B identity) HB i j Hi Hj). unfold identity, unit_vec. reflexivity. }
  destruct (gsolve_mat_complete k B (fun i k => unit_vec k i) NB) as [C EC]. apply gsolve_mat_sound in EC as [_ EC].
  (* A = A B C = C on the block *)
  apply (right_inverse_nonsingular k B A). intros i j Hi Hj.
  transitivity (mulm k B C i j); [|apply EC; exact Hi].
  apply mulm_ext; [reflexivity|]. intros l Hl.
  transitivity (mulm k A (mulm k B C) l j).
  - unfold mulm at 1. rewrite (rsum_ext k _ (fun m => A l m * unit_vec j m)) by (intros m Hm; rewrite EC by exact Hm; reflexivity).
    rewrite (rsum_single k j) by first [assumption | intros m Hm Hne; unfold unit_vec; destruct (Nat.eqb_spec m j); first [congruence | ring]].
    unfold unit_vec. rewrite Nat.eqb_refl. ring.
  - rewrite mulm_assoc. unfold mulm at 1.
    rewrite (rsum_ext k _ (fun m => identity l m * C m j)) by (intros m Hm; rewrite (proj1 (prod_is_mulm k A B identity) HB l m Hl Hm); reflexivity).
    rewrite (rsum_single k l) by first [assumption | intros m Hm Hne; unfold identity; destruct (Nat.eqb_spec l m); first [congruence | ring]].
    unfold identity. rewrite Nat.eqb_refl. ring.
Qed.
Lemma nonsingular_invertible k A : nonsingular k A -> invertible k A.
Proof.
  intros H. destruct (gsolve_mat_complete k A (fun i k => unit_vec k i) H) as [C EC]. apply gsolve_mat_sound in EC as [_ EC].
  exists C. intros i j Hi Hj. exact (EC i j Hi).
Qed.

Lemma quad_mulv k A z : quad k A z = rsum k (fun i => z i * mulv k A z i).
Proof. unfold quad, mulv. apply rsum_ext. intros i _. rewrite <- rsum_scal. apply rsum_ext. intros; ring. Qed.
Lemma dot_sym k A x y : sym k A -> rsum k (fun i => x i * mulv k A y i) = rsum k (fun i => y i * mulv k A x i).
Proof.
  intros H. unfold mulv.
  rewrite (rsum_ext k _ (fun i => rsum k (fun j => x i * A i j * y j))) by (intros; rewrite <- rsum_scal; apply rsum_ext; intros; ring).
  rewrite rsum_swap. apply rsum_ext. intros j Hj. rewrite <- rsum_scal. apply rsum_ext. intros i Hi. rewrite (H i j) by assumption. ring.
Qed.
Lemma mulv_ext k A x y i : (forall j, (j < k)%nat -> x j = y j) -> mulv k A x i = mulv k A y i.
Proof. intros H. unfold mulv. apply rsum_ext. intros j Hj. rewrite H by exact Hj. reflexivity. Qed.

(** *** the sandwich *)
Lemma sandwich_core k H M Y V : sym k H -> sym k M -> gsolve_mat k H M = Some Y -> gsolve_mat k H (transpose Y) = Some V ->
  nonsingular k H /\ forall i j, (i < k)%nat -> (j < k)%nat -> mulm k H (mulm k V H) i j = M i j.
Proof.
  intros SH SM EY EV. apply gsolve_mat_sound in EY as [NS EY]. apply gsolve_mat_sound in EV as [_ EV]. split; [exact NS|].
  intros i j Hi Hj. rewrite mulm_assoc. transitivity (mulm k (transpose Y) (transpose H) i j).
  - apply mulm_ext; intros l Hl; [apply EV; exact Hi|]. unfold transpose. apply SH; assumption.
  - rewrite <- transpose_mulm. unfold transpose. rewrite EY by exact Hj. apply SM; assumption.
Qed.
Lemma sandwich_sym k H M V : sym k M -> sym k H -> nonsingular k H -> (forall i j, (i < k)%nat -> (j < k)%nat -> mulm k H (mulm k V H) i j = M i j) -> sym k V.
Proof.
  intros SM SH NS E i j Hi Hj. change (V j i) with (transpose V i j). revert i j Hi Hj. apply (cancel_right k H); [exact NS|].
  apply (cancel_left k H); [exact NS|]. intros i j Hi Hj. rewrite E by assumption. rewrite SM by assumption. rewrite <- E by assumption.
  change (transpose (mulm k H (mulm k V H)) i j = mulm k H (mulm k (transpose V) H) i j).
  rewrite transpose_mulm. rewrite mulm_assoc. 
  transitivity (mulm k (mulm k (transpose H) (transpose V)) (transpose H) i j).
  - apply mulm_ext; intros l Hl; [apply transpose_mulm|reflexivity].
  - apply mulm_ext; intros l Hl; [apply mulm_ext; intros m Hm; [|reflexivity]|]; unfold transpose; apply SH; assumption.
Qed.
Lemma sandwich_psd k H M V : sym k H -> nonsingular k H -> (forall i j, (i < k)%nat -> (j < k)%nat -> mulm k H (mulm k V H) i j = M i j) ->
  psd k M -> psd k V.
Proof.
  intros SH NS E PM z. destruct (gsolve_complete k H z NS) as [u Eu]. pose proof (gsolve_sound k H z u Eu) as Hu.
  replace (quad k V z) with (quad k M u); [apply PM|].
  rewrite !quad_mulv.
  rewrite (rsum_ext k _ (fun i => u i * mulv k H (mulv k V (mulv k H u)) i)).
  2:{ intros i Hi. f_equal. transitivity (mulv k (mulm k H (mulm k V H)) u i).
      - unfold mulv. apply rsum_ext. intros j Hj. rewrite E by assumption. reflexivity.
      - rewrite mulv_mulm. apply mulv_ext. intros l Hl. apply mulv_mulm. }
  rewrite (dot_sym k H u (mulv k V (mulv k H u)) SH). apply rsum_ext. intros i Hi. rewrite Hu by exact Hi. rewrite Rmult_comm. f_equal.
  apply mulv_ext. exact Hu.
Qed.
Lemma gram_sym m A k : sym k (gram m A).
Proof. intros i j _ _. unfold gram. apply rsum_ext. intros; ring. Qed.
Lemma gram_psd m A k : psd k (gram m A).
Proof.
  intros z. replace (quad k (gram m A) z) with (rsum m (fun i => (rsum k (fun j => A i j * z j)) ^ 2)).
  - apply rsum_nonneg. intros. nra.
  - unfold quad, gram. symmetry.
    rewrite (rsum_ext k _ (fun a => rsum m (fun i => rsum k (fun b => (A i a * z a) * (A i b * z b))))).
    2:{ intros a _. rewrite rsum_swap. apply rsum_ext. intros b _. rewrite <- rsum_scal. rewrite <- rsum_scal_r. apply rsum_ext. intros; ring. }
    rewrite rsum_swap. apply rsum_ext. intros i _.
    rewrite (rsum_ext k _ (fun a => A i a * z a * rsum k (fun b => A i b * z b))) by (intros; apply rsum_scal).
    rewrite rsum_scal_r. ring.
Qed.
Lemma sandwich_is_sym c d k : sym k (info_sandwich c d).
Proof. intros i j _ _. unfold info_sandwich. apply rsum_ext. intros; ring. Qed.

(** *** clusters *)
Lemma codes_cols groups n : codes groups n -> all_opt (map (py_index (n_groups groups)) groups) = Some (map Z.to_nat groups).
Proof.
  intros [_ H]. set (ng := n_groups groups) in *. revert H. generalize groups as l. induction l as [|z l IH]; intros H; [reflexivity|].
  simpl. destruct (H z (or_introl eq_refl)) as [H1 H2]. unfold py_index at 1.
  rewrite (proj2 (Z.leb_le 0 z) H1), (proj2 (Z.ltb_lt z _) H2). cbn [andb]. rewrite IH by (intros; apply H; right; assumption). reflexivity.
Qed.
Lemma indicator_sum (m a b : nat) : (a < m)%nat ->
  rsum m (fun g => (if Nat.eqb a g then 1 else 0) * (if Nat.eqb b g then 1 else 0)) = if Nat.eqb a b then 1 else 0.
Proof.
  intros Ha. rewrite (rsum_single m a); [|exact Ha|].
  - rewrite Nat.eqb_refl. rewrite (Nat.eqb_sym b a). ring.
  - intros i Hi Hne. destruct (Nat.eqb_spec a i); [congruence|ring].
Qed.
Lemma group_gram m n (G : mat) (cols : nat -> nat) k l : (forall i, (i < n)%nat -> (cols i < m)%nat) ->
  gram m (fun g k => rsum n (fun i => (if Nat.eqb (cols i) g then 1 else 0) * G i k)) k l
  = rsum n (fun i => rsum n (fun i' => (if Nat.eqb (cols i) (cols i') then 1 else 0) * G i k * G i' l)).
Proof.
  intros H. unfold gram.
  rewrite (rsum_ext m _ (fun g => rsum n (fun i => rsum n (fun i' => ((if Nat.eqb (cols i) g then 1 else 0) * (if Nat.eqb (cols i') g then 1 else 0)) * (G i k * G i' l))))).
  2:{ intros g _. rewrite <- rsum_scal_r. apply rsum_ext. intros i _. rewrite <- rsum_scal. apply rsum_ext. intros; ring. }
  rewrite rsum_swap. apply rsum_ext. intros i Hi. rewrite rsum_swap. apply rsum_ext. intros i' _.
  rewrite rsum_scal_r, indicator_sum by (apply H; exact Hi). ring.
Qed.
Lemma codes_group_sum groups n G : codes groups n -> exists gg, group_sum groups n G = Some gg /\
  forall k l, gram (n_groups groups) gg k l = rsum n (fun i => rsum n (fun i' => together groups i i' * G i k * G i' l)).
Proof.
  intros H. unfold group_sum. rewrite (proj1 H), Nat.eqb_refl. cbn [negb]. rewrite (codes_cols groups n H).
  eexists. split; [reflexivity|]. intros k l.
  assert (N : forall i, (i < n)%nat -> nth i (map Z.to_nat groups) O = Z.to_nat (nth i groups 0%Z)).
  { intros i Hi. change O with (Z.to_nat 0). apply map_nth. }
  assert (B : forall i, (i < n)%nat -> (0 <= nth i groups 0 < Z.of_nat (n_groups groups))%Z).
  { intros i Hi. apply (proj2 H), nth_In. rewrite (proj1 H). exact Hi. }
  rewrite (group_gram (n_groups groups) n G (fun i => nth i (map Z.to_nat groups) O)).
  - apply rsum_ext. intros i Hi. apply rsum_ext. intros i' Hi'. rewrite !N by assumption. f_equal. f_equal. unfold together.
    pose proof (B i Hi). pose proof (B i' Hi').
    destruct (Z.eqb_spec (nth i groups 0%Z) (nth i' groups 0%Z)) as [->|E]; [rewrite Nat.eqb_refl; reflexivity|].
    destruct (Nat.eqb_spec (Z.to_nat (nth i groups 0%Z)) (Z.to_nat (nth i' groups 0%Z))); [exfalso; apply E; lia|reflexivity].
  - intros i Hi. rewrite N by exact Hi. pose proof (B i Hi). lia.
Qed.

Lemma psd_scale k A c : 0 <= c -> psd k A -> psd k (fun i j => A i j * c).
Proof.
  intros Hc H z. replace (quad k (fun i j => A i j * c) z) with (quad k A z * c); [apply Rmult_le_pos; [apply H|exact Hc]|].
  unfold quad. rewrite <- rsum_scal_r. apply rsum_ext. intros i _. rewrite <- rsum_scal_r. apply rsum_ext. intros; ring.
Qed.
Lemma prod3_scale k A B D C c : prod3_is k A B D C -> prod3_is k A (fun i j => B i j * c) D (fun i j => c * C i j).
Proof.
  intros H i j Hi Hj. rewrite <- (H i j Hi Hj). rewrite <- rsum_scal. apply rsum_ext. intros l _. rewrite <- rsum_scal. apply rsum_ext. intros; ring.
Qed.
Lemma sandwich_full k H M Y V c : sym k H -> sym k M -> gsolve_mat k H M = Some Y -> gsolve_mat k H (transpose Y) = Some V ->
  invertible k H /\ prod3_is k H (fun i j => V i j * c) H (fun i j => c * M i j) /\ sym k (fun i j => V i j * c) /\
  (0 <= c -> psd k M -> psd k (fun i j => V i j * c)).
Proof.
  intros SH SM EY EV. destruct (sandwich_core k H M Y V SH SM EY EV) as [NS E].
  split; [apply nonsingular_invertible; exact NS|]. split; [apply prod3_scale, prod3_is_mulm; exact E|]. split.
  - intros i j Hi Hj. f_equal. apply (sandwich_sym k H M V SM SH NS E i j Hi Hj).
  - intros Hc PM. apply psd_scale; [exact Hc|]. apply (sandwich_psd k H M V SH NS E PM).
Qed.
Lemma sandwich_defined k H M : invertible k H -> exists Y V, gsolve_mat k H M = Some Y /\ gsolve_mat k H (transpose Y) = Some V.
Proof.
  intros I. apply invertible_nonsingular in I. destruct (gsolve_mat_complete k H M I) as [Y EY]. destruct (gsolve_mat_complete k H (transpose Y) I) as [V EV]. eauto.
Qed.
Lemma information_sym c e k : sym k (information c e).
Proof. unfold information, fisher_information, observed_information. destruct e; apply sandwich_is_sym. Qed.

(** *** the dispersion *)
Lemma one_over_variance_phi f l mu eta phi w : phi <> 0 -> one_over_variance f l mu eta phi w = / phi * one_over_variance f l mu eta 1 w.
Proof.
  intros H. unfold one_over_variance. destruct f, l; unfold Rdiv; rewrite ?Rinv_1, ?Rmult_1_r, ?Rinv_mult; try ring.
Qed.
Lemma fisher_phi c phi k l : phi <> 0 -> fisher_information c phi k l = / phi * fisher_information c 1 k l.
Proof.
  intros H. unfold fisher_information, info_sandwich. rewrite <- rsum_scal. apply rsum_ext. intros i _. unfold fisher_W.
  rewrite one_over_variance_phi by exact H. ring.
Qed.
Lemma observed_phi c phi k l : phi <> 0 -> observed_information c phi k l = / phi * observed_information c 1 k l.
Proof.
  intros H. unfold observed_information, info_sandwich. rewrite <- rsum_scal. apply rsum_ext. intros i _. unfold observed_W.
  rewrite one_over_variance_phi by exact H. ring.
Qed.
Lemma score_phi c phi i k : phi <> 0 -> score_matrix c phi i k = / phi * score_matrix c 1 i k.
Proof. intros H. unfold score_matrix, score_W. rewrite one_over_variance_phi by exact H. ring. Qed.
Lemma fisher_W_nonneg f l y mu w phi : family_ok f -> mean_range f mu -> 0 <= w -> 0 < phi -> 0 <= fisher_W f l y mu w phi.
Proof.
  intros Hf Hm Hw Hp. pose proof (unit_variance_pos f mu Hf Hm) as Hv. unfold fisher_W. apply Rmult_le_pos; [nra|].
  assert (G : 0 <= w / (unit_variance f mu * phi)) by (apply Rmult_le_pos; [exact Hw|]; left; apply Rinv_0_lt_compat; nra).
  unfold one_over_variance. destruct f, l; try exact G. apply Rmult_le_pos; [|left; apply Rinv_0_lt_compat; exact Hp].
  apply Rmult_le_pos; [exact Hw|]. pose proof (exp_pos (link_fn LogitL mu)). pose proof (exp_pos (- link_fn LogitL mu)). lra.
Qed.
Lemma info_sandwich_psd c d k : (forall i, (i < ci_n c)%nat -> 0 <= d i) -> psd k (info_sandwich c d).
Proof.
  intros H z. replace (quad k (info_sandwich c d) z) with (rsum (ci_n c) (fun i => d i * (rsum k (fun j => ci_x c i j * z j)) ^ 2)).
  - apply rsum_nonneg. intros i Hi. apply Rmult_le_pos; [apply H; exact Hi|nra].
  - unfold quad, info_sandwich. symmetry.
    rewrite (rsum_ext k _ (fun a => rsum (ci_n c) (fun i => rsum k (fun b => (d i * (ci_x c i a * z a)) * (ci_x c i b * z b))))).
    2:{ intros a _. rewrite rsum_swap. apply rsum_ext. intros b _. rewrite <- rsum_scal. rewrite <- rsum_scal_r. apply rsum_ext. intros; ring. }
    rewrite rsum_swap. apply rsum_ext. intros i _.
    rewrite (rsum_ext k _ (fun a => d i * (ci_x c i a * z a) * rsum k (fun b => ci_x c i b * z b))) by (intros; apply rsum_scal).
    rewrite rsum_scal_r. rewrite rsum_scal. ring.
Qed.

(** linear predictors as functions of one coefficient *)
Lemma linpred_moved c off b k t i : (k < ci_k c)%nat ->
  linpred (ci_ic c) (ci_p c) (ci_X c) off (moved b k t) i = linpred (ci_ic c) (ci_p c) (ci_X c) off b i + t * ci_x c i k.
Proof.
  intros Hk. unfold linpred, ci_x, ci_k, ioff in *. destruct (ci_ic c); cbn in Hk.
  - destruct k as [|j].
    + unfold moved at 1. cbn [Nat.eqb]. rewrite (rsum_ext _ _ (fun j => ci_X c i j * b (S j))) by (intros; reflexivity). ring.
    + unfold moved at 1. cbn [Nat.eqb]. rewrite (rsum_ext _ _ (fun m => ci_X c i m * b (S m) + t * (if Nat.eqb m j then ci_X c i m else 0))).
      2:{ intros m _. unfold moved. change (Nat.eqb (S m) (S j)) with (Nat.eqb m j). destruct (Nat.eqb m j); ring. }
      rewrite rsum_plus, rsum_scal. rewrite (rsum_single (ci_p c) j (fun m => if Nat.eqb m j then ci_X c i m else 0)).
      * rewrite Nat.eqb_refl. ring.
      * lia.
      * intros m _ Hne. destruct (Nat.eqb_spec m j); [congruence|reflexivity].
  - rewrite (rsum_ext _ _ (fun m => ci_X c i m * b m + t * (if Nat.eqb m k then ci_X c i m else 0))).
    2:{ intros m _. unfold moved. destruct (Nat.eqb m k); ring. }
    rewrite rsum_plus, rsum_scal. rewrite (rsum_single (ci_p c) k (fun m => if Nat.eqb m k then ci_X c i m else 0)).
    + rewrite Nat.eqb_refl. ring.
    + lia.
    + intros m _ Hne. destruct (Nat.eqb_spec m k); [congruence|reflexivity].
Qed.
Lemma linpred_is_derive c off b k i : (k < ci_k c)%nat ->
  is_derive (fun t => linpred (ci_ic c) (ci_p c) (ci_X c) off (moved b k t) i) 0 (ci_x c i k).
Proof.
  intros Hk. apply (dR_ext (fun t => linpred (ci_ic c) (ci_p c) (ci_X c) off b i + t * ci_x c i k)).
  - intros t. symmetry. apply linpred_moved. exact Hk.
  - auto_derive; [exact I|]. ring.
Qed.
