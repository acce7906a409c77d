(** Theorems C76: which P2 a fit accepts. *)
From Verif Require Import M_Lin L_Lin M_Psd S_Psd L_Psd P_Std.
From Verif Require Import M_Solver S_Solver.
From Coq Require Import FunctionalExtensionality.
Import ListNotations.
Local Open Scope R_scope.

Lemma qform_diag p v z : qform p (fun i j => if Nat.eqb i j then v i else 0) z = rsum p (fun i => v i * (z i * z i)).
Proof.
  unfold qform. apply rsum_ext. intros i Hi. rewrite (rsum_single p i); [rewrite Nat.eqb_refl; ring|exact Hi|].
  intros j _ Hne. destruct (Nat.eqb_spec i j); [congruence|ring].
Qed.
Lemma diag_check p v : negb (existsb (fun j => Rltb (v j) 0) (seq 0 p)) = true <-> forall z, 0 <= rsum p (fun i => v i * (z i * z i)).
Proof.
  rewrite Bool.negb_true_iff. split.
  - intros E z. apply rsum_nonneg. intros i Hi. assert (0 <= v i); [|nra]. destruct (Rle_dec 0 (v i)) as [|N]; [assumption|exfalso].
    assert (existsb (fun j => Rltb (v j) 0) (seq 0 p) = true); [|congruence]. apply existsb_exists. exists i. split; [apply in_seq; lia|]. apply Rltb_true. lra.
  - intros H. apply Bool.not_true_is_false. intros E. apply existsb_exists in E as [i [Hi E]]. apply in_seq in Hi. apply Rltb_true in E.
    specialize (H (fun j => if Nat.eqb j i then 1 else 0)). rewrite (rsum_single p i) in H; [rewrite Nat.eqb_refl in H; lra|lia|].
    intros j _ Hne. destruct (Nat.eqb_spec j i); [contradiction|ring].
Qed.

(** A fit with check_input=True gets past P2 exactly if P2 has the right shape and the quadratic form of
    (1 - l1_ratio) * P2 is non-negative - up to 10 * 2^-53 |z|^2 for a matrix with more than one column.
    The antisymmetric part of P2 plays no role. *)
Theorem C76_accepted_iff : forall eigvalsh sparse a p l1, eigvalsh_ok eigvalsh -> (sparse = true -> (p < 2000)%nat) ->
  (accept_p2 eigvalsh true sparse a p l1 <> None <->
   p2_shape a p /\ forall z, - slack a p * sq_norm p z <= (1 - l1) * qform p (p2_meaning a) z).
Proof.
  intros ev sp a p l1 EV SP. unfold accept_p2. destruct (setup_p2 a p 1 l1) as [P2|] eqn:E.
  2:{ split; [congruence|]. intros [SH _]. exfalso. apply (proj1 (proj1 (C37_shapes_and_p1 p 1 l1) a)) in E. destruct a as [|l|r c M]; cbn in SH; [exact E|congruence|destruct SH; lia]. }
  assert (SH : p2_shape a p).
  { assert (N : setup_p2 a p 1 l1 <> None) by congruence. rewrite (proj1 (C37_shapes_and_p1 p 1 l1) a) in N. destruct a as [|l|r c M]; cbn; lia. }
  destruct (C37_p2_setup a p 1 l1 P2 E) as [SY Q]. fold (p2_meaning a) in Q.
  assert (G : is_pos_semidef ev sp p P2 = Some true <-> forall z, - slack a p * sq_norm p z <= qform p (p2_entry P2) z).
  { destruct P2 as [v|M]; cbn [is_pos_semidef].
    - assert (SL : slack a p = 0) by (destruct a; [reflexivity|reflexivity|simpl in E; destruct (_ && _)%bool; discriminate]). rewrite SL.
      transitivity (forall z, 0 <= rsum p (fun i => v i * (z i * z i))).
      + rewrite <- diag_check. split; [intros H; injection H; auto|intros ->; reflexivity].
      + split; intros H z; specialize (H z).
        * replace (qform p (p2_entry (P2diag v)) z) with (rsum p (fun i => v i * (z i * z i))); [lra|]. rewrite <- qform_diag. reflexivity.
        * replace (qform p (p2_entry (P2diag v)) z) with (rsum p (fun i => v i * (z i * z i))) in H; [lra|]. rewrite <- qform_diag. reflexivity.
    - assert (SL : slack a p = if Nat.eqb p 1 then 0 else psd_tolerance) by (destruct a as [|l|r c N]; [discriminate|simpl in E; destruct (Nat.eqb _ _); discriminate|reflexivity]).
      rewrite SL. destruct (Nat.eqb_spec p 1) as [->|Hp].
      + transitivity (0 <= M O O).
        * destruct (Rltb (M O O) 0) eqn:F; cbn; [apply Rltb_true in F; split; [discriminate|lra]|apply Rltb_false in F; split; [intros _; lra|reflexivity]].
        * cbn [p2_entry]. unfold qform, sq_norm. cbn. split; [intros H z|intros H; specialize (H (fun _ => 1)); lra].
          assert (0 <= M O O * (z O * z O)) by (apply Rmult_le_pos; [assumption|nra]). lra.
      + assert (F : (sp && negb (Nat.ltb p 2000))%bool = false).
        { destruct sp; [|reflexivity]. specialize (SP eq_refl). apply Nat.ltb_lt in SP. rewrite SP. reflexivity. }
        rewrite F. cbn [p2_entry]. cbn [p2_sym p2_entry] in SY. specialize (EV p M SY). split.
        * intros H. injection H as H. apply eigen_bound; [exact SY|]. intros l Hl. apply EV in Hl. rewrite forallb_forall in H. apply H in Hl. apply Rleb_true in Hl. exact Hl.
        * intros H. f_equal. apply forallb_forall. intros l Hl. apply EV in Hl. apply Rleb_true. exact (eigen_bound_low p M _ H l Hl). }
  transitivity (is_pos_semidef ev sp p P2 = Some true).
  { destruct (is_pos_semidef ev sp p P2) as [[|]|]; split; intros H; congruence. }
  rewrite G. split; [intros H; split; [exact SH|]; intros z; specialize (H z); rewrite Q in H; lra|intros [_ H] z; specialize (H z); rewrite Q; lra].
Qed.
Print Assumptions C76_accepted_iff.

(** So a positive semi-definite P2 of the right shape is never refused, ... *)
Theorem C76_semidefinite_accepted : forall eigvalsh check_input sparse a p l1, eigvalsh_ok eigvalsh -> (sparse = true -> (p < 2000)%nat) ->
  l1 <= 1 -> p2_shape a p -> (forall z, 0 <= qform p (p2_meaning a) z) ->
  exists P2, accept_p2 eigvalsh check_input sparse a p l1 = Some P2 /\ p2_sym p P2 /\
    forall alpha, 0 <= alpha -> p2_psd p (p2_scale alpha P2) /\
      forall z, qform p (p2_entry (p2_scale alpha P2)) z = alpha * (1 - l1) * qform p (p2_meaning a) z.
Proof.
  intros ev ci sp a p l1 EV SP H1 SH H.
  assert (exists P2, accept_p2 ev ci sp a p l1 = Some P2) as [P2 EA].
  { assert (N : accept_p2 ev true sp a p l1 <> None).
    { apply C76_accepted_iff; [exact EV|exact SP|]. split; [exact SH|]. intros z. specialize (H z). pose proof (sq_norm_nonneg p z).
      assert (0 <= slack a p) by (unfold slack; destruct a; [lra|lra|destruct (Nat.eqb p 1); [lra|]; apply Rmult_le_pos; [lra|left; apply Rinv_0_lt_compat, pow_lt; lra]]).
      assert (0 <= (1 - l1) * qform p (p2_meaning a) z) by (apply Rmult_le_pos; lra). assert (0 <= slack a p * sq_norm p z) by (apply Rmult_le_pos; assumption). lra. }
    unfold accept_p2 in *. destruct (setup_p2 a p 1 l1) as [P2|]; [|congruence]. destruct ci; [|eauto]. destruct (is_pos_semidef ev sp p P2) as [[|]|]; [eauto|congruence|congruence]. }
  exists P2. split; [exact EA|]. assert (E : setup_p2 a p 1 l1 = Some P2).
  { unfold accept_p2 in EA. destruct (setup_p2 a p 1 l1) as [Q|]; [|discriminate]. destruct ci; [|exact EA]. destruct (is_pos_semidef ev sp p Q) as [[|]|]; [exact EA|discriminate|discriminate]. }
  destruct (C37_p2_setup a p 1 l1 P2 E) as [SY Q]. fold (p2_meaning a) in Q. split; [exact SY|]. intros alpha Ha.
  assert (QA : forall z, qform p (p2_entry (p2_scale alpha P2)) z = alpha * (1 - l1) * qform p (p2_meaning a) z).
  { intros z. replace (alpha * (1 - l1) * qform p (p2_meaning a) z) with (alpha * (1 * (1 - l1) * qform p (p2_meaning a) z)) by ring. rewrite <- Q. unfold qform.
    rewrite <- rsum_scal. apply rsum_ext. intros i _. rewrite <- rsum_scal. apply rsum_ext. intros j _. destruct P2; cbn; [destruct (Nat.eqb i j)|]; ring. }
  split; [|exact QA]. intros z. fold (qform p (p2_entry (p2_scale alpha P2)) z). rewrite QA. apply Rmult_le_pos; [apply Rmult_le_pos; lra|apply H].
Qed.
Print Assumptions C76_semidefinite_accepted.

(** ... a P2 with a direction of curvature below the tolerance is refused unless check_input=False or
    l1_ratio = 1 makes it irrelevant, ... *)
Theorem C76_indefinite_refused : forall eigvalsh sparse a p l1 z, eigvalsh_ok eigvalsh ->
  (1 - l1) * qform p (p2_meaning a) z < - (10 / 2 ^ 53) * sq_norm p z ->
  accept_p2 eigvalsh true sparse a p l1 = None.
Proof.
  intros ev sp a p l1 z EV H.
  assert (W : accept_p2 ev true sp a p l1 <> None -> accept_p2 ev true false a p l1 <> None).
  { unfold accept_p2. destruct (setup_p2 a p 1 l1) as [[v|M]|]; [auto| |auto]. cbn [is_pos_semidef]. destruct (Nat.eqb p 1); [auto|]. destruct sp; [|auto].
    destruct (negb (Nat.ltb p 2000)); cbn [andb]; [congruence|auto]. }
  destruct (accept_p2 ev true sp a p l1) as [Q|] eqn:E; [exfalso|reflexivity]. assert (N : accept_p2 ev true false a p l1 <> None) by (apply W; discriminate).
  apply C76_accepted_iff in N as [_ N]; [|exact EV|discriminate]. specialize (N z). pose proof (sq_norm_nonneg p z).
  assert (0 < 10 / 2 ^ 53) by (apply Rmult_lt_0_compat; [lra|apply Rinv_0_lt_compat, pow_lt; lra]).
  assert (slack a p <= 10 / 2 ^ 53) by (unfold slack; destruct a; [lra|lra|destruct (Nat.eqb p 1); lra]).
  assert (slack a p * sq_norm p z <= 10 / 2 ^ 53 * sq_norm p z) by (apply Rmult_le_compat_r; assumption). lra.
Qed.
Print Assumptions C76_indefinite_refused.

(** ... and the verdict is the same for P2 and for its symmetric part (P2 + P2')/2. *)
Theorem C76_symmetric_part : forall eigvalsh check_input sparse r c M p l1,
  accept_p2 eigvalsh check_input sparse (P2Array2 r c (fun i j => (M i j + M j i) / 2)) p l1 =
  accept_p2 eigvalsh check_input sparse (P2Array2 r c M) p l1.
Proof.
  intros. assert (E : setup_p2 (P2Array2 r c (fun i j => (M i j + M j i) / 2)) p 1 l1 = setup_p2 (P2Array2 r c M) p 1 l1).
  { unfold setup_p2. destruct (_ && _)%bool; [|reflexivity]. f_equal. f_equal. apply functional_extensionality. intros i. apply functional_extensionality. intros j. field. }
  unfold accept_p2. rewrite E. reflexivity.
Qed.
Print Assumptions C76_symmetric_part.

(** finding F36: a sparse P2 with 2000 or more columns makes every fit raise, the identity matrix included *)
Theorem C76_large_sparse_refuted : forall eigvalsh p l1, (2000 <= p)%nat ->
  accept_p2 eigvalsh true true (P2Array2 p p (fun i j => if Nat.eqb i j then 1 else 0)) p l1 = None.
Proof.
  intros ev p l1 Hp. unfold accept_p2, setup_p2. rewrite Nat.eqb_refl. cbn [andb is_pos_semidef].
  assert (E : Nat.eqb p 1 = false) by (apply Nat.eqb_neq; lia). rewrite E.
  assert (F : Nat.ltb p 2000 = false) by (apply Nat.ltb_ge; exact Hp). rewrite F. reflexivity.
Qed.
Print Assumptions C76_large_sparse_refuted.

(** The contract asked of eigvalsh can be met: the eigenvalues of a symmetric matrix form a finite list. *)
Theorem C76_contract_met : forall p A, (forall i j, (i < p)%nat -> (j < p)%nat -> A i j = A j i) ->
  exists ls, (length ls <= p)%nat /\ forall lambda, In lambda ls <-> eigenvalue p A lambda.
Proof.
  intros p A SYM. destruct (eigenvalues_listed p A SYM) as [ls H]. exists (nodup Req_EM_T ls). split.
  - apply (few_eigenvalues p A); [exact SYM|apply NoDup_nodup|]. intros l Hl. apply H. apply nodup_In in Hl. exact Hl.
  - intros l. rewrite nodup_In. apply H.
Qed.
Print Assumptions C76_contract_met.

(** Non-vacuity: a matrix that is positive semi-definite though not symmetric and with a negative entry is
    accepted, one with a negative eigenvalue is refused. *)
Example ex76_accept : forall eigvalsh, eigvalsh_ok eigvalsh ->
  accept_p2 eigvalsh true false (P2Array2 2 2 (fun i j => if Nat.eqb i j then 1 else if Nat.eqb i 0 then -2 else 1)) 2 (1 / 2) <> None.
Proof.
  intros ev EV.
  destruct (C76_semidefinite_accepted ev true false (P2Array2 2 2 (fun i j => if Nat.eqb i j then 1 else if Nat.eqb i 0 then -2 else 1)) 2 (1 / 2)) as [P2 [E _]].
  - exact EV.
  - discriminate.
  - lra.
  - split; reflexivity.
  - intros z. unfold qform. cbn. nra.
  - congruence.
Qed.
Example ex76_refuse : forall eigvalsh, eigvalsh_ok eigvalsh ->
  accept_p2 eigvalsh true false (P2Array2 2 2 (fun i j => if Nat.eqb i j then 1 else -2)) 2 (1 / 2) = None.
Proof.
  intros ev EV. apply C76_indefinite_refused with (z := fun _ => 1); [exact EV|]. unfold sq_norm, qform. cbn. lra.
Qed.
