(** Bit-level facts about the xorshift generator. *)
From Verif Require Import Base M_CD.
From Coq Require Import NArith Lia.
Local Open Scope N_scope.

Lemma lt_pow2_bits a n : a < 2 ^ n <-> (forall m, n <= m -> N.testbit a m = false).
Proof.
  split.
  - intros H m Hm. destruct (N.eq_dec a 0) as [->|Hz]; [apply N.bits_0|].
    apply N.bits_above_log2. apply N.lt_le_trans with n; [|exact Hm].
    apply N.log2_lt_pow2; lia.
  - intros H. assert (E : a = N.modulo a (2 ^ n)).
    { apply N.bits_inj. intros m. destruct (N.lt_ge_cases m n) as [Hlt|Hge].
      - rewrite N.mod_pow2_bits_low by exact Hlt. reflexivity.
      - rewrite N.mod_pow2_bits_high by exact Hge. apply H; exact Hge. }
    rewrite E. apply N.mod_lt. apply N.pow_nonzero. lia.
Qed.

Lemma lxor_lt a b n : a < 2 ^ n -> b < 2 ^ n -> N.lxor a b < 2 ^ n.
Proof.
  rewrite !lt_pow2_bits. intros Ha Hb m Hm. rewrite N.lxor_spec, Ha, Hb; auto.
Qed.

Lemma u32_lt x : u32 x < 2 ^ 32.
Proof. unfold u32. apply N.mod_lt. discriminate. Qed.

Lemma shl_fix_zero x k : 0 < k -> x < 2 ^ 32 -> x = u32 (N.shiftl x k) -> x = 0.
Proof.
  intros Hk Hx E.
  assert (Hb : forall n, N.testbit x n = false).
  { intros n. induction n as [n IH] using (well_founded_induction N.lt_wf_0).
    destruct (N.lt_ge_cases n 32) as [Hlt|Hge].
    - rewrite E. unfold u32. rewrite N.mod_pow2_bits_low by exact Hlt.
      destruct (N.lt_ge_cases n k) as [H1|H1].
      + apply N.shiftl_spec_low. exact H1.
      + rewrite N.shiftl_spec_high' by exact H1. apply IH. lia.
    - apply (proj1 (lt_pow2_bits x 32) Hx). exact Hge. }
  apply N.bits_inj_0. exact Hb.
Qed.

Lemma shr_fix_zero x k : 0 < k -> x < 2 ^ 32 -> x = u32 (N.shiftr x k) -> x = 0.
Proof.
  intros Hk Hx E. destruct (N.eq_dec x 0) as [|Hz]; [assumption|exfalso].
  assert (Hd : N.shiftr x k < x).
  { rewrite N.shiftr_div_pow2. apply N.div_lt; [lia|]. apply N.pow_gt_1; lia. }
  unfold u32 in E. rewrite N.mod_small in E by lia. lia.
Qed.

Lemma our_rand_r_ok seed : seed < 2 ^ 32 ->
  let (v, s) := our_rand_r seed in v < 2 ^ 31 /\ s < 2 ^ 32 /\ s <> 0.
Proof.
  intros H. unfold our_rand_r.
  set (s0 := if N.eqb seed 0 then 1 else seed).
  assert (H0 : s0 < 2 ^ 32 /\ s0 <> 0).
  { unfold s0. destruct (N.eqb_spec seed 0); split; auto; lia. }
  set (s1 := N.lxor s0 (u32 (N.shiftl s0 13))).
  assert (H1 : s1 < 2 ^ 32 /\ s1 <> 0).
  { split; [apply lxor_lt; [apply H0|apply u32_lt]|].
    intros E. apply N.lxor_eq in E. apply (proj2 H0). apply shl_fix_zero with 13; auto; try lia; apply H0. }
  set (s2 := N.lxor s1 (u32 (N.shiftr s1 17))).
  assert (H2 : s2 < 2 ^ 32 /\ s2 <> 0).
  { split; [apply lxor_lt; [apply H1|apply u32_lt]|].
    intros E. apply N.lxor_eq in E. apply (proj2 H1). apply shr_fix_zero with 17; auto; try lia; apply H1. }
  split; [|split].
  - apply N.mod_lt. discriminate.
  - apply lxor_lt; [apply H2|apply u32_lt].
  - intros E. apply N.lxor_eq in E. apply (proj2 H2). apply shl_fix_zero with 5; auto; try lia; apply H2.
Qed.

Lemma rand_int_ok (n : nat) seed : (0 < n)%nat -> seed < 2 ^ 32 ->
  let (k, s) := rand_int n seed in (k < n)%nat /\ s < 2 ^ 32 /\ s <> 0.
Proof.
  intros Hn Hs. unfold rand_int. pose proof (our_rand_r_ok seed Hs) as H.
  destruct (our_rand_r seed) as [v s]. destruct H as [_ [H1 H2]]. split; [|split; assumption].
  assert (N.modulo v (N.of_nat n) < N.of_nat n) by (apply N.mod_lt; lia). lia.
Qed.

(** The map on states is injective: distinct states never merge, so a non-zero seed is
    on a cycle. *)
Lemma shl_step_inj x y k : 0 < k -> x < 2 ^ 32 -> y < 2 ^ 32 ->
  N.lxor x (u32 (N.shiftl x k)) = N.lxor y (u32 (N.shiftl y k)) -> x = y.
Proof.
  intros Hk Hx Hy E. apply N.lxor_eq. apply shl_fix_zero with k; auto.
  - apply lxor_lt; auto.
  - apply N.lxor_eq. rewrite N.shiftl_lxor.
    assert (U : forall a b, u32 (N.lxor a b) = N.lxor (u32 a) (u32 b)).
    { intros a b. apply N.bits_inj. intros m. unfold u32. rewrite N.lxor_spec.
      destruct (N.lt_ge_cases m 32) as [Hl|Hg].
      - rewrite !N.mod_pow2_bits_low by exact Hl. apply N.lxor_spec.
      - rewrite !N.mod_pow2_bits_high by exact Hg. reflexivity. }
    rewrite U. rewrite (N.lxor_comm (u32 (N.shiftl x k))).
    rewrite N.lxor_assoc, <- (N.lxor_assoc y).
    rewrite <- E. rewrite <- (N.lxor_assoc x (N.lxor x _)). rewrite <- (N.lxor_assoc x x).
    rewrite N.lxor_nilpotent, N.lxor_0_l, N.lxor_nilpotent. reflexivity.
Qed.
Lemma shr_step_inj x y k : 0 < k -> x < 2 ^ 32 -> y < 2 ^ 32 ->
  N.lxor x (u32 (N.shiftr x k)) = N.lxor y (u32 (N.shiftr y k)) -> x = y.
Proof.
  intros Hk Hx Hy E. apply N.lxor_eq. apply shr_fix_zero with k; auto.
  - apply lxor_lt; auto.
  - apply N.lxor_eq. rewrite N.shiftr_lxor.
    assert (U : forall a b, u32 (N.lxor a b) = N.lxor (u32 a) (u32 b)).
    { intros a b. apply N.bits_inj. intros m. unfold u32. rewrite N.lxor_spec.
      destruct (N.lt_ge_cases m 32) as [Hl|Hg].
      - rewrite !N.mod_pow2_bits_low by exact Hl. apply N.lxor_spec.
      - rewrite !N.mod_pow2_bits_high by exact Hg. reflexivity. }
    rewrite U. rewrite (N.lxor_comm (u32 (N.shiftr x k))).
    rewrite N.lxor_assoc, <- (N.lxor_assoc y).
    rewrite <- E. rewrite <- (N.lxor_assoc x (N.lxor x _)). rewrite <- (N.lxor_assoc x x).
    rewrite N.lxor_nilpotent, N.lxor_0_l, N.lxor_nilpotent. reflexivity.
Qed.
Lemma our_rand_r_inj x y : x < 2 ^ 32 -> y < 2 ^ 32 -> x <> 0 -> y <> 0 ->
  snd (our_rand_r x) = snd (our_rand_r y) -> x = y.
Proof.
  intros Hx Hy Zx Zy E. unfold our_rand_r in E.
  destruct (N.eqb_spec x 0) as [|_]; [contradiction|]. destruct (N.eqb_spec y 0) as [|_]; [contradiction|].
  cbn [snd] in E.
  assert (B1 : forall a, a < 2^32 -> N.lxor a (u32 (N.shiftl a 13)) < 2^32) by (intros; apply lxor_lt; auto using u32_lt).
  assert (B2 : forall a, a < 2^32 -> N.lxor a (u32 (N.shiftr a 17)) < 2^32) by (intros; apply lxor_lt; auto using u32_lt).
  apply (shl_step_inj _ _ 5) in E; auto; try lia.
  apply (shr_step_inj _ _ 17) in E; auto; try lia.
  apply (shl_step_inj _ _ 13) in E; auto; try lia.
Qed.
