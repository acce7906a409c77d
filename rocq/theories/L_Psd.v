(** A symmetric matrix whose eigenvalues are all at least m has z'Az >= m|z|^2. *)
From Coq Require Import Classical.
From Verif Require Import M_Lin L_Lin M_Psd S_Psd.
From Verif Require Import M_Solver S_Solver.
Import ListNotations.
Local Open Scope R_scope.

Lemma rsum_term_le n f k : (forall i, (i < n)%nat -> 0 <= f i) -> (k < n)%nat -> f k <= rsum n f.
Proof.
  induction n as [|n IH]; intros H Hk; [lia|]. simpl. destruct (Nat.eq_dec k n) as [->|Hne].
  - pose proof (rsum_nonneg n f ltac:(intros; apply H; lia)). lra.
  - pose proof (IH ltac:(intros; apply H; lia) ltac:(lia)). pose proof (H n ltac:(lia)). lra.
Qed.
Lemma sq_norm_nonneg p z : 0 <= sq_norm p z.
Proof. unfold sq_norm. apply rsum_nonneg. intros i _. nra. Qed.
Lemma sq_norm_pos p z i : (i < p)%nat -> z i <> 0 -> 0 < sq_norm p z.
Proof.
  intros Hi Hz. unfold sq_norm. apply Rlt_le_trans with (z i * z i); [nra|].
  apply (rsum_term_le p (fun i => z i * z i)); [intros; nra|exact Hi].
Qed.
Lemma sq_norm_zero p z : (forall i, (i < p)%nat -> z i = 0) -> sq_norm p z = 0.
Proof. intros H. apply rsum_zero. intros i Hi. rewrite H by exact Hi. ring. Qed.

(** Cauchy-Schwarz *)
Lemma cauchy n (a b : nat -> R) : (rsum n (fun i => a i * b i)) * (rsum n (fun i => a i * b i)) <= sq_norm n a * sq_norm n b.
Proof.
  set (x := rsum n (fun i => a i * b i)).
  assert (H : forall t, 0 <= sq_norm n a - 2 * t * x + t * t * sq_norm n b).
  { intros t. replace (sq_norm n a - 2 * t * x + t * t * sq_norm n b) with (sq_norm n (fun i => a i - t * b i)); [apply sq_norm_nonneg|].
    unfold sq_norm, x. rewrite <- !rsum_scal, <- rsum_minus, <- rsum_plus. apply rsum_ext. intros; ring. }
  destruct (Req_dec (sq_norm n b) 0) as [Z|NZ].
  - assert (x = 0); [|rewrite H0, Z; lra]. destruct (Req_dec x 0) as [|X]; [assumption|exfalso].
    specialize (H ((sq_norm n a + 1) / (2 * x))). rewrite Z in H.
    replace (sq_norm n a - 2 * ((sq_norm n a + 1) / (2 * x)) * x) with (-1) in H by (field; exact X). lra.
  - assert (P : 0 < sq_norm n b) by (pose proof (sq_norm_nonneg n b); lra). specialize (H (x / sq_norm n b)).
    apply (Rmult_le_compat_r (sq_norm n b)) in H; [|lra]. rewrite Rmult_0_l in H.
    replace ((sq_norm n a - 2 * (x / sq_norm n b) * x + x / sq_norm n b * (x / sq_norm n b) * sq_norm n b) * sq_norm n b)
      with (sq_norm n a * sq_norm n b - x * x) in H by (field; lra). lra.
Qed.

Lemma qform_mulv p A z : qform p A z = rsum p (fun i => z i * mulv p A z i).
Proof. unfold qform, mulv. apply rsum_ext. intros i _. rewrite <- rsum_scal. apply rsum_ext. intros; ring. Qed.

Section Definite.
  Variables (p : nat) (B : mat).
  Hypothesis SYM : forall i j, (i < p)%nat -> (j < p)%nat -> B i j = B j i.
  Hypothesis PSD : forall z, 0 <= qform p B z.

  Lemma qform_move z k t : (k < p)%nat ->
    qform p B (fun i => z i + (if Nat.eqb i k then t else 0)) = qform p B z + 2 * t * mulv p B z k + t * t * B k k.
  Proof.
    intros Hk. unfold qform, mulv.
    rewrite (rsum_ext p _ (fun i => rsum p (fun j => z i * B i j * z j) + ((if Nat.eqb i k then t * rsum p (fun j => B k j * z j) else 0)
       + (z i * B i k * t + (if Nat.eqb i k then t * t * B k k else 0))))).
    - rewrite !rsum_plus. rewrite (rsum_single p k (fun i => if Nat.eqb i k then t * _ else 0)), (rsum_single p k (fun i => if Nat.eqb i k then t * t * _ else 0)).
      + rewrite !Nat.eqb_refl. rewrite (rsum_ext p (fun i => z i * B i k * t) (fun i => t * (B k i * z i))) by (intros i Hi; rewrite (SYM i k) by assumption; ring).
        rewrite rsum_scal. ring.
      + exact Hk.
      + intros i _ Hne. destruct (Nat.eqb_spec i k); [contradiction|reflexivity].
      + exact Hk.
      + intros i _ Hne. destruct (Nat.eqb_spec i k); [contradiction|reflexivity].
    - intros i Hi. rewrite (rsum_ext p _ (fun j => z i * B i j * z j + ((if Nat.eqb i k then t * (B k j * z j) else 0) +
        ((if Nat.eqb j k then z i * B i k * t else 0) + (if Nat.eqb j k then (if Nat.eqb i k then t * t * B k k else 0) else 0))))).
      + rewrite !rsum_plus. f_equal. f_equal; [destruct (Nat.eqb i k); [apply rsum_scal|apply rsum_zero; reflexivity]|].
        f_equal; (rewrite (rsum_single p k); [rewrite Nat.eqb_refl; reflexivity|exact Hk|]; intros j _ Hne; destruct (Nat.eqb_spec j k); [contradiction|reflexivity]).
      + intros j Hj. destruct (Nat.eqb_spec i k), (Nat.eqb_spec j k); subst; ring.
  Qed.

  (** (Bz)_k^2 <= B_kk z'Bz *)
  Lemma psd_entry z k : (k < p)%nat -> mulv p B z k * mulv p B z k <= B k k * qform p B z.
  Proof.
    intros Hk. set (x := mulv p B z k).
    assert (H : forall t, 0 <= qform p B z + 2 * t * x + t * t * B k k) by (intros t; unfold x; rewrite <- qform_move by exact Hk; apply PSD).
    destruct (Req_dec (B k k) 0) as [Z|NZ].
    - destruct (Req_dec x 0) as [->|X]; [rewrite Z; lra|exfalso]. specialize (H (- (qform p B z + 1) / (2 * x))). rewrite Z in H.
      replace (qform p B z + 2 * (- (qform p B z + 1) / (2 * x)) * x) with (-1) in H by (field; exact X). lra.
    - assert (P : 0 < B k k).
      { assert (0 <= B k k); [|lra]. destruct (Rle_dec 0 (B k k)) as [|N]; [assumption|exfalso]. apply Rnot_le_lt in N.
        set (q := qform p B z) in *. assert (Hq : 0 <= q) by apply PSD. set (b := - B k k). assert (0 < b) by (unfold b; lra).
        set (t := (Rabs x * 2 + q + 1) / b + 1). assert (Ht : 1 <= t) by (unfold t; assert (0 <= (Rabs x * 2 + q + 1) / b) by (apply Rmult_le_pos; [pose proof (Rabs_pos x); lra|left; apply Rinv_0_lt_compat; assumption]); lra).
        assert (Hb : Rabs x * 2 + q + 1 <= t * b). { unfold t. rewrite Rmult_plus_distr_r. unfold Rdiv. rewrite Rmult_assoc, Rinv_l by lra. lra. }
        specialize (H t). replace (t * t * B k k) with (- (t * (t * b))) in H by (unfold b; ring).
        pose proof (Rle_abs x). assert (2 * t * x <= 2 * t * Rabs x) by (apply Rmult_le_compat_l; lra).
        assert (t * (Rabs x * 2 + q + 1) <= t * (t * b)) by (apply Rmult_le_compat_l; lra).
        assert (q * 1 <= q * t) by (apply Rmult_le_compat_l; lra). lra. }
      specialize (H (- x / B k k)). apply (Rmult_le_compat_r (B k k)) in H; [|lra]. rewrite Rmult_0_l in H.
      replace ((qform p B z + 2 * (- x / B k k) * x + - x / B k k * (- x / B k k) * B k k) * B k k) with (B k k * qform p B z - x * x) in H by (field; lra). lra.
  Qed.

  Lemma psd_definite : nonsingular p B -> exists d, 0 < d /\ forall z, d * sq_norm p z <= qform p B z.
  Proof.
    intros NS. destruct (gsolve_mat_complete p B (fun i k => unit_vec k i) NS) as [C EC]. apply gsolve_mat_sound in EC as [_ EC].
    assert (L : forall i k, (i < p)%nat -> (k < p)%nat -> mulm p C B i k = unit_vec k i) by (apply right_left_inverse; [intros; apply EC; assumption|exact NS]).
    set (tr := rsum p (fun k => B k k)). set (fr := rsum p (fun i => sq_norm p (C i))).
    assert (Hfr : 0 <= fr) by (apply rsum_nonneg; intros; apply sq_norm_nonneg).
    assert (Htr : 0 <= tr).
    { apply rsum_nonneg. intros k Hk. pose proof (PSD (fun i => if Nat.eqb i k then 1 else 0)) as P.
      replace (qform p B (fun i => if Nat.eqb i k then 1 else 0)) with (qform p B (fun i => 0 + (if Nat.eqb i k then 1 else 0))) in P
        by (unfold qform; apply rsum_ext; intros; apply rsum_ext; intros; ring).
      rewrite qform_move in P by exact Hk. replace (qform p B (fun _ => 0)) with 0 in P.
      - replace (mulv p B (fun _ => 0) k) with 0 in P; [lra|]. symmetry. apply rsum_zero. intros; ring.
      - symmetry. apply rsum_zero. intros. apply rsum_zero. intros; ring. }
    assert (S1 : forall z, sq_norm p (mulv p B z) <= tr * qform p B z).
    { intros z. unfold sq_norm, tr. rewrite <- rsum_scal_r. apply rsum_le. intros k Hk. apply psd_entry, Hk. }
    assert (S2 : forall z, sq_norm p z <= fr * sq_norm p (mulv p B z)).
    { intros z. unfold sq_norm at 1, fr. rewrite <- rsum_scal_r. apply rsum_le. intros i Hi.
      replace (z i) with (rsum p (fun j => C i j * mulv p B z j)); [apply cauchy|].
      change (mulv p C (mulv p B z) i = z i). rewrite <- mulv_mulm. unfold mulv.
      rewrite (rsum_single p i) by first [assumption | intros j Hj Hne; rewrite L by assumption; unfold unit_vec; destruct (Nat.eqb_spec i j); first [congruence | ring]].
      rewrite L by assumption. unfold unit_vec. rewrite Nat.eqb_refl. ring. }
    exists (/ (tr * fr + 1)). assert (0 <= tr * fr) by (apply Rmult_le_pos; assumption). split; [apply Rinv_0_lt_compat; lra|].
    intros z. apply (Rmult_le_reg_l (tr * fr + 1)); [lra|]. rewrite <- Rmult_assoc, Rinv_r, Rmult_1_l by lra.
    pose proof (S1 z) as A1. pose proof (S2 z) as A2. pose proof (PSD z). apply (Rmult_le_compat_l fr) in A1; [|exact Hfr]. lra.
  Qed.
End Definite.

Definition shifted (A : mat) (t : R) : mat := fun i j => A i j - (if Nat.eqb i j then t else 0).
Lemma mulv_shifted p A t z i : (i < p)%nat -> mulv p (shifted A t) z i = mulv p A z i - t * z i.
Proof.
  intros Hi. unfold mulv, shifted. rewrite (rsum_ext p _ (fun j => A i j * z j - (if Nat.eqb i j then t * z i else 0))) by (intros j _; destruct (Nat.eqb_spec i j); [subst|]; ring).
  rewrite rsum_minus. f_equal. rewrite (rsum_single p i); [rewrite Nat.eqb_refl; reflexivity|exact Hi|]. intros j _ Hne. destruct (Nat.eqb_spec i j); [congruence|reflexivity].
Qed.
Lemma qform_shifted p A t z : qform p (shifted A t) z = qform p A z - t * sq_norm p z.
Proof.
  rewrite !qform_mulv. unfold sq_norm. rewrite <- rsum_scal, <- rsum_minus. apply rsum_ext. intros i Hi. rewrite mulv_shifted by exact Hi. ring.
Qed.

Section Rayleigh.
  Variables (p : nat) (A : mat).
  Hypothesis SYM : forall i j, (i < p)%nat -> (j < p)%nat -> A i j = A j i.

  Lemma eigen_bound_low m : (forall z, m * sq_norm p z <= qform p A z) -> forall l, eigenvalue p A l -> m <= l.
  Proof.
    intros H l [v [[i [Hi Hv]] E]]. specialize (H v). rewrite qform_mulv in H.
    rewrite (rsum_ext p _ (fun i => l * (v i * v i))) in H by (intros k Hk; unfold mulv; rewrite E by exact Hk; ring).
    rewrite rsum_scal in H. fold (sq_norm p v) in H. pose proof (sq_norm_pos p v i Hi Hv). nra.
  Qed.

  Lemma crude_bound : exists K, forall z, - K * sq_norm p z <= qform p A z.
  Proof.
    exists (rsum p (fun i => rsum p (fun j => Rabs (A i j)))). intros z. unfold qform.
    rewrite <- Ropp_mult_distr_l, <- rsum_scal_r, <- rsum_opp. apply rsum_le. intros i Hi. rewrite <- rsum_scal_r, <- rsum_opp. apply rsum_le. intros j Hj.
    assert (Z : forall k, (k < p)%nat -> z k * z k <= sq_norm p z) by (intros k Hk; apply (rsum_term_le p (fun k => z k * z k)); [intros; nra|exact Hk]).
    pose proof (Z i Hi). pose proof (Z j Hj). assert (Rabs (z i * z j) <= sq_norm p z).
    { apply Rabs_le. split; nra. }
    assert (Q : Rabs (z i * A i j * z j) <= Rabs (A i j) * sq_norm p z).
    { replace (z i * A i j * z j) with (A i j * (z i * z j)) by ring. rewrite Rabs_mult. apply Rmult_le_compat_l; [apply Rabs_pos|assumption]. }
    pose proof (Rabs_pos (z i * A i j * z j)). revert Q. unfold Rabs at 1. destruct (Rcase_abs _); lra.
  Qed.

  Lemma eigen_bound m : (forall l, eigenvalue p A l -> m <= l) -> forall z, m * sq_norm p z <= qform p A z.
  Proof.
    intros H. destruct p as [|p'] eqn:EP; [intros z; unfold sq_norm, qform; simpl; lra|].
    set (LB := fun t => forall z, t * sq_norm (S p') z <= qform (S p') A z).
    assert (UB : bound LB).
    { exists (A O O). intros t Ht. specialize (Ht (fun i => if Nat.eqb i 0 then 1 else 0)).
      replace (sq_norm (S p') (fun i => if Nat.eqb i 0 then 1 else 0)) with 1 in Ht.
      - replace (qform (S p') A (fun i => if Nat.eqb i 0 then 1 else 0)) with (A O O) in Ht; [lra|]. unfold qform.
        rewrite (rsum_single _ 0%nat) by first [lia | intros i _ Hne; apply rsum_zero; intros; destruct (Nat.eqb_spec i 0); first [contradiction | ring]].
        rewrite (rsum_single _ 0%nat) by first [lia | intros i _ Hne; destruct (Nat.eqb_spec i 0); first [contradiction | ring]]. simpl. ring.
      - unfold sq_norm. rewrite (rsum_single _ 0%nat) by first [lia | intros i _ Hne; destruct (Nat.eqb_spec i 0); first [contradiction | ring]]. simpl. ring. }
    assert (NE : exists t, LB t).
    { rewrite <- EP in *. destruct crude_bound as [K HK]. exists (- K). intros z. rewrite <- EP. apply HK. }
    destruct (completeness LB UB NE) as [m0 [U1 U2]].
    assert (L0 : LB m0).
    { intros z. destruct (Rle_dec (m0 * sq_norm (S p') z) (qform (S p') A z)) as [|N]; [assumption|exfalso]. apply Rnot_le_lt in N.
      pose proof (sq_norm_nonneg (S p') z) as Hn. destruct (Req_dec (sq_norm (S p') z) 0) as [Z|NZ].
      - destruct NE as [t Ht]. specialize (Ht z). rewrite Z in *. lra.
      - assert (P : 0 < sq_norm (S p') z) by lra. assert (m0 <= qform (S p') A z / sq_norm (S p') z).
        { apply U2. intros t Ht. specialize (Ht z). apply (Rmult_le_reg_r (sq_norm (S p') z)); [exact P|].
          unfold Rdiv. rewrite Rmult_assoc, Rinv_l by lra. lra. }
        apply (Rmult_le_compat_r (sq_norm (S p') z)) in H0; [|lra]. unfold Rdiv in H0. rewrite Rmult_assoc, Rinv_l in H0 by lra. lra. }
    assert (SG : ~ nonsingular (S p') (shifted A m0)).
    { intros NS. destruct (psd_definite (S p') (shifted A m0)) as [d [Hd D]]; [| |exact NS|].
      - intros i j Hi Hj. unfold shifted. rewrite SYM by assumption. rewrite Nat.eqb_sym. reflexivity.
      - intros z. rewrite qform_shifted. specialize (L0 z). lra.
      - assert (m0 + d <= m0); [|lra]. apply U1. intros z. specialize (D z). rewrite qform_shifted in D. lra. }
    assert (EV : eigenvalue (S p') A m0).
    { apply NNPP. intros NE'. apply SG. intros x Hx j Hj. destruct (Req_dec (x j) 0) as [|X]; [assumption|exfalso]. apply NE'.
      exists x. split; [exists j; auto|]. intros i Hi. specialize (Hx i Hi). rewrite mulv_shifted in Hx by exact Hi. unfold mulv in Hx. lra. }
    specialize (H m0 EV). intros z. specialize (L0 z). pose proof (sq_norm_nonneg (S p') z). nra.
  Qed.
End Rayleigh.

(** A symmetric matrix has finitely many eigenvalues: eigenvectors of different ones are orthogonal, and
    by Bessel's inequality p + 1 orthogonal vectors do not fit into p dimensions. *)
Lemma orthogonal_eigenvectors p A l l' v v' : (forall i j, (i < p)%nat -> (j < p)%nat -> A i j = A j i) ->
  (forall i, (i < p)%nat -> mulv p A v i = l * v i) -> (forall i, (i < p)%nat -> mulv p A v' i = l' * v' i) -> l <> l' ->
  rsum p (fun i => v i * v' i) = 0.
Proof.
  intros SYM E E' N. assert (Q : l * rsum p (fun i => v i * v' i) = l' * rsum p (fun i => v i * v' i)).
  { transitivity (rsum p (fun i => mulv p A v i * v' i)).
    - rewrite <- rsum_scal. apply rsum_ext. intros i Hi. rewrite E by exact Hi. ring.
    - transitivity (rsum p (fun i => v i * mulv p A v' i)); [|rewrite <- rsum_scal; apply rsum_ext; intros i Hi; rewrite E' by exact Hi; ring].
      unfold mulv. rewrite (rsum_ext p _ (fun i => rsum p (fun j => A i j * v j * v' i))) by (intros; symmetry; apply rsum_scal_r).
      rewrite rsum_swap. apply rsum_ext. intros j Hj. rewrite <- rsum_scal. apply rsum_ext. intros i Hi. rewrite (SYM i j) by assumption. ring. }
  assert (D : (l - l') * rsum p (fun i => v i * v' i) = 0) by lra. apply Rmult_integral in D as [D|D]; lra.
Qed.
Lemma bessel p m (v : nat -> nat -> R) x : (forall k, (k < m)%nat -> 0 < sq_norm p (v k)) ->
  (forall k k', (k < m)%nat -> (k' < m)%nat -> k <> k' -> rsum p (fun i => v k i * v k' i) = 0) ->
  rsum m (fun k => (rsum p (fun i => x i * v k i)) ^ 2 / sq_norm p (v k)) <= sq_norm p x.
Proof.
  intros P O. set (c := fun k => rsum p (fun i => x i * v k i) / sq_norm p (v k)).
  assert (H : sq_norm p (fun i => x i - rsum m (fun k => c k * v k i)) = sq_norm p x - rsum m (fun k => (rsum p (fun i => x i * v k i)) ^ 2 / sq_norm p (v k))).
  { unfold sq_norm at 1.
    rewrite (rsum_ext p _ (fun i => x i * x i - 2 * rsum m (fun k => c k * (x i * v k i)) + rsum m (fun k => rsum m (fun k' => c k * c k' * (v k i * v k' i))))).
    2:{ intros i _. replace (rsum m (fun k => c k * (x i * v k i))) with (x i * rsum m (fun k => c k * v k i)) by (rewrite <- rsum_scal; apply rsum_ext; intros; ring).
        replace (rsum m (fun k => rsum m (fun k' => c k * c k' * (v k i * v k' i)))) with (rsum m (fun k => c k * v k i) * rsum m (fun k => c k * v k i)); [ring|].
        rewrite <- rsum_scal_r. apply rsum_ext. intros k _. rewrite <- rsum_scal. apply rsum_ext. intros; ring. }
    rewrite rsum_plus, rsum_minus, rsum_scal. fold (sq_norm p x).
    rewrite (rsum_swap p m (fun i k => c k * (x i * v k i))), (rsum_swap p m (fun i k => rsum m (fun k' => c k * c k' * (v k i * v k' i)))).
    replace (rsum m (fun j => rsum p (fun i => rsum m (fun k' => c j * c k' * (v j i * v k' i))))) with (rsum m (fun k => (rsum p (fun i => x i * v k i)) ^ 2 / sq_norm p (v k))).
    - replace (rsum m (fun j => rsum p (fun i => c j * (x i * v j i)))) with (rsum m (fun k => (rsum p (fun i => x i * v k i)) ^ 2 / sq_norm p (v k))); [ring|].
      apply rsum_ext. intros k Hk. rewrite rsum_scal. unfold c. field. specialize (P k Hk). lra.
    - apply rsum_ext. intros k Hk. rewrite rsum_swap. rewrite (rsum_single m k).
      + rewrite rsum_scal. fold (sq_norm p (v k)). unfold c. field. specialize (P k Hk). lra.
      + exact Hk.
      + intros k' Hk' Hne. rewrite rsum_scal, O by (first [assumption | congruence]). ring. }
  pose proof (sq_norm_nonneg p (fun i => x i - rsum m (fun k => c k * v k i))). lra.
Qed.
Lemma few_orthogonal p m (v : nat -> nat -> R) : (forall k, (k < m)%nat -> 0 < sq_norm p (v k)) ->
  (forall k k', (k < m)%nat -> (k' < m)%nat -> k <> k' -> rsum p (fun i => v k i * v k' i) = 0) -> (m <= p)%nat.
Proof.
  intros P O. apply INR_le.
  replace (INR p) with (rsum p (fun j => sq_norm p (fun i => if Nat.eqb i j then 1 else 0))).
  - replace (INR m) with (rsum p (fun j => rsum m (fun k => (rsum p (fun i => (if Nat.eqb i j then 1 else 0) * v k i)) ^ 2 / sq_norm p (v k)))).
    + apply rsum_le. intros j _. apply bessel; assumption.
    + rewrite rsum_swap. transitivity (rsum m (fun _ => 1)); [|clear; induction m as [|m IH]; [reflexivity|rewrite S_INR, <- IH; reflexivity]].
      apply rsum_ext. intros k Hk. transitivity (rsum p (fun j => (v k j * v k j) * / sq_norm p (v k))).
      * apply rsum_ext. intros j Hj. rewrite (rsum_single p j) by first [assumption | intros i _ Hne; destruct (Nat.eqb_spec i j); first [contradiction | ring]].
        rewrite Nat.eqb_refl. unfold Rdiv. ring.
      * rewrite rsum_scal_r. fold (sq_norm p (v k)). apply Rinv_r. specialize (P k Hk). lra.
  - transitivity (rsum p (fun _ => 1)); [|clear; induction p as [|p IH]; [reflexivity|rewrite S_INR, <- IH; reflexivity]].
    apply rsum_ext. intros j Hj. unfold sq_norm. rewrite (rsum_single p j) by first [assumption | intros i _ Hne; destruct (Nat.eqb_spec i j); first [contradiction | ring]].
    rewrite Nat.eqb_refl. ring.
Qed.
Lemma few_eigenvalues p A ls : (forall i j, (i < p)%nat -> (j < p)%nat -> A i j = A j i) ->
  NoDup ls -> (forall l, In l ls -> eigenvalue p A l) -> (length ls <= p)%nat.
Proof.
  intros SYM ND H.
  assert (exists v : nat -> nat -> R, forall k, (k < length ls)%nat -> 0 < sq_norm p (v k) /\ forall i, (i < p)%nat -> mulv p A (v k) i = nth k ls 0 * v k i) as [v Hv].
  { clear ND. induction ls as [|l ls IH]; [exists (fun _ _ => 0); intros k Hk; inversion Hk|].
    destruct IH as [v Hv]; [intros; apply H; right; assumption|]. destruct (H l) as [w [[i [Hi Hw]] E]]; [left; reflexivity|].
    exists (fun k => match k with O => w | S k' => v k' end). intros [|k] Hk; cbn [nth].
    - split; [apply (sq_norm_pos p w i Hi Hw)|exact E].
    - apply Hv. cbn in Hk. lia. }
  apply (few_orthogonal p (length ls) v); [intros; apply Hv; assumption|]. intros k k' Hk Hk' Hne.
  apply (orthogonal_eigenvectors p A (nth k ls 0) (nth k' ls 0)); [exact SYM|apply Hv, Hk|apply Hv, Hk'|].
  intros E. apply Hne. apply (proj1 (NoDup_nth ls 0) ND); assumption.
Qed.
Lemma eigenvalues_listed p A : (forall i j, (i < p)%nat -> (j < p)%nat -> A i j = A j i) ->
  exists ls, forall l, In l ls <-> eigenvalue p A l.
Proof.
  intros SYM.
  assert (G : forall m ls, (p <= length ls + m)%nat -> NoDup ls -> (forall l, In l ls -> eigenvalue p A l) -> exists ls, forall l, In l ls <-> eigenvalue p A l).
  { induction m as [|m IH]; intros ls Hm ND H.
    - exists ls. intros l. split; [apply H|]. intros E. apply NNPP. intros NI.
      assert (length (l :: ls) <= p)%nat; [|cbn in *; lia]. apply (few_eigenvalues p A); [exact SYM|constructor; assumption|]. intros l' [<-|Hl]; auto.
    - destruct (classic (exists l, eigenvalue p A l /\ ~ In l ls)) as [[l [E NI]]|N].
      + apply (IH (l :: ls)); [cbn; lia|constructor; assumption|]. intros l' [<-|Hl]; auto.
      + exists ls. intros l. split; [apply H|]. intros E. apply NNPP. intros NI. apply N. eauto. }
  apply (G p []); [cbn; lia|constructor|]. intros l [].
Qed.
