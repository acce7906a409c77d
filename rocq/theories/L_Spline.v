(** B-splines: the tail sums of the basis increase with the argument. *)
From Coq Require Import Reals Lra Lia List.
From Verif Require Import Base M_Formula S_Formula S_MonoPred.
Local Open Scope R_scope.

Section At.
Variables (t : nat -> R) (s : nat) (x : R).
Hypothesis Kn : knots t.
Hypothesis In_s : in_interval t s x.
Local Notation B := (bspline t s).
(** the tails, by their own recursion *)
Fixpoint U (d k : nat) : R :=
  match d with O => if Nat.leb k s then 1 else 0 | S d' => ratio t d k x * U d' k + (1 - ratio t d k x) * U d' (S k) end.
Definition cl (d k : nat) : R := if Reqb (t (k + d)%nat) (t k) then 0 else Rmax 0 (Rmin 1 (ratio t d k x)).
Lemma b_after d : forall i, (s < i)%nat -> B d i x = 0.
Proof.
  induction d as [|d IH]; intros i Hi; cbn [bspline].
  - destruct (Nat.eqb_spec i s); [lia|reflexivity].
  - rewrite (IH i Hi), (IH (S i)) by lia. ring.
Qed.
Lemma U_after d : forall k, (s < k)%nat -> U d k = 0.
Proof.
  induction d as [|d IH]; intros k Hk; cbn [U].
  - destruct (Nat.leb_spec k s); [lia|reflexivity].
  - rewrite (IH k Hk), (IH (S k)) by lia. ring.
Qed.
Lemma U_before d : forall k, (k + d <= s)%nat -> U d k = 1.
Proof.
  induction d as [|d IH]; intros k Hk; cbn [U].
  - destruct (Nat.leb_spec k s); [reflexivity|lia].
  - rewrite (IH k), (IH (S k)) by lia. ring.
Qed.
Lemma cl_range d k : 0 <= cl d k <= 1.
Proof.
  unfold cl. destruct (Reqb _ _); [lra|]. split; [apply Rmax_l|]. apply Rmax_lub; [lra|apply Rmin_l].
Qed.
Lemma cl_step d k : ratio t (S d) k x * U d k + (1 - ratio t (S d) k x) * U d (S k) = cl (S d) k * U d k + (1 - cl (S d) k) * U d (S k).
Proof.
  destruct In_s as [[X1 X2] X3].
  destruct (Nat.lt_ge_cases s k) as [Hk|Hk]; [rewrite (U_after d k), (U_after d (S k)) by lia; ring|].
  destruct (Nat.le_gt_cases (S k + d) s) as [Hk2|Hk2]; [rewrite (U_before d k), (U_before d (S k)) by lia; ring|].
  assert (A : t k <= t s) by (apply Kn; lia). assert (B1 : t (S s) <= t (k + S d)%nat) by (apply Kn; lia).
  assert (E : cl (S d) k = ratio t (S d) k x); [|rewrite E; reflexivity].
  unfold cl, ratio. destruct (Reqb (t (k + S d)%nat) (t k)) eqn:Z; [reflexivity|].
  assert (L : 0 < t (k + S d)%nat - t k) by lra.
  assert (Q0 : 0 <= (x - t k) / (t (k + S d)%nat - t k)) by (apply Rmult_le_pos; [lra|left; apply Rinv_0_lt_compat, L]).
  assert (Q1 : (x - t k) / (t (k + S d)%nat - t k) <= 1).
  { apply Rmult_le_reg_r with (t (k + S d)%nat - t k); [exact L|]. unfold Rdiv. rewrite Rmult_assoc, Rinv_l by lra. lra. }
  rewrite (Rmin_right 1) by exact Q1. rewrite Rmax_right by exact Q0. reflexivity.
Qed.
Lemma U_step d k : U (S d) k = cl (S d) k * U d k + (1 - cl (S d) k) * U d (S k).
Proof. cbn [U]. apply cl_step. Qed.
Lemma U_anti d : forall k, U d (S k) <= U d k.
Proof.
  induction d as [|d IH]; intros k.
  - cbn [U]. destruct (Nat.leb_spec k s), (Nat.leb_spec (S k) s); try lia; lra.
  - rewrite (U_step d k), (U_step d (S k)). pose proof (cl_range (S d) k). pose proof (cl_range (S d) (S k)). pose proof (IH k). pose proof (IH (S k)).
    apply Rle_trans with (U d (S k)); nra.
Qed.
Lemma U_range d k : 0 <= U d k <= 1.
Proof.
  revert k. induction d as [|d IH]; intros k; [cbn [U]; destruct (Nat.leb k s); lra|].
  rewrite U_step. pose proof (cl_range (S d) k). pose proof (IH k). pose proof (IH (S k)). split; nra.
Qed.
Lemma tails m d : (s < m)%nat -> forall n k, (k + n = m)%nat -> rsum n (fun j => B d (k + j) x) = U d k.
Proof.
  intros Hm. induction d as [|d IH]; intros n k Hn.
  - cbn [bspline U]. destruct (Nat.leb_spec k s) as [L|L].
    + rewrite (rsum_single n (s - k)); [|lia|intros i Hi Hne; destruct (Nat.eqb_spec (k + i) s); [lia|reflexivity]].
      destruct (Nat.eqb_spec (k + (s - k)) s); [reflexivity|lia].
    + apply rsum_zero. intros i Hi. destruct (Nat.eqb_spec (k + i) s); [lia|reflexivity].
  - revert k Hn. induction n as [|n IHn]; intros k Hn.
    + rewrite U_after by lia. reflexivity.
    + rewrite rsum_S_l. rewrite (rsum_ext n (fun i => B (S d) (k + S i) x) (fun i => B (S d) (S k + i) x)) by (intros i Hi; f_equal; lia).
      rewrite (IHn (S k)) by lia. replace (k + 0)%nat with k by lia. cbn [bspline U].
      assert (BK : forall k n, (k + S n = m)%nat -> B d k x = U d k - U d (S k)).
      { intros k1 n1 Hk1. pose proof (IH (S n1) k1 Hk1) as A. rewrite rsum_S_l in A.
        rewrite (rsum_ext n1 (fun i => B d (k1 + S i) x) (fun i => B d (S k1 + i) x)) in A by (intros i Hi; f_equal; lia).
        rewrite (IH n1 (S k1)) in A by lia. replace (k1 + 0)%nat with k1 in A by lia. lra. }
      rewrite (BK k n Hn). assert (BS : B d (S k) x = U d (S k) - U d (S (S k))).
      { destruct n as [|n]; [rewrite b_after, !U_after by lia; ring|apply (BK (S k) n); lia]. }
      rewrite BS. ring.
Qed.
End At.
Lemma U_mono t s s' x x' : knots t -> in_interval t s x -> in_interval t s' x' -> x <= x' -> (s <= s')%nat ->
  forall d k, U t s x d k <= U t s' x' d k.
Proof.
  intros Kn I I' Hx Hs. induction d as [|d IH]; intros k.
  - cbn [U]. destruct (Nat.leb_spec k s), (Nat.leb_spec k s'); try lia; lra.
  - rewrite (U_step t s x Kn I), (U_step t s' x' Kn I').
    pose proof (cl_range t x (S d) k) as R1. pose proof (cl_range t x' (S d) k) as R2.
    assert (C : cl t x (S d) k <= cl t x' (S d) k).
    { unfold cl. destruct (Reqb _ _) eqn:Z; [lra|]. unfold ratio. rewrite Z. apply Rle_max_compat_l.
      apply Rmin_case_strong; intros Q; [|apply Rmin_case_strong; intros Q'].
      - apply Rmin_glb; [lra|]. eapply Rle_trans; [exact Q|]. apply Rmult_le_compat_r; [|lra]. left. apply Rinv_0_lt_compat.
        pose proof (Kn k (k + S d)%nat ltac:(lia)) as A. destruct (Req_dec (t (k + S d)%nat) (t k)) as [E|E]; [apply Reqb_true in E; congruence|lra].
      - exact Q.
      - apply Rmult_le_compat_r; [|lra]. left. apply Rinv_0_lt_compat.
        pose proof (Kn k (k + S d)%nat ltac:(lia)) as A. destruct (Req_dec (t (k + S d)%nat) (t k)) as [E|E]; [apply Reqb_true in E; congruence|lra]. }
    pose proof (IH k). pose proof (IH (S k)). pose proof (U_anti t s' x' Kn I' d k).
    apply Rle_trans with (cl t x (S d) k * U t s' x' d k + (1 - cl t x (S d) k) * U t s' x' d (S k)); nra.
Qed.
