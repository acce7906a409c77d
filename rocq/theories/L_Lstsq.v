(** A least squares routine in exact arithmetic, showing that the contract asked of scipy.linalg.lstsq in
    S_Solver can be met together with the others. *)
From Verif Require Import M_Lin L_Lin.
From Verif Require Import M_Solver S_Solver.
Local Open Scope R_scope.

(** Coefficients of the projection of b (length n) on the first m columns of A: split column m into its
    projection on the earlier columns and an orthogonal rest. *)
Fixpoint lsq (n m : nat) (A : nat -> nat -> R) (b : nat -> R) : nat -> R :=
  match m with
  | O => fun _ => 0
  | S m' =>
      let g := lsq n m' A (fun i => A i m') in
      let r i := A i m' - rsum m' (fun j => A i j * g j) in
      let rr := rsum n (fun i => r i * r i) in
      let t := if Reqb rr 0 then 0 else rsum n (fun i => r i * b i) / rr in
      let x := lsq n m' A (fun i => b i - t * A i m') in
      fun j => if Nat.eqb j m' then t else x j
  end.

Lemma lsq_normal n : forall m A b k, (k < m)%nat ->
  rsum n (fun i => A i k * (b i - rsum m (fun j => A i j * lsq n m A b j))) = 0.
Proof.
  induction m as [|m IH]; intros A b k Hk; [lia|].
  cbn [lsq]. set (g := lsq n m A (fun i => A i m)). set (r := fun i => A i m - rsum m (fun j => A i j * g j)).
  set (rr := rsum n (fun i => r i * r i)). set (t := if Reqb rr 0 then 0 else rsum n (fun i => r i * b i) / rr). set (x := lsq n m A (fun i => b i - t * A i m)).
  set (e := fun i => (b i - t * A i m) - rsum m (fun j => A i j * x j)).
  assert (EE : forall i, b i - rsum (S m) (fun j => A i j * (if Nat.eqb j m then t else x j)) = e i).
  { intros i. cbn [rsum]. rewrite Nat.eqb_refl.
    rewrite (rsum_ext m _ (fun j => A i j * x j)) by (intros j Hj; destruct (Nat.eqb_spec j m); [lia|reflexivity]). unfold e. ring. }
  rewrite (rsum_ext n _ (fun i => A i k * e i)) by (intros i _; rewrite EE; reflexivity).
  assert (OE : forall k, (k < m)%nat -> rsum n (fun i => A i k * e i) = 0) by (intros l Hl; apply (IH A (fun i => b i - t * A i m) l Hl)).
  assert (OR : forall k, (k < m)%nat -> rsum n (fun i => A i k * r i) = 0) by (intros l Hl; apply (IH A (fun i => A i m) l Hl)).
  destruct (Nat.eq_dec k m) as [->|N]; [|apply OE; lia].
  assert (SW : forall (f : nat -> R) (z : nat -> R), (forall k, (k < m)%nat -> rsum n (fun i => A i k * z i) = 0) ->
     rsum n (fun i => rsum m (fun j => A i j * f j) * z i) = 0).
  { intros f z Hz. rewrite (rsum_ext n _ (fun i => rsum m (fun j => A i j * f j * z i))) by (intros; rewrite rsum_scal_r; reflexivity).
    rewrite rsum_swap. apply rsum_zero. intros j Hj.
    rewrite (rsum_ext n _ (fun i => f j * (A i j * z i))) by (intros; ring). rewrite rsum_scal, Hz by exact Hj. ring. }
  assert (A1 : rsum n (fun i => A i m * e i) = rsum n (fun i => r i * e i)).
  { rewrite (rsum_ext n _ (fun i => r i * e i + rsum m (fun j => A i j * g j) * e i)) by (intros; unfold r; ring).
    rewrite rsum_plus, (SW g e OE). ring. }
  assert (A2 : rsum n (fun i => r i * A i m) = rr).
  { unfold rr. rewrite (rsum_ext n (fun i => r i * A i m) (fun i => r i * r i + rsum m (fun j => A i j * g j) * r i)) by (intros; unfold r; ring).
    rewrite rsum_plus, (SW g r OR). ring. }
  rewrite A1. destruct (Reqb rr 0) eqn:Z.
  - apply Reqb_true in Z. apply rsum_zero. intros i Hi.
    assert (RZ : r i * r i = 0) by (apply (rsum_zero_inv n (fun i => r i * r i)); [intros; nra|exact Z|exact Hi]).
    assert (r i = 0) by nra. rewrite H. ring.
  - apply Reqb_false in Z.
    rewrite (rsum_ext n _ (fun i => (r i * b i - t * (r i * A i m)) - rsum m (fun j => A i j * x j) * r i)) by (intros; unfold e; ring).
    rewrite !rsum_minus, rsum_scal, (SW x r OR), A2. unfold t. field. exact Z.
Qed.

Definition lsq_square (n : nat) (A : nat -> nat -> R) (b : nat -> R) : nat -> R := lsq n n A b.
Lemma lsq_sound : lstsq_sound lsq_square.
Proof.
  intros n A b v. unfold residual_sq, lsq_square. set (x := lsq n n A b).
  assert (N : forall k, (k < n)%nat -> rsum n (fun i => A i k * (b i - rsum n (fun j => A i j * x j))) = 0) by (intros; apply lsq_normal; assumption).
  set (e := fun i => b i - rsum n (fun j => A i j * x j)) in *.
  assert (X : rsum n (fun i => rsum n (fun j => A i j * (v j - x j)) * e i) = 0).
  { rewrite (rsum_ext n _ (fun i => rsum n (fun j => A i j * (v j - x j) * e i))) by (intros; rewrite rsum_scal_r; reflexivity).
    rewrite rsum_swap. apply rsum_zero. intros j Hj.
    rewrite (rsum_ext n _ (fun i => (v j - x j) * (A i j * e i))) by (intros; ring). rewrite rsum_scal. unfold e in *. rewrite N by exact Hj. ring. }
  assert (Q : rsum n (fun i => (rsum n (fun j => A i j * v j) - b i) ^ 2)
              = rsum n (fun i => (rsum n (fun j => A i j * x j) - b i) ^ 2) + rsum n (fun i => rsum n (fun j => A i j * (v j - x j)) ^ 2)
                - 2 * rsum n (fun i => rsum n (fun j => A i j * (v j - x j)) * e i)).
  { rewrite <- rsum_scal, <- rsum_plus, <- rsum_minus. apply rsum_ext. intros i _.
    rewrite (rsum_ext n (fun j => A i j * (v j - x j)) (fun j => A i j * v j - A i j * x j)) by (intros; ring). rewrite rsum_minus. unfold e. ring. }
  rewrite Q, X. assert (0 <= rsum n (fun i => rsum n (fun j => A i j * (v j - x j)) ^ 2)) by (apply rsum_nonneg; intros; apply pow2_ge_0). lra.
Qed.

Definition gauss : linear_solver := fun n A b => gsolve n A b.
Lemma gauss_sound : solve_sound gauss.
Proof. intros n A b x _ E i Hi. exact (gsolve_sound n A b x E i Hi). Qed.
