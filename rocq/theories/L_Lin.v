(** Gaussian elimination: soundness, completeness, uniqueness. *)
From Verif Require Import M_Lin.
Local Open Scope R_scope.

Definition mulv (n : nat) (A : mat) (x : vect) : vect := fun i => rsum n (fun j => A i j * x j).
Definition nonsingular (n : nat) (A : mat) : Prop :=
  forall x, (forall i, (i < n)%nat -> mulv n A x i = 0) -> forall j, (j < n)%nat -> x j = 0.

Lemma find_pivot_some A c n p : find_pivot A c n = Some p -> (p <= n)%nat /\ A p c <> 0.
Proof.
  induction n as [|n IH]; simpl.
  - destruct (Reqb (A 0%nat c) 0) eqn:E; [discriminate|]. intros H. injection H as <-. apply Reqb_false in E. auto.
  - destruct (Reqb (A (S n) c) 0) eqn:E.
    + intros H. destruct (IH H). split; [lia|assumption].
    + intros H. injection H as <-. apply Reqb_false in E. auto.
Qed.
Lemma find_pivot_none A c n : find_pivot A c n = None -> forall i, (i <= n)%nat -> A i c = 0.
Proof.
  induction n as [|n IH]; simpl; intros H i Hi.
  - destruct (Reqb (A 0%nat c) 0) eqn:E; [|discriminate]. apply Reqb_true in E. replace i with 0%nat by lia. exact E.
  - destruct (Reqb (A (S n) c) 0) eqn:E; [|discriminate]. apply Reqb_true in E.
    destruct (Nat.eq_dec i (S n)) as [->|]; [exact E|]. apply IH; [exact H|lia].
Qed.
Lemma swap_row_lt p n i : (p <= n)%nat -> (i <= n)%nat -> (swap_row p n i <= n)%nat.
Proof. intros. unfold swap_row. destruct (Nat.eqb_spec i n); [lia|]. destruct (Nat.eqb_spec i p); lia. Qed.
Lemma swap_row_invol p n i : swap_row p n (swap_row p n i) = i.
Proof.
  unfold swap_row. destruct (Nat.eqb_spec i n) as [->|H1].
  - destruct (Nat.eqb_spec p n) as [->|H2]; [reflexivity|]. rewrite Nat.eqb_refl. reflexivity.
  - destruct (Nat.eqb_spec i p) as [->|H2].
    + rewrite Nat.eqb_refl. reflexivity.
    + destruct (Nat.eqb_spec i n); [lia|]. destruct (Nat.eqb_spec i p); [lia|reflexivity].
Qed.
Lemma swap_row_n p n : swap_row p n n = p.
Proof. unfold swap_row. rewrite Nat.eqb_refl. reflexivity. Qed.

Section Step.
Variables (m : nat) (A : mat) (p : nat).
Hypothesis Hp : (p <= m)%nat.
Hypothesis Hpiv : A p m <> 0.
Let A1 i j := A (swap_row p m i) j.
Let f i := A1 i m / A1 m m.
Let A2 i j := A1 i j - f i * A1 m j.
Lemma piv_ne : A1 m m <> 0.
Proof. unfold A1. rewrite swap_row_n. exact Hpiv. Qed.
Lemma mulv_swap x i : mulv (S m) A1 x i = mulv (S m) A x (swap_row p m i).
Proof. reflexivity. Qed.
Lemma mulv_red x i : mulv m A2 x i = mulv (S m) A1 x i - f i * mulv (S m) A1 x m.
Proof.
  unfold mulv. cbn [rsum].
  replace (rsum m (fun j => A2 i j * x j)) with (rsum m (fun j => A1 i j * x j) - f i * rsum m (fun j => A1 m j * x j)).
  - unfold f. pose proof piv_ne. field. assumption.
  - rewrite <- rsum_scal, <- rsum_minus. apply rsum_ext. intros. unfold A2. ring.
Qed.
End Step.
Lemma gsolve_S m A b : gsolve (S m) A b =
  match find_pivot A m m with
  | None => None
  | Some p =>
      let A1 i j := A (swap_row p m i) j in
      let b1 i := b (swap_row p m i) in
      let f i := A1 i m / A1 m m in
      match gsolve m (fun i j => A1 i j - f i * A1 m j) (fun i => b1 i - f i * b1 m) with
      | None => None
      | Some x => Some (fun j => if Nat.eqb j m then (b1 m - rsum m (fun j => A1 m j * x j)) / A1 m m else x j)
      end
  end.
Proof. reflexivity. Qed.

Lemma gsolve_sound n : forall A b x, gsolve n A b = Some x -> forall i, (i < n)%nat -> mulv n A x i = b i.
Proof.
  induction n as [|m IH]; intros A b x H i Hi; [lia|]. rewrite gsolve_S in H.
  destruct (find_pivot A m m) as [p|] eqn:EP; [|discriminate]. apply find_pivot_some in EP as [Hp Hpiv].
  cbn zeta in H. destruct (gsolve m _ _) as [y|] eqn:EY; [|discriminate]. injection H as <-.
  set (A1 := fun i j => A (swap_row p m i) j) in *. set (b1 := fun i => b (swap_row p m i)).
  change (A (swap_row p m m)) with (A1 m). change (b (swap_row p m m)) with (b1 m).
  set (x := fun j => if Nat.eqb j m then (b1 m - rsum m (fun j => A1 m j * y j)) / A1 m m else y j).
  assert (P0 : A1 m m <> 0) by (unfold A1; rewrite swap_row_n; exact Hpiv).
  assert (Xm : mulv (S m) A1 x m = b1 m).
  { unfold mulv. cbn [rsum]. rewrite (rsum_ext m _ (fun j => A1 m j * y j)).
    - unfold x at 1. rewrite Nat.eqb_refl. field. exact P0.
    - intros j Hj. unfold x. destruct (Nat.eqb_spec j m); [lia|reflexivity]. }
  assert (X1 : forall k, (k <= m)%nat -> mulv (S m) A1 x k = b1 k).
  { intros k Hk. destruct (Nat.eq_dec k m) as [->|Hkm]; [exact Xm|].
    pose proof (mulv_red m A p Hpiv x k) as E. fold A1 in E.
    change (fun i j => A (swap_row p m i) j) with A1 in E.
    rewrite Xm in E.
    assert (E2 : mulv m (fun i j => A1 i j - A1 i m / A1 m m * A1 m j) x k = mulv m (fun i j => A1 i j - A1 i m / A1 m m * A1 m j) y k).
    { unfold mulv. apply rsum_ext. intros j Hj. unfold x. destruct (Nat.eqb_spec j m); [lia|reflexivity]. }
    pose proof (IH _ _ _ EY k ltac:(lia)) as E3.
    change (mulv m (fun i j => A1 i j - A1 i m / A1 m m * A1 m j) y k = b1 k - A1 k m / A1 m m * b1 m) in E3.
    change (mulv m (fun i j => A1 i j - A1 i m / A1 m m * A1 m j) x k = mulv (S m) A1 x k - A1 k m / A1 m m * b1 m) in E.
    rewrite E2, E3 in E. set (c := A1 k m / A1 m m * b1 m) in E. apply (Rplus_eq_reg_r (- c)). symmetry. exact E. }
  destruct (Nat.lt_ge_cases i (S m)); [|lia].
  rewrite <- (swap_row_invol p m i). exact (X1 (swap_row p m i) (swap_row_lt p m i Hp ltac:(lia))).
Qed.

Lemma gsolve_nonsingular n : forall A b x, gsolve n A b = Some x -> nonsingular n A.
Proof.
  induction n as [|m IH]; intros A b x H z Hz j Hj; [lia|]. rewrite gsolve_S in H.
  destruct (find_pivot A m m) as [p|] eqn:EP; [|discriminate]. apply find_pivot_some in EP as [Hp Hpiv].
  cbn zeta in H. destruct (gsolve m _ _) as [y|] eqn:EY; [|discriminate]. clear H.
  apply IH in EY. set (A1 := fun i j => A (swap_row p m i) j) in *.
  assert (P0 : A1 m m <> 0) by (unfold A1; rewrite swap_row_n; exact Hpiv).
  assert (Z1 : forall i, (i <= m)%nat -> mulv (S m) A1 z i = 0).
  { intros i Hi. unfold A1. rewrite mulv_swap. apply Hz. pose proof (swap_row_lt p m i Hp Hi). lia. }
  assert (Zj : forall k, (k < m)%nat -> z k = 0).
  { apply EY. intros i Hi. pose proof (mulv_red m A p Hpiv z i) as E. cbn beta zeta in E. rewrite E.
    change (mulv (S m) A1 z i - A1 i m / A1 m m * mulv (S m) A1 z m = 0).
    rewrite !Z1 by lia. ring. }
  destruct (Nat.eq_dec j m) as [->|]; [|apply Zj; lia].
  pose proof (Z1 m (le_n m)) as E. unfold mulv in E. cbn [rsum] in E. rewrite rsum_zero in E by (intros k Hk; rewrite Zj by exact Hk; ring).
  apply (Rmult_eq_reg_l (A1 m m)); [lra|exact P0].
Qed.

Lemma gsolve_complete n : forall A b, nonsingular n A -> exists x, gsolve n A b = Some x.
Proof.
  induction n as [|m IH]; intros A b H; [simpl; eauto|]. rewrite gsolve_S.
  destruct (find_pivot A m m) as [p|] eqn:EP.
  - apply find_pivot_some in EP as [Hp Hpiv]. cbn zeta.
    set (A1 := fun i j => A (swap_row p m i) j).
    assert (P0 : A1 m m <> 0) by (unfold A1; rewrite swap_row_n; exact Hpiv).
    match goal with |- context [gsolve m ?X ?Y] => destruct (IH X Y) as [x Ex] end; [|rewrite Ex; eauto].
    intros y Hy. set (z := fun j => if Nat.eqb j m then - rsum m (fun j => A1 m j * y j) / A1 m m else y j).
    assert (Zy : forall j, (j < m)%nat -> z j = y j) by (intros j Hj; unfold z; destruct (Nat.eqb_spec j m); [lia|reflexivity]).
    assert (Zm : mulv (S m) A1 z m = 0).
    { unfold mulv. cbn [rsum]. rewrite (rsum_ext m _ (fun j => A1 m j * y j)) by (intros j Hj; rewrite Zy by exact Hj; reflexivity).
      unfold z. rewrite Nat.eqb_refl. field. exact P0. }
    assert (Z1 : forall i, (i <= m)%nat -> mulv (S m) A1 z i = 0).
    { intros i Hi. destruct (Nat.eq_dec i m) as [->|]; [exact Zm|].
      pose proof (mulv_red m A p Hpiv z i) as E. cbn beta zeta in E.
      change (mulv m (fun i j => A1 i j - A1 i m / A1 m m * A1 m j) z i = mulv (S m) A1 z i - A1 i m / A1 m m * mulv (S m) A1 z m) in E.
      rewrite Zm in E. assert (mulv m (fun i j => A1 i j - A1 i m / A1 m m * A1 m j) z i = 0).
      { rewrite <- (Hy i ltac:(lia)). unfold mulv. apply rsum_ext. intros j Hj. rewrite Zy by exact Hj. reflexivity. }
      lra. }
    intros j Hj. rewrite <- Zy by exact Hj. apply H; [|lia]. intros i Hi.
    rewrite <- (swap_row_invol p m i). exact (Z1 (swap_row p m i) (swap_row_lt p m i Hp ltac:(lia))).
  - exfalso. pose proof (find_pivot_none A m m EP) as Z.
    assert (X : unit_vec m m = 0).
    { apply H; [|lia]. intros i Hi. unfold mulv. apply rsum_zero. intros j Hj. unfold unit_vec. destruct (Nat.eqb_spec j m) as [->|]; [rewrite Z by lia; ring|ring]. }
    unfold unit_vec in X. rewrite Nat.eqb_refl in X. lra.
Qed.

Lemma mulv_minus n A x y i : mulv n A (fun j => x j - y j) i = mulv n A x i - mulv n A y i.
Proof. unfold mulv. rewrite <- rsum_minus. apply rsum_ext. intros; ring. Qed.
Lemma nonsingular_unique n A x y : nonsingular n A -> (forall i, (i < n)%nat -> mulv n A x i = mulv n A y i) -> forall j, (j < n)%nat -> x j = y j.
Proof.
  intros H E j Hj. assert (x j - y j = 0); [|lra]. apply (H (fun j => x j - y j)); [|exact Hj]. intros i Hi. rewrite mulv_minus, E by exact Hi. ring.
Qed.
(** solve returns the solution whenever there is a unique one *)
Lemma gsolve_iff n A b x : nonsingular n A -> (forall i, (i < n)%nat -> mulv n A x i = b i) ->
  exists y, gsolve n A b = Some y /\ forall j, (j < n)%nat -> y j = x j.
Proof.
  intros H E. destruct (gsolve_complete n A b H) as [y Ey]. exists y. split; [exact Ey|].
  apply nonsingular_unique with (A := A); [exact H|]. intros i Hi. rewrite E by exact Hi. apply (gsolve_sound n A b y Ey i Hi).
Qed.

(** *** matrices *)
Definition mulm (n : nat) (A B : mat) : mat := fun i k => rsum n (fun j => A i j * B j k).
Lemma gsolve_mat_sound n A B X : gsolve_mat n A B = Some X -> nonsingular n A /\ forall i k, (i < n)%nat -> mulm n A X i k = B i k.
Proof.
  unfold gsolve_mat. destruct (gsolve n A (fun _ => 0)) as [z|] eqn:E; [|discriminate]. intros H. injection H as <-.
  pose proof (gsolve_nonsingular _ _ _ _ E) as NS. split; [exact NS|]. intros i k Hi. unfold mulm.
  destruct (gsolve_complete n A (fun l => B l k) NS) as [x Ex]. rewrite Ex. apply (gsolve_sound n A _ x Ex i Hi).
Qed.
Lemma gsolve_mat_complete n A B : nonsingular n A -> exists X, gsolve_mat n A B = Some X.
Proof. intros H. unfold gsolve_mat. destruct (gsolve_complete n A (fun _ => 0) H) as [z ->]. eauto. Qed.
Lemma gsolve_mat_none n A B : gsolve_mat n A B = None -> ~ nonsingular n A.
Proof. intros H N. destruct (gsolve_mat_complete n A B N) as [X E]. congruence. Qed.

Lemma mulm_assoc n m A B C i k : mulm n A (mulm m B C) i k = mulm m (mulm n A B) C i k.
Proof.
  unfold mulm. rewrite (rsum_ext n _ (fun j => rsum m (fun l => A i j * B j l * C l k))) by (intros; rewrite <- rsum_scal; apply rsum_ext; intros; ring).
  rewrite rsum_swap. apply rsum_ext. intros l _. rewrite <- rsum_scal_r. reflexivity.
Qed.
Lemma mulv_mulm n m A B x i : mulv m (mulm n A B) x i = mulv n A (mulv m B x) i.
Proof.
  unfold mulv, mulm. rewrite (rsum_ext m _ (fun j => rsum n (fun l => A i l * (B l j * x j)))) by (intros; rewrite <- rsum_scal_r; apply rsum_ext; intros; ring).
  rewrite rsum_swap. apply rsum_ext. intros l _. rewrite rsum_scal. reflexivity.
Qed.
(** a right inverse is a left inverse *)
Lemma right_left_inverse n A B : (forall i k, (i < n)%nat -> (k < n)%nat -> mulm n A B i k = unit_vec k i) ->
  nonsingular n A -> forall i k, (i < n)%nat -> (k < n)%nat -> mulm n B A i k = unit_vec k i.
Proof.
  intros H NS i k Hi Hk. apply (nonsingular_unique n A (fun i => mulm n B A i k) (unit_vec k) NS); [|exact Hi].
  intros r Hr. unfold mulv at 1. change (mulm n A (mulm n B A) r k = mulv n A (unit_vec k) r). rewrite mulm_assoc.
  unfold mulm at 1. rewrite (rsum_ext n _ (fun j => unit_vec j r * A j k)) by (intros j Hj; rewrite H by assumption; reflexivity).
  rewrite (rsum_single n r) by first [assumption | intros j Hj Hne; unfold unit_vec; destruct (Nat.eqb_spec r j); first [congruence | ring]].
  unfold mulv. rewrite (rsum_single n k) by first [assumption | intros j Hj Hne; unfold unit_vec; destruct (Nat.eqb_spec j k); first [congruence | ring]].
  unfold unit_vec. rewrite !Nat.eqb_refl. ring.
Qed.
Lemma right_inverse_nonsingular n A B : (forall i k, (i < n)%nat -> (k < n)%nat -> mulm n A B i k = unit_vec k i) -> nonsingular n B.
Proof.
  intros H x Hx j Hj. transitivity (mulv n (mulm n A B) x j).
  - unfold mulv. rewrite (rsum_single n j) by first [assumption | intros k Hk Hne; rewrite H by assumption; unfold unit_vec; destruct (Nat.eqb_spec j k); first [congruence | ring]].
    rewrite H by assumption. unfold unit_vec. rewrite Nat.eqb_refl. ring.
  - rewrite mulv_mulm. unfold mulv at 1. apply rsum_zero. intros k Hk. rewrite Hx by exact Hk. ring.
Qed.
(** rows also determine: a nonsingular matrix has no left kernel *)
Lemma nonsingular_transpose n A : nonsingular n A -> nonsingular n (transpose A).
Proof.
  intros H x Hx j Hj. destruct (gsolve_mat_complete n A (fun i k => unit_vec k i) H) as [B EB]. apply gsolve_mat_sound in EB as [_ EB].
  assert (E : rsum n (fun i => x i * mulm n A B i j) = x j).
  { rewrite (rsum_single n j) by first [assumption | intros k Hk Hne; rewrite EB by assumption; unfold unit_vec; destruct (Nat.eqb_spec k j); first [congruence | ring]].
    rewrite EB by assumption. unfold unit_vec. rewrite Nat.eqb_refl. ring. }
  rewrite <- E. unfold mulm. rewrite (rsum_ext n _ (fun i => rsum n (fun l => A i l * x i * B l j))) by (intros; rewrite <- rsum_scal; apply rsum_ext; intros; ring).
  rewrite rsum_swap. apply rsum_zero. intros l Hl. rewrite rsum_scal_r. specialize (Hx l Hl). unfold mulv, transpose in Hx. rewrite Hx. ring.
Qed.
