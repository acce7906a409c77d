(** Finite sums, list sums, decisions on reals. No glum content. *)
From Coq Require Export Reals Lra Lia List Arith Bool Psatz Permutation.
From Coquelicot Require Export Coquelicot.
Export ListNotations.
Global Open Scope R_scope.

(** ** Sums over [0..n-1] *)
Fixpoint rsum (n : nat) (f : nat -> R) : R :=
  match n with O => 0 | S k => rsum k f + f k end.

(** ** Sums over lists *)
Definition lsum (l : list R) : R := fold_right Rplus 0 l.
Definition lsumf {A} (f : A -> R) (l : list A) : R := lsum (map f l).

Lemma lsumf_nil A (f : A -> R) : lsumf f [] = 0.
Proof. reflexivity. Qed.
Lemma lsumf_cons A (f : A -> R) a l : lsumf f (a :: l) = f a + lsumf f l.
Proof. reflexivity. Qed.
Lemma lsumf_app A (f : A -> R) l1 l2 : lsumf f (l1 ++ l2) = lsumf f l1 + lsumf f l2.
Proof. induction l1; simpl; rewrite ?lsumf_nil, ?lsumf_cons; try rewrite IHl1; lra. Qed.
Lemma lsumf_ext A (f g : A -> R) l : (forall a, In a l -> f a = g a) -> lsumf f l = lsumf g l.
Proof. induction l as [|a l IH]; intros H; [reflexivity|].
  rewrite !lsumf_cons, H, IH; auto with datatypes. Qed.
Lemma lsumf_plus A (f g : A -> R) l : lsumf (fun a => f a + g a) l = lsumf f l + lsumf g l.
Proof. induction l; rewrite ?lsumf_nil, ?lsumf_cons; try rewrite IHl; lra. Qed.
Lemma lsumf_minus A (f g : A -> R) l : lsumf (fun a => f a - g a) l = lsumf f l - lsumf g l.
Proof. induction l; rewrite ?lsumf_nil, ?lsumf_cons; try rewrite IHl; lra. Qed.
Lemma lsumf_scal A c (f : A -> R) l : lsumf (fun a => c * f a) l = c * lsumf f l.
Proof. induction l; rewrite ?lsumf_nil, ?lsumf_cons; try rewrite IHl; lra. Qed.
Lemma lsumf_scal_r A c (f : A -> R) l : lsumf (fun a => f a * c) l = lsumf f l * c.
Proof. induction l; rewrite ?lsumf_nil, ?lsumf_cons; try rewrite IHl; lra. Qed.
Lemma lsumf_zero A (f : A -> R) l : (forall a, In a l -> f a = 0) -> lsumf f l = 0.
Proof. induction l as [|a l IH]; intros H; [reflexivity|].
  rewrite lsumf_cons, H, IH; auto with datatypes; lra. Qed.
Lemma lsumf_le A (f g : A -> R) l : (forall a, In a l -> f a <= g a) -> lsumf f l <= lsumf g l.
Proof. induction l as [|a l IH]; intros H; [rewrite !lsumf_nil; lra|].
  rewrite !lsumf_cons. apply Rplus_le_compat; auto with datatypes. Qed.
Lemma lsumf_nonneg A (f : A -> R) l : (forall a, In a l -> 0 <= f a) -> 0 <= lsumf f l.
Proof. induction l as [|a l IH]; intros H; [rewrite !lsumf_nil; lra|].
  rewrite !lsumf_cons. apply Rplus_le_le_0_compat; auto with datatypes. Qed.
Lemma lsumf_map A B (g : A -> B) (f : B -> R) l : lsumf f (map g l) = lsumf (fun a => f (g a)) l.
Proof. unfold lsumf. rewrite map_map. reflexivity. Qed.
Lemma lsumf_perm A (f : A -> R) l1 l2 : Permutation l1 l2 -> lsumf f l1 = lsumf f l2.
Proof. induction 1; rewrite ?lsumf_cons; try lra. Qed.
Lemma lsumf_pos A (f : A -> R) l :
  (forall a, In a l -> 0 <= f a) -> (exists a, In a l /\ 0 < f a) -> 0 < lsumf f l.
Proof.
  intros H [a [Ha Hp]]. induction l as [|b l IH]; [contradiction|].
  rewrite lsumf_cons. destruct Ha as [->|Ha].
  - assert (0 <= lsumf f l) by (apply lsumf_nonneg; auto with datatypes). lra.
  - assert (0 <= f b) by auto with datatypes.
    assert (0 < lsumf f l) by (apply IH; auto with datatypes). lra.
Qed.
Lemma lsumf_zero_inv A (f : A -> R) l :
  (forall a, In a l -> 0 <= f a) -> lsumf f l = 0 -> forall a, In a l -> f a = 0.
Proof.
  intros H E a Ha. destruct (Rle_lt_or_eq_dec 0 (f a) (H a Ha)) as [Hlt|Heq]; auto.
  exfalso. assert (0 < lsumf f l) by (apply lsumf_pos; eauto). lra.
Qed.

(** ** Facts about [rsum] *)
Lemma rsum_ext n f g : (forall i, (i < n)%nat -> f i = g i) -> rsum n f = rsum n g.
Proof. induction n; simpl; intros H; auto. rewrite IHn, H; auto. Qed.
Lemma rsum_plus n f g : rsum n (fun i => f i + g i) = rsum n f + rsum n g.
Proof. induction n; simpl; try rewrite IHn; lra. Qed.
Lemma rsum_minus n f g : rsum n (fun i => f i - g i) = rsum n f - rsum n g.
Proof. induction n; simpl; try rewrite IHn; lra. Qed.
Lemma rsum_opp n f : rsum n (fun i => - f i) = - rsum n f.
Proof. induction n; simpl; try rewrite IHn; lra. Qed.
Lemma rsum_scal n c f : rsum n (fun i => c * f i) = c * rsum n f.
Proof. induction n; simpl; try rewrite IHn; lra. Qed.
Lemma rsum_scal_r n c f : rsum n (fun i => f i * c) = rsum n f * c.
Proof. induction n; simpl; try rewrite IHn; lra. Qed.
Lemma rsum_zero n f : (forall i, (i < n)%nat -> f i = 0) -> rsum n f = 0.
Proof. induction n; simpl; intros H; auto. rewrite IHn, H; auto; lra. Qed.
Lemma rsum_le n f g : (forall i, (i < n)%nat -> f i <= g i) -> rsum n f <= rsum n g.
Proof. induction n; simpl; intros H; try lra. apply Rplus_le_compat; auto. Qed.
Lemma rsum_nonneg n f : (forall i, (i < n)%nat -> 0 <= f i) -> 0 <= rsum n f.
Proof. induction n; simpl; intros H; try lra. apply Rplus_le_le_0_compat; auto. Qed.
Lemma rsum_swap n m (f : nat -> nat -> R) :
  rsum n (fun i => rsum m (fun j => f i j)) = rsum m (fun j => rsum n (fun i => f i j)).
Proof. induction n; simpl.
  - symmetry. apply rsum_zero. auto.
  - rewrite IHn, <- rsum_plus. reflexivity. Qed.
Lemma rsum_lsumf_swap A n (f : nat -> A -> R) (l : list A) :
  rsum n (fun i => lsumf (f i) l) = lsumf (fun a => rsum n (fun i => f i a)) l.
Proof. induction n; simpl.
  - symmetry. apply lsumf_zero. auto.
  - rewrite IHn, <- lsumf_plus. reflexivity. Qed.
Lemma rsum_S_l n f : rsum (S n) f = f O + rsum n (fun i => f (S i)).
Proof. induction n.
  - simpl. lra.
  - change (rsum (S (S n)) f) with (rsum (S n) f + f (S n)). rewrite IHn. simpl. lra. Qed.
Lemma rsum_single n k f : (k < n)%nat -> (forall i, (i < n)%nat -> i <> k -> f i = 0) -> rsum n f = f k.
Proof.
  induction n; intros Hk H; [lia|]. simpl. destruct (Nat.eq_dec k n) as [->|Hne].
  - rewrite rsum_zero; [lra|]. intros i Hi. apply H; lia.
  - rewrite IHn, (H n); try lia; [lra|]. intros; apply H; lia.
Qed.
Lemma rsum_zero_inv n f : (forall i, (i < n)%nat -> 0 <= f i) -> rsum n f = 0 ->
  forall i, (i < n)%nat -> f i = 0.
Proof.
  induction n; intros H E i Hi; [lia|]. simpl in E.
  assert (0 <= rsum n f) by (apply rsum_nonneg; intros; apply H; lia).
  assert (0 <= f n) by (apply H; lia).
  destruct (Nat.eq_dec i n) as [->|]; [lra|]. apply IHn; try lia; try lra. intros; apply H; lia.
Qed.
Lemma Rabs_rsum_le n f : Rabs (rsum n f) <= rsum n (fun i => Rabs (f i)).
Proof. induction n; simpl; [rewrite Rabs_R0; lra|].
  eapply Rle_trans; [apply Rabs_triang|]. lra. Qed.

(** ** Decisions as booleans *)
Definition Rltb (x y : R) : bool := if Rlt_dec x y then true else false.
Definition Rleb (x y : R) : bool := if Rle_dec x y then true else false.
Definition Reqb (x y : R) : bool := if Req_EM_T x y then true else false.
Lemma Rltb_true x y : Rltb x y = true <-> x < y.
Proof. unfold Rltb. destruct (Rlt_dec x y); split; intros; try congruence; auto. Qed.
Lemma Rltb_false x y : Rltb x y = false <-> y <= x.
Proof. unfold Rltb. destruct (Rlt_dec x y); split; intros; try congruence; lra. Qed.
Lemma Rleb_true x y : Rleb x y = true <-> x <= y.
Proof. unfold Rleb. destruct (Rle_dec x y); split; intros; try congruence; auto. Qed.
Lemma Rleb_false x y : Rleb x y = false <-> y < x.
Proof. unfold Rleb. destruct (Rle_dec x y); split; intros; try congruence; lra. Qed.
Lemma Reqb_true x y : Reqb x y = true <-> x = y.
Proof. unfold Reqb. destruct (Req_EM_T x y); split; intros; try congruence; auto. Qed.
Lemma Reqb_false x y : Reqb x y = false <-> x <> y.
Proof. unfold Reqb. destruct (Req_EM_T x y); split; intros; try congruence; auto. Qed.

(** ** Real powers of positive numbers *)
Lemma Rpower_pos x a : 0 < Rpower x a.
Proof. apply exp_pos. Qed.
Lemma is_derive_Rpower x a : 0 < x -> is_derive (fun t => Rpower t a) x (a * Rpower x (a - 1)).
Proof.
  intros Hx. unfold Rpower. auto_derive; [exact Hx|].
  replace ((a - 1) * ln x) with (a * ln x + - ln x) by ring.
  rewrite exp_plus, exp_Ropp, exp_ln by exact Hx. field. lra.
Qed.
Lemma Rpower_m1 x : 0 < x -> Rpower x (-1) = / x.
Proof. intros. replace (-1) with (Ropp 1) by lra. rewrite Rpower_Ropp, Rpower_1; auto. Qed.
Lemma Rpower_2 x : 0 < x -> Rpower x 2 = x * x.
Proof. intros. replace 2 with (1+1) by lra. rewrite Rpower_plus, Rpower_1; auto. Qed.
Lemma Rpower_m2 x : 0 < x -> Rpower x (-2) = / (x * x).
Proof. intros. replace (-2) with (Ropp 2) by lra. rewrite Rpower_Ropp, Rpower_2; auto. Qed.
Lemma Rpower_3 x : 0 < x -> Rpower x 3 = x * x * x.
Proof. intros. replace 3 with (2+1) by lra. rewrite Rpower_plus, Rpower_1, Rpower_2; auto. Qed.
Lemma Rpower_0 x : 0 < x -> Rpower x 0 = 1.
Proof. intros. apply Rpower_O. auto. Qed.
Lemma ln_Rpower x a : ln (Rpower x a) = a * ln x.
Proof. unfold Rpower. apply ln_exp. Qed.

(** numpy.clip *)
Definition clip (x lo hi : R) : R := Rmin (Rmax x lo) hi.
Lemma clip_id x lo hi : lo <= x <= hi -> clip x lo hi = x.
Proof. intros. unfold clip. rewrite Rmax_left, Rmin_left; lra. Qed.
Lemma clip_range x lo hi : lo <= hi -> lo <= clip x lo hi <= hi.
Proof. intros. unfold clip, Rmin, Rmax. repeat destruct Rle_dec; lra. Qed.
Lemma clip_mono x y lo hi : x <= y -> clip x lo hi <= clip y lo hi.
Proof. intros. unfold clip, Rmin, Rmax. repeat destruct Rle_dec; lra. Qed.

(** ** Sign of the derivative controls monotonicity *)
Lemma mvt (f f' : R -> R) a b :
  a < b -> (forall x, a <= x <= b -> is_derive f x (f' x)) ->
  exists c, f b - f a = f' c * (b - a) /\ a < c < b.
Proof.
  intros Hab Hd. apply MVT_cor2; [exact Hab|].
  intros c Hc. apply is_derive_Reals. apply Hd. exact Hc.
Qed.
Lemma derive_nonneg_mono (f f' : R -> R) a b :
  a <= b -> (forall x, a <= x <= b -> is_derive f x (f' x)) ->
  (forall x, a < x < b -> 0 <= f' x) -> f a <= f b.
Proof.
  intros Hab Hd Hp. destruct (Req_dec a b) as [->|Hne]; [lra|].
  destruct (mvt f f' a b ltac:(lra) Hd) as [c [E Hc]].
  assert (0 <= f' c) by (apply Hp; lra). nra.
Qed.
Lemma derive_pos_strict (f f' : R -> R) a b :
  a < b -> (forall x, a <= x <= b -> is_derive f x (f' x)) ->
  (forall x, a < x < b -> 0 < f' x) -> f a < f b.
Proof.
  intros Hab Hd Hp.
  destruct (mvt f f' a b Hab Hd) as [c [E Hc]].
  assert (0 < f' c) by (apply Hp; lra). nra.
Qed.
Lemma derive_neg_strict (f f' : R -> R) a b :
  a < b -> (forall x, a <= x <= b -> is_derive f x (f' x)) ->
  (forall x, a < x < b -> f' x < 0) -> f b < f a.
Proof.
  intros Hab Hd Hp.
  destruct (mvt f f' a b Hab Hd) as [c [E Hc]].
  assert (f' c < 0) by (apply Hp; lra). nra.
Qed.
Lemma dR_id (x : R) : is_derive (fun t : R => t) x 1.
Proof. apply (is_derive_id (K:=R_AbsRing)). Qed.
Lemma dR_const (c x : R) : is_derive (fun _ : R => c) x 0.
Proof. apply (is_derive_const (V:=R_NormedModule)). Qed.
Lemma dR_eq (f : R -> R) (x l l' : R) : is_derive f x l -> l = l' -> is_derive f x l'.
Proof. intros H <-. exact H. Qed.
Lemma dR_plus (f g : R -> R) (x a b : R) : is_derive f x a -> is_derive g x b -> is_derive (fun t => f t + g t) x (a + b).
Proof. intros. apply (is_derive_plus f g x a b); auto. Qed.
Lemma dR_minus (f g : R -> R) (x a b : R) : is_derive f x a -> is_derive g x b -> is_derive (fun t => f t - g t) x (a - b).
Proof. intros. apply (is_derive_minus f g x a b); auto. Qed.
Lemma dR_mult (f g : R -> R) (x a b : R) : is_derive f x a -> is_derive g x b ->
  is_derive (fun t => f t * g t) x (a * g x + f x * b).
Proof. intros. apply (is_derive_mult f g x a b); auto. intros; apply Rmult_comm. Qed.
Lemma dR_scal (f : R -> R) (c x a : R) : is_derive f x a -> is_derive (fun t => c * f t) x (c * a).
Proof. intros. apply (is_derive_scal f x c a); auto. Qed.
Lemma dR_scal_r (f : R -> R) (c x a : R) : is_derive f x a -> is_derive (fun t => f t * c) x (a * c).
Proof. intros. eapply dR_eq. { apply (dR_mult f (fun _ => c) x a 0); auto. apply dR_const. } ring. Qed.
Lemma dR_comp (f g : R -> R) (x a b : R) : is_derive f (g x) a -> is_derive g x b ->
  is_derive (fun t => f (g t)) x (a * b).
Proof. intros Hf Hg. eapply dR_eq. { apply (is_derive_comp f g x a b); eauto. }
  apply Rmult_comm. Qed.
Lemma dR_ext_loc (f g : R -> R) (x l : R) : locally x (fun t => f t = g t) -> is_derive f x l -> is_derive g x l.
Proof. intros. eapply is_derive_ext_loc; eauto. Qed.
Lemma dR_ext (f g : R -> R) (x l : R) : (forall t, f t = g t) -> is_derive f x l -> is_derive g x l.
Proof. intros. eapply is_derive_ext; eauto. Qed.
Lemma dR_opp (f : R -> R) (x a : R) : is_derive f x a -> is_derive (fun t => - f t) x (- a).
Proof. intros. apply (is_derive_opp f x a). auto. Qed.
Lemma dR_lsumf A (f : A -> R -> R) (f' : A -> R) (x : R) l :
  (forall a, In a l -> is_derive (f a) x (f' a)) ->
  is_derive (fun t => lsumf (fun a => f a t) l) x (lsumf f' l).
Proof.
  induction l as [|a l IH]; intros H.
  - exact (dR_const 0 x).
  - apply (dR_plus (f a) (fun t => lsumf (fun a => f a t) l)); auto with datatypes.
Qed.
Lemma dR_rsum n (f : nat -> R -> R) (f' : nat -> R) (x : R) :
  (forall i, (i < n)%nat -> is_derive (f i) x (f' i)) ->
  is_derive (fun t => rsum n (fun i => f i t)) x (rsum n f').
Proof.
  induction n as [|n IH]; intros H; simpl.
  - exact (dR_const 0 x).
  - apply (dR_plus (fun t => rsum n (fun i => f i t)) (f n)); auto.
Qed.
Lemma locally_gt (x c : R) : c < x -> locally x (fun t => c < t).
Proof. intros H. exists (mkposreal (x - c) ltac:(lra)). intros y Hy.
  unfold ball in Hy; simpl in Hy; unfold AbsRing_ball, abs, minus, plus, opp in Hy; simpl in Hy.
  apply Rabs_def2 in Hy. lra. Qed.
Lemma locally_lt (x c : R) : x < c -> locally x (fun t => t < c).
Proof. intros H. exists (mkposreal (c - x) ltac:(lra)). intros y Hy.
  unfold ball in Hy; simpl in Hy; unfold AbsRing_ball, abs, minus, plus, opp in Hy; simpl in Hy.
  apply Rabs_def2 in Hy. lra. Qed.
