(** Coordinate descent: exactness of each update, gradient invariant, bounds, descent. *)
From Verif Require Import Base M_CD S_CD L_CDrng.

Lemma fsign_cases x : (x = 0 /\ fsign x = 0) \/ (0 < x /\ fsign x = 1) \/ (x < 0 /\ fsign x = -1).
Proof.
  unfold fsign. destruct (Reqb x 0) eqn:E.
  - apply Reqb_true in E. auto.
  - apply Reqb_false in E. right. destruct (Rltb 0 x) eqn:F.
    + apply Rltb_true in F. auto.
    + apply Rltb_false in F. right. split; auto. lra.
Qed.
Lemma fmax_Rmax x y : fmax x y = Rmax x y.
Proof. unfold fmax. destruct (Rltb y x) eqn:E.
  - apply Rltb_true in E. rewrite Rmax_left; lra.
  - apply Rltb_false in E. rewrite Rmax_right; lra. Qed.

(** ** The scalar problem *)
Definition phi (Q q p t : R) : R := Q / 2 * (t * t) + q * t + p * Rabs t.
Definition soft (Q q p : R) : R := fsign (- q) * fmax (Rabs q - p) 0 / Q.
Definition clip2 (l u : option R) (x : R) : R :=
  let x1 := if below x l then bnd_val l x else x in
  if above x1 u then bnd_val u x1 else x1.

Ltac rabs := unfold Rabs in *; repeat destruct Rcase_abs; try lra.

Lemma soft_cond Q q p : 0 < Q -> 0 <= p ->
  let x := soft Q q p in let s := - (Q * x + q) in
  (0 < x /\ s = p) \/ (x < 0 /\ s = - p) \/ (x = 0 /\ - p <= s <= p).
Proof.
  intros HQ Hp x s. unfold s, x, soft. rewrite fmax_Rmax.
  destruct (Rle_dec (Rabs q) p) as [Hle|Hgt].
  - right; right. rewrite Rmax_right by lra.
    replace (fsign (- q) * 0 / Q) with 0 by (field; lra). split; [reflexivity|].
    apply Rabs_le_between in Hle. lra.
  - rewrite Rmax_left by lra.
    destruct (fsign_cases (- q)) as [[E F]|[[E F]|[E F]]]; rewrite F.
    + assert (q = 0) by lra. subst. rewrite Rabs_R0 in Hgt. lra.
    + left. rewrite Rabs_left in * by lra. split.
      * replace (1 * (- q - p) / Q) with ((- q - p) * / Q) by (field; lra).
        apply Rmult_lt_0_compat; [lra|apply Rinv_0_lt_compat; lra].
      * field. lra.
    + right; left. rewrite Rabs_right in * by lra. split.
      * replace (-1 * (q - p) / Q) with (- ((q - p) * / Q)) by (field; lra).
        assert (0 < (q - p) * / Q) by (apply Rmult_lt_0_compat; [lra|apply Rinv_0_lt_compat; lra]). lra.
      * field. lra.
Qed.

Lemma clip2_within l u x x0 : within l u x0 -> within l u (clip2 l u x).
Proof.
  intros [Hl Hu]. unfold clip2, within. destruct l as [l|], u as [u|]; simpl;
    try specialize (Hl _ eq_refl); try specialize (Hu _ eq_refl).
  - destruct (Rltb x l) eqn:E; [apply Rltb_true in E|apply Rltb_false in E];
    match goal with |- context [Rltb u ?y] => destruct (Rltb u y) eqn:F end;
    [apply Rltb_true in F|apply Rltb_false in F|apply Rltb_true in F|apply Rltb_false in F];
    split; intros b [= <-]; lra.
  - destruct (Rltb x l) eqn:E; [apply Rltb_true in E|apply Rltb_false in E];
    split; intros b [=]; subst; lra.
  - destruct (Rltb u x) eqn:E; [apply Rltb_true in E|apply Rltb_false in E];
    split; intros b [=]; subst; lra.
  - split; intros b [=].
Qed.

Lemma clip2_cases l u x x0 : within l u x0 ->
  clip2 l u x = x \/ (exists b, l = Some b /\ x < b /\ clip2 l u x = b)
  \/ (exists b, u = Some b /\ b < x /\ clip2 l u x = b).
Proof.
  intros [Hl Hu]. unfold clip2. destruct l as [l|], u as [u|]; simpl;
    try specialize (Hl _ eq_refl); try specialize (Hu _ eq_refl).
  - destruct (Rltb x l) eqn:E; [apply Rltb_true in E|apply Rltb_false in E].
    + destruct (Rltb u l) eqn:F; [apply Rltb_true in F; lra|]. right; left. exists l. auto.
    + destruct (Rltb u x) eqn:F; [apply Rltb_true in F|auto]. right; right. exists u. auto.
  - destruct (Rltb x l) eqn:E; [apply Rltb_true in E|auto]. right; left. exists l. auto.
  - destruct (Rltb u x) eqn:E; [apply Rltb_true in E|auto]. right; right. exists u. auto.
  - auto.
Qed.

Lemma soft_clip_min Q q p l u x0 : 0 < Q -> 0 <= p -> within l u x0 ->
  forall t, within l u t ->
  phi Q q p (clip2 l u (soft Q q p)) + Q / 2 * ((t - clip2 l u (soft Q q p)) * (t - clip2 l u (soft Q q p)))
    <= phi Q q p t.
Proof.
  intros HQ Hp Hw t Ht. pose proof (soft_cond Q q p HQ Hp) as Hs. cbv zeta in Hs.
  set (x := soft Q q p) in *. unfold phi.
  (* it suffices to find a subgradient r of |.| at c with (Q c + q + p r)(t - c) >= 0 *)
  assert (K : forall c r, Rabs t >= Rabs c + r * (t - c) -> 0 <= (Q * c + q + p * r) * (t - c) ->
     Q / 2 * (c * c) + q * c + p * Rabs c + Q / 2 * ((t - c) * (t - c)) <= Q / 2 * (t * t) + q * t + p * Rabs t).
  { intros c r H1 H2. assert (p * (Rabs t - Rabs c - r * (t - c)) >= 0).
    { apply Rle_ge. apply Rmult_le_pos; lra. } lra. }
  destruct (clip2_cases l u x x0 Hw) as [E|[[b [El [Hlt E]]]|[b [Eu [Hlt E]]]]]; rewrite E.
  - destruct Hs as [[H1 H2]|[[H1 H2]|[H1 H2]]].
    + apply (K x 1); [rabs|]. replace (Q * x + q + p * 1) with 0 by lra. lra.
    + apply (K x (-1)); [rabs|]. replace (Q * x + q + p * -1) with 0 by lra. lra.
    + rewrite H1 in *. destruct (Req_dec p 0) as [Hp0|Hp0].
      * apply (K 0 0); [rewrite Rabs_R0; pose proof (Rabs_pos t); lra|]. rewrite Hp0 in *.
        replace (Q * 0 + q + 0 * 0) with 0 by lra. lra.
      * apply (K 0 (- q / p)).
        { assert (Hr : -1 <= - q / p <= 1).
          { split; [apply Rmult_le_reg_r with p|apply Rmult_le_reg_r with p]; try lra;
            unfold Rdiv; rewrite Rmult_assoc, Rinv_l by lra; lra. }
          rewrite Rabs_R0. set (r := - q / p) in *. rabs; nra. }
        { replace (Q * 0 + q + p * (- q / p)) with 0 by (field; lra). lra. }
  - assert (Htb : b <= t) by (destruct Ht as [Hl _]; auto).
    destruct (Rle_dec 0 b) as [Hb|Hb].
    + apply (K b 1); [rabs|]. apply Rmult_le_pos; [|lra]. assert (Q * x <= Q * b) by (apply Rmult_le_compat_l; lra).
      destruct Hs as [[H1 H2]|[[H1 H2]|[H1 H2]]]; lra.
    + apply (K b (-1)); [rabs|]. apply Rmult_le_pos; [|lra]. assert (Q * x <= Q * b) by (apply Rmult_le_compat_l; lra).
      destruct Hs as [[H1 H2]|[[H1 H2]|[H1 H2]]]; lra.
  - assert (Htb : t <= b) by (destruct Ht as [_ Hu]; auto).
    assert (Q * b <= Q * x) by (apply Rmult_le_compat_l; lra).
    destruct (Rle_dec b 0) as [Hb|Hb].
    + apply (K b (-1)); [rabs|].
      replace ((Q * b + q + p * -1) * (t - b)) with ((- (Q * b + q + p * -1)) * (b - t)) by ring.
      apply Rmult_le_pos; [|lra]. destruct Hs as [[H1 H2]|[[H1 H2]|[H1 H2]]]; lra.
    + apply (K b 1); [rabs|].
      replace ((Q * b + q + p * 1) * (t - b)) with ((- (Q * b + q + p * 1)) * (b - t)) by ring.
      apply Rmult_le_pos; [|lra]. destruct Hs as [[H1 H2]|[[H1 H2]|[H1 H2]]]; lra.
Qed.

(** ** Sums with one coordinate changed *)
Definition kron (k l : nat) (v : R) : R := if Nat.eqb l k then v else 0.
Lemma rsum_kron n k (f : nat -> R) v : (k < n)%nat -> rsum n (fun l => f l * kron k l v) = f k * v.
Proof.
  intros Hk. rewrite (rsum_single n k); auto.
  - unfold kron. rewrite Nat.eqb_refl. reflexivity.
  - intros i _ Hi. unfold kron. destruct (Nat.eqb_spec i k); [contradiction|]. ring.
Qed.

Lemma nth_inj (S : list nat) i j : NoDup S -> (i < length S)%nat -> (j < length S)%nat ->
  nth i S 0%nat = nth j S 0%nat -> i = j.
Proof. intros H Hi Hj E. apply (proj1 (NoDup_nth S 0%nat) H); auto. Qed.

Lemma at_subst1 S k l w t : NoDup S -> (k < length S)%nat -> (l < length S)%nat ->
  subst1 w (nth k S 0%nat) t (nth l S 0%nat) = w (nth l S 0%nat) + kron k l (t - w (nth k S 0%nat)).
Proof.
  intros ND Hk Hl. unfold subst1, kron. destruct (Nat.eqb_spec l k) as [->|Hne].
  - rewrite Nat.eqb_refl. ring.
  - destruct (Nat.eqb_spec (nth l S 0%nat) (nth k S 0%nat)) as [E|_]; [|ring].
    exfalso. apply Hne. apply (nth_inj S); auto.
Qed.

Lemma quad_grad_subst S H g0 w0 w k t l : NoDup S -> (k < length S)%nat -> (l < length S)%nat ->
  quad_grad S H g0 w0 (subst1 w (nth k S 0%nat) t) l
  = quad_grad S H g0 w0 w l + (t - w (nth k S 0%nat)) * H k l.
Proof.
  intros ND Hk Hl. unfold quad_grad. cbv zeta.
  rewrite (rsum_ext _ _ (fun j => (w (nth j S 0%nat) - w0 (nth j S 0%nat)) * H j l
                                  + H j l * kron k j (t - w (nth k S 0%nat)))).
  - rewrite rsum_plus, rsum_kron by exact Hk. ring.
  - intros j Hj. rewrite at_subst1 by auto. ring.
Qed.

Lemma quad_model_subst S H g0 p w0 w k t : NoDup S -> (k < length S)%nat -> symmetric (length S) H ->
  quad_model S H g0 p w0 (subst1 w (nth k S 0%nat) t)
  = quad_model S H g0 p w0 w
    + quad_grad S H g0 w0 w k * (t - w (nth k S 0%nat))
    + / 2 * H k k * ((t - w (nth k S 0%nat)) * (t - w (nth k S 0%nat)))
    + p (nth k S 0%nat) * (Rabs t - Rabs (w (nth k S 0%nat))).
Proof.
  intros ND Hk Sy. unfold quad_model, quad_grad. cbv zeta.
  set (n := length S) in *. set (dl := t - w (nth k S 0%nat)).
  set (A v i := v (nth i S 0%nat) : R).
  assert (E1 : rsum n (fun i => g0 (nth i S 0%nat) * (subst1 w (nth k S 0%nat) t (nth i S 0%nat) - w0 (nth i S 0%nat)))
     = rsum n (fun i => g0 (nth i S 0%nat) * (w (nth i S 0%nat) - w0 (nth i S 0%nat))) + g0 (nth k S 0%nat) * dl).
  { rewrite <- (rsum_kron n k (fun i => g0 (nth i S 0%nat)) dl Hk), <- rsum_plus.
    apply rsum_ext. intros i Hi. rewrite at_subst1 by auto. unfold dl. ring. }
  assert (E2 : rsum n (fun i => p (nth i S 0%nat) * Rabs (subst1 w (nth k S 0%nat) t (nth i S 0%nat)))
     = rsum n (fun i => p (nth i S 0%nat) * Rabs (w (nth i S 0%nat)))
       + p (nth k S 0%nat) * (Rabs t - Rabs (w (nth k S 0%nat)))).
  { assert (X : p (nth k S 0%nat) * (Rabs t - Rabs (w (nth k S 0%nat)))
       = rsum n (fun i => p (nth i S 0%nat) * kron k i (Rabs t - Rabs (w (nth k S 0%nat))))) by (rewrite rsum_kron; auto).
    rewrite X, <- rsum_plus.
    apply rsum_ext. intros i Hi. unfold subst1, kron.
    destruct (Nat.eqb_spec i k) as [->|Hne].
    - rewrite Nat.eqb_refl. ring.
    - destruct (Nat.eqb_spec (nth i S 0%nat) (nth k S 0%nat)) as [E|_]; [|ring].
      exfalso. apply Hne. apply (nth_inj S); auto. }
  assert (E3 : rsum n (fun i => rsum n (fun j =>
        (subst1 w (nth k S 0%nat) t (nth i S 0%nat) - w0 (nth i S 0%nat)) * H i j
        * (subst1 w (nth k S 0%nat) t (nth j S 0%nat) - w0 (nth j S 0%nat))))
     = rsum n (fun i => rsum n (fun j => (w (nth i S 0%nat) - w0 (nth i S 0%nat)) * H i j * (w (nth j S 0%nat) - w0 (nth j S 0%nat))))
       + 2 * dl * rsum n (fun i => (w (nth i S 0%nat) - w0 (nth i S 0%nat)) * H i k) + H k k * (dl * dl)).
  { set (d i := w (nth i S 0%nat) - w0 (nth i S 0%nat)).
    rewrite (rsum_ext _ _ (fun i => (rsum n (fun j => d i * H i j * d j) + (d i * H i k) * dl)
        + (rsum n (fun j => H i j * d j) + H i k * dl) * kron k i dl)).
    2:{ intros i Hi. rewrite <- (rsum_kron n k (fun j => d i * H i j) dl Hk).
        rewrite <- (rsum_kron n k (fun j => H i j) dl Hk).
        rewrite <- !rsum_plus, <- rsum_scal_r, <- rsum_plus. apply rsum_ext. intros j Hj.
        rewrite !at_subst1 by auto. unfold d, dl. ring. }
    rewrite rsum_plus, rsum_plus, rsum_scal_r, rsum_kron by exact Hk.
    rewrite (rsum_ext n (fun j => H k j * d j) (fun j => d j * H j k)).
    2:{ intros j Hj. rewrite (Sy k j) by auto. ring. }
    unfold d. ring. }
  fold n. rewrite E1, E2, E3. fold dl. field.
Qed.

(** ** The q update *)
Lemma upd_same f i v : upd f i v i = v.
Proof. unfold upd. rewrite Nat.eqb_refl. reflexivity. Qed.
Lemma upd_other f i v j : j <> i -> upd f i v j = f j.
Proof. intros H. unfold upd. destruct (Nat.eqb_spec j i); congruence. Qed.

Lemma update_q_gen a k dw : NoDup (cd_act a) ->
  forall m s q, (s + m <= length (cd_act a))%nat ->
  let q' := fold_left (fun q kj => let jj := nth kj (cd_act a) 0%nat in upd q jj (q jj + dw * cd_Q a k kj)) (seq s m) q in
  (forall l, (s <= l < s + m)%nat -> q' (nth l (cd_act a) 0%nat) = q (nth l (cd_act a) 0%nat) + dw * cd_Q a k l)
  /\ (forall j, (forall l, (s <= l < s + m)%nat -> nth l (cd_act a) 0%nat <> j) -> q' j = q j).
Proof.
  intros ND. induction m as [|m IH]; intros s q Hs; simpl.
  - split; [intros; lia|auto].
  - destruct (IH (S s) (upd q (nth s (cd_act a) 0%nat) (q (nth s (cd_act a) 0%nat) + dw * cd_Q a k s)) ltac:(lia)) as [I1 I2].
    split.
    + intros l Hl. destruct (Nat.eq_dec l s) as [->|Hne].
      * rewrite I2. { apply upd_same. } intros l' Hl' E. assert (l' = s) by (apply (nth_inj (cd_act a)); auto; lia). lia.
      * rewrite I1 by lia. rewrite upd_other; [reflexivity|]. intros E.
        apply Hne. apply (nth_inj (cd_act a)); auto; lia.
    + intros j Hj. rewrite I2. { apply upd_other. intros E. apply (Hj s); [lia|auto]. }
      intros l Hl. apply Hj. lia.
Qed.

Lemma update_q_spec a k dw q l : NoDup (cd_act a) -> (l < length (cd_act a))%nat ->
  cd_update_q a k dw q (nth l (cd_act a) 0%nat) = q (nth l (cd_act a) 0%nat) + dw * cd_Q a k l.
Proof.
  intros ND Hl. destruct (update_q_gen a k dw ND (length (cd_act a)) 0 q ltac:(lia)) as [I1 _].
  apply I1. lia.
Qed.

(** ** Matching the code's index arithmetic with the specification's *)
Lemma cd_pen_of P1 ic i : cd_pen P1 ic i = pen_of ic P1 i.
Proof. unfold cd_pen, pen_of, ioff. destruct ic, i; simpl; try rewrite Nat.sub_0_r; reflexivity. Qed.
Lemma cd_clip_of a i x :
  cd_clip a i x = clip2 (bnd_of (cd_ic a) (cd_lb a) i) (bnd_of (cd_ic a) (cd_ub a) i) x.
Proof.
  unfold cd_clip, bnd_of, ioff, clip2. destruct (cd_ic a), i; simpl; try rewrite Nat.sub_0_r; reflexivity.
Qed.

(** ** Invariant of the descent *)
Definition wf_args (a : cd_args) : Prop :=
  NoDup (cd_act a) /\ symmetric (length (cd_act a)) (cd_Q a) /\ 0 <= cd_eps a /\ (forall j, 0 <= cd_P1 a j).

Definition feas (a : cd_args) (w : nat -> R) : Prop :=
  forall i, In i (cd_act a) -> within (bnd_of (cd_ic a) (cd_lb a) i) (bnd_of (cd_ic a) (cd_ub a) i) (w i).

Definition pen (a : cd_args) : nat -> R := pen_of (cd_ic a) (cd_P1 a).

Record cd_inv (a : cd_args) (w0 q0 w q : nat -> R) : Prop := {
  inv_q : forall l, (l < length (cd_act a))%nat ->
            q (nth l (cd_act a) 0%nat) = quad_grad (cd_act a) (cd_Q a) q0 w0 w l;
  inv_feas : feas a w0 -> feas a w;
  inv_out : forall i, ~ In i (cd_act a) -> w i = w0 i;
  inv_desc : feas a w0 -> quad_model (cd_act a) (cd_Q a) q0 (pen a) w0 w
              <= quad_model (cd_act a) (cd_Q a) q0 (pen a) w0 w0 }.

Lemma cd_inv_init a w q : cd_inv a w q w q.
Proof.
  constructor; auto; try lra. intros l Hl. unfold quad_grad. rewrite rsum_zero; [cbv zeta; ring|].
  intros; cbv zeta; ring.
Qed.

Lemma upd_subst1 f i v : upd f i v = subst1 f i v.
Proof. reflexivity. Qed.

(** one visit, non-skipped *)
Lemma visit_exact a w0 q0 s k : wf_args a -> (k < length (cd_act a))%nat ->
  cs_q s (nth k (cd_act a) 0%nat) = quad_grad (cd_act a) (cd_Q a) q0 w0 (cs_w s) k ->
  cd_eps a < cd_Q a k k ->
  let i := nth k (cd_act a) 0%nat in
  let l := bnd_of (cd_ic a) (cd_lb a) i in let u := bnd_of (cd_ic a) (cd_ub a) i in
  let w' := cs_w (cd_visit a k s) in
  within l u (cs_w s i) ->
  within l u (w' i) /\ (forall j, j <> i -> w' j = cs_w s j) /\
  forall t, within l u t ->
    quad_model (cd_act a) (cd_Q a) q0 (pen a) w0 w' + cd_Q a k k / 2 * ((t - w' i) * (t - w' i))
    <= quad_model (cd_act a) (cd_Q a) q0 (pen a) w0 (subst1 (cs_w s) i t).
Proof.
  intros [ND [Sy [He Hp]]] Hk Hq HQ i l u w' Hw.
  assert (E : w' = subst1 (cs_w s) i (clip2 l u (soft (cd_Q a k k) (cs_q s i - cs_w s i * cd_Q a k k) (pen a i)))).
  { unfold w', cd_visit. destruct (Rleb (cd_Q a k k) (cd_eps a)) eqn:F; [apply Rleb_true in F; lra|].
    cbv zeta. cbn [cs_w]. rewrite cd_clip_of, cd_pen_of. reflexivity. }
  set (Qk := cd_Q a k k) in *. set (qt := cs_q s i - cs_w s i * Qk) in *.
  assert (Hpp : 0 <= pen a i). { unfold pen, pen_of. destruct (cd_ic a), i; auto; lra. }
  set (c := clip2 l u (soft Qk qt (pen a i))) in *.
  assert (Ei : w' i = c). { rewrite E. unfold subst1. rewrite Nat.eqb_refl. reflexivity. }
  split; [rewrite Ei; apply clip2_within with (cs_w s i); exact Hw|].
  split; [intros j Hj; rewrite E; unfold subst1; destruct (Nat.eqb_spec j i); congruence|].
  intros t Ht. rewrite Ei, E. unfold i. rewrite !quad_model_subst by auto. fold i.
  pose proof (soft_clip_min Qk qt (pen a i) l u (cs_w s i) ltac:(lra) Hpp Hw t Ht) as M. fold c in M.
  rewrite <- Hq. fold i. unfold phi in M. unfold qt in M. fold Qk.
  set (x := cs_w s i) in *. set (g := cs_q s i) in *.
  apply Rplus_le_reg_r with (g * x - / 2 * Qk * (x * x) + (pen a i) * Rabs x
     - quad_model (cd_act a) (cd_Q a) q0 (pen a) w0 (cs_w s)).
  eapply Rle_trans; [|eapply Rle_trans; [exact M|]]; apply Req_le; field.
Qed.

Lemma visit_skip a k s : cd_Q a k k <= cd_eps a -> cd_visit a k s = s.
Proof. intros H. unfold cd_visit. apply Rleb_true in H. rewrite H. reflexivity. Qed.

(** q after a visit is the gradient at the new w, for every coordinate of the active set *)
Lemma visit_q a w0 q0 s k : wf_args a -> (k < length (cd_act a))%nat ->
  (forall l, (l < length (cd_act a))%nat ->
     cs_q s (nth l (cd_act a) 0%nat) = quad_grad (cd_act a) (cd_Q a) q0 w0 (cs_w s) l) ->
  forall l, (l < length (cd_act a))%nat ->
     cs_q (cd_visit a k s) (nth l (cd_act a) 0%nat)
     = quad_grad (cd_act a) (cd_Q a) q0 w0 (cs_w (cd_visit a k s)) l.
Proof.
  intros [ND [Sy [He Hp]]] Hk Hq l Hl. unfold cd_visit.
  destruct (Rleb (cd_Q a k k) (cd_eps a)) eqn:F; [auto|]. cbv zeta. cbn [cs_w cs_q].
  set (i := nth k (cd_act a) 0%nat). set (v := cd_clip a i _).
  rewrite upd_subst1. unfold i. rewrite quad_grad_subst by auto. fold i. rewrite <- Hq by exact Hl.
  destruct (negb (Reqb v 0) || negb (Reqb (cs_w s i) 0)) eqn:B.
  - rewrite update_q_spec by auto. reflexivity.
  - apply orb_false_iff in B. destruct B as [B1 B2]. apply negb_false_iff in B1, B2.
    apply Reqb_true in B1, B2. rewrite B1, B2. ring.
Qed.

Lemma visit_inv a w0 q0 s k : wf_args a -> (k < length (cd_act a))%nat ->
  cd_inv a w0 q0 (cs_w s) (cs_q s) ->
  cd_inv a w0 q0 (cs_w (cd_visit a k s)) (cs_q (cd_visit a k s)).
Proof.
  intros WF Hk I. destruct (Rle_dec (cd_Q a k k) (cd_eps a)) as [Hs|Hs].
  { rewrite visit_skip by exact Hs. exact I. }
  assert (Hin : In (nth k (cd_act a) 0%nat) (cd_act a)) by (apply nth_In; exact Hk).
  assert (Hout : forall j, j <> nth k (cd_act a) 0%nat -> cs_w (cd_visit a k s) j = cs_w s j).
  { intros j Hj. unfold cd_visit. destruct (Rleb _ _); [reflexivity|]. cbv zeta. cbn [cs_w].
    apply upd_other. exact Hj. }
  constructor.
  - apply visit_q; auto. apply I.
  - intros F0. pose proof (inv_feas _ _ _ _ _ I F0) as F1.
    destruct (visit_exact a w0 q0 s k WF Hk (inv_q _ _ _ _ _ I k Hk) ltac:(lra) (F1 _ Hin)) as [V1 [V2 _]].
    intros j Hj. destruct (Nat.eq_dec j (nth k (cd_act a) 0%nat)) as [->|Hne]; [exact V1|].
    rewrite V2 by exact Hne. apply F1. exact Hj.
  - intros j Hj. rewrite Hout; [apply I; exact Hj|]. intros ->. contradiction.
  - intros F0. pose proof (inv_feas _ _ _ _ _ I F0) as F1.
    destruct (visit_exact a w0 q0 s k WF Hk (inv_q _ _ _ _ _ I k Hk) ltac:(lra) (F1 _ Hin)) as [_ [_ V3]].
    specialize (V3 _ (F1 _ Hin)).
    eapply Rle_trans; [|apply (inv_desc _ _ _ _ _ I F0)].
    assert (E : quad_model (cd_act a) (cd_Q a) q0 (pen a) w0 (subst1 (cs_w s) (nth k (cd_act a) 0%nat) (cs_w s (nth k (cd_act a) 0%nat)))
       = quad_model (cd_act a) (cd_Q a) q0 (pen a) w0 (cs_w s)).
    { destruct WF as [ND [Sy _]]. rewrite quad_model_subst by auto. ring. }
    rewrite E in V3. destruct WF as [_ [_ [He _]]].
    match type of V3 with _ + _ * (?z * _) <= _ => assert (0 <= cd_Q a k k / 2 * (z * z)) end.
    { apply Rmult_le_pos; [lra|]. apply Rle_0_sqr. }
    lra.
Qed.

Lemma sweep_inv a w0 q0 : wf_args a -> forall m f seed s,
  (f + m <= length (cd_act a))%nat -> (seed < 2 ^ 32)%N ->
  cd_inv a w0 q0 (cs_w s) (cs_q s) ->
  let r := cd_sweep a m f seed s in
  cd_inv a w0 q0 (cs_w (snd r)) (cs_q (snd r)) /\ (fst r < 2 ^ 32)%N.
Proof.
  intros WF. induction m as [|m IH]; intros f seed s Hf Hseed I; cbn [cd_sweep].
  - split; assumption.
  - destruct (cd_random a).
    + pose proof (rand_int_ok (length (cd_act a)) seed ltac:(lia) Hseed) as Hr.
      destruct (rand_int (length (cd_act a)) seed) as [k seed']. destruct Hr as [Hk [Hs _]].
      apply IH; [lia|exact Hs|]. apply visit_inv; auto.
    + apply IH; [lia|exact Hseed|]. apply visit_inv; auto. lia.
Qed.

Lemma loop_inv a w0 q0 : wf_args a -> forall m n seed norm w q, (seed < 2 ^ 32)%N ->
  cd_inv a w0 q0 w q ->
  let r := cd_loop a m n seed norm w q in
  cd_inv a w0 q0 (cr_w r) (cr_q r) /\ (n <= cr_cycles r <= n + m)%nat /\
  (cr_warn r = false ->
     cr_norm r <= cd_tol a /\
     cr_norm r = fst (norm_min_subgrad (cd_act a) (cr_w r) (cr_q r) (cd_P1 a) (cd_ic a) (cd_lb a) (cd_ub a))).
Proof.
  intros WF. induction m as [|m IH]; intros n seed norm w q Hs I; cbn [cd_loop].
  - cbn. split; [exact I|]. split; [lia|discriminate].
  - pose proof (sweep_inv a w0 q0 WF (length (cd_act a)) 0 seed (mkCS w q 0 0) ltac:(lia) Hs I) as Hsw.
    destruct (cd_sweep a (length (cd_act a)) 0 seed (mkCS w q 0 0)) as [seed' s].
    cbn in Hsw. destruct Hsw as [I' Hs'].
    destruct (Reqb (cs_wmax s) 0 || Rltb (cs_dwmax s / cs_wmax s) (cd_tol a) || Nat.eqb m 0).
    + destruct (Rleb _ _) eqn:L.
      * cbn. split; [exact I'|]. split; [lia|]. intros _. apply Rleb_true in L. split; [exact L|reflexivity].
      * destruct (IH (S n) seed' (fst (norm_min_subgrad (cd_act a) (cs_w s) (cs_q s) (cd_P1 a) (cd_ic a) (cd_lb a) (cd_ub a))) (cs_w s) (cs_q s) Hs' I') as [A [B C]].
        split; [exact A|]. split; [lia|exact C].
    + destruct (IH (S n) seed' norm (cs_w s) (cs_q s) Hs' I') as [A [B C]].
      split; [exact A|]. split; [lia|exact C].
Qed.

Lemma cd_total a seed w q : wf_args a -> (seed < 2 ^ 32)%N ->
  let r := enet_coordinate_descent_gram a seed w q in
  cd_inv a w q (cr_w r) (cr_q r) /\ (cr_cycles r <= cd_max_iter a)%nat /\
  (cr_warn r = false ->
     cr_norm r <= cd_tol a /\
     cr_norm r = fst (norm_min_subgrad (cd_act a) (cr_w r) (cr_q r) (cd_P1 a) (cd_ic a) (cd_lb a) (cd_ub a))).
Proof.
  intros WF Hs. unfold enet_coordinate_descent_gram.
  destruct (loop_inv a w q WF (cd_max_iter a) 0 seed 0 w q Hs (cd_inv_init a w q)) as [A [B C]].
  split; [exact A|]. split; [lia|exact C].
Qed.
