(** The minimum-norm subgradient: zero iff stationary; suboptimality bound. *)
From Verif Require Import Base M_CD S_CD L_CD.

(** the per-coordinate entry, intercept included *)
Definition entry (coef grad P1 : nat -> R) (ic : bool) (lb ub : bounds) (i : nat) : R :=
  if Nat.ltb i (ioff ic) then Rabs (grad 0%nat)
  else Rabs (subgrad_term (coef i) (grad i) (P1 (i - ioff ic)%nat) (lb (i - ioff ic)%nat) (ub (i - ioff ic)%nat)).

(** no intercept position inside the list *)
Lemma norm_loop_no0 act coef grad P1 ic lb ub : (forall i, In i act -> (ioff ic <= i)%nat) ->
  forall norm mx,
  fst (norm_loop act coef grad P1 ic lb ub norm mx) = norm + lsumf (entry coef grad P1 ic lb ub) act.
Proof.
  induction act as [|i act IH]; intros H norm mx; cbn [norm_loop].
  - rewrite lsumf_nil. simpl. lra.
  - assert (Hi : (ioff ic <= i)%nat) by auto with datatypes.
    destruct (Nat.ltb_spec i (ioff ic)) as [Hlt|_]; [lia|].
    rewrite IH by auto with datatypes. rewrite lsumf_cons. unfold entry at 2.
    destruct (Nat.ltb_spec i (ioff ic)) as [Hlt|_]; [lia|]. lra.
Qed.

(** the intercept, if any, comes first *)
Definition ic_first (ic : bool) (act : list nat) : Prop :=
  match act with [] => True | _ :: r => forall i, In i r -> (ioff ic <= i)%nat end.

Lemma norm_sum act coef grad P1 ic lb ub : ic_first ic act ->
  fst (norm_min_subgrad act coef grad P1 ic lb ub) = lsumf (entry coef grad P1 ic lb ub) act.
Proof.
  intros H. unfold norm_min_subgrad. destruct act as [|i act]; [reflexivity|]. cbn [norm_loop].
  simpl in H. rewrite lsumf_cons. destruct (Nat.ltb_spec i (ioff ic)) as [Hlt|Hge].
  - rewrite norm_loop_no0 by exact H. f_equal. unfold entry.
    destruct (Nat.ltb_spec i (ioff ic)); [reflexivity|lia].
  - rewrite norm_loop_no0 by exact H. f_equal. unfold entry.
    destruct (Nat.ltb_spec i (ioff ic)); [lia|]. apply Rplus_0_l.
Qed.

Lemma entry_nonneg coef grad P1 ic lb ub i : 0 <= entry coef grad P1 ic lb ub i.
Proof. unfold entry. destruct (Nat.ltb _ _); apply Rabs_pos. Qed.

Lemma lsumf_seq n f : lsumf f (seq 0 n) = rsum n f.
Proof.
  induction n as [|n IH]; [reflexivity|]. rewrite seq_S, lsumf_app, IH. simpl.
  rewrite lsumf_cons, lsumf_nil. lra.
Qed.
Lemma ic_first_seq ic n : ic_first ic (seq 0 n).
Proof. destruct n; simpl; auto. intros i Hi. apply in_seq in Hi. destruct ic; simpl; lia. Qed.

Lemma norm_sum_full n coef grad P1 ic lb ub :
  fst (norm_min_subgrad (seq 0 n) coef grad P1 ic lb ub) = rsum n (entry coef grad P1 ic lb ub).
Proof. rewrite norm_sum by apply ic_first_seq. apply lsumf_seq. Qed.

(** ** One coordinate *)
(** the slack inequality: -|term| |t - x| is a lower bound of the linearised change *)
Lemma fsign_mul_abs g : fsign g * Rabs g = g.
Proof. destruct (fsign_cases g) as [[E F]|[[E F]|[E F]]]; rewrite F; rabs. Qed.

Lemma term_bound x g p l u : 0 <= p -> within l u x -> forall t, within l u t ->
  - (Rabs (subgrad_term x g p l u) * Rabs (t - x)) <= g * (t - x) + p * (Rabs t - Rabs x).
Proof.
  intros Hp [Hl Hu] t [Tl Tu]. unfold subgrad_term.
  set (t0 := if Reqb x 0 then fsign g * fmax (Rabs g - p) 0 else g + fsign x * p).
  (* exact lower bound by the unclipped term *)
  assert (K : t0 * (t - x) <= g * (t - x) + p * (Rabs t - Rabs x)).
  { unfold t0. destruct (Reqb x 0) eqn:E.
    - apply Reqb_true in E. subst x. rewrite Rabs_R0, fmax_Rmax.
      destruct (Rle_dec (Rabs g) p) as [Hg|Hg].
      + rewrite Rmax_right by lra. apply Rabs_le_between in Hg.
        pose proof (Rabs_pos t). destruct (Rle_dec 0 t); rabs; nra.
      + rewrite Rmax_left by lra.
        replace (fsign g * (Rabs g - p)) with (g - fsign g * p) by (rewrite <- (fsign_mul_abs g) at 1; ring).
        destruct (fsign_cases g) as [[E F]|[[E F]|[E F]]]; rewrite F; rabs; nra.
    - apply Reqb_false in E.
      destruct (fsign_cases x) as [[E' F]|[[E' F]|[E' F]]]; rewrite F; [contradiction| |]; rabs; nra. }
  assert (A : forall z, z * (t - x) >= - (Rabs z * Rabs (t - x))).
  { intros z. rewrite <- Rabs_mult. apply Rle_ge. pose proof (Rle_abs (- (z * (t - x)))). rewrite Rabs_Ropp in H. lra. }
  set (t1 := if at_bound x l && Rltb 0 t0 then 0 else t0).
  assert (K1 : t1 * (t - x) <= g * (t - x) + p * (Rabs t - Rabs x)).
  { unfold t1. destruct (at_bound x l && Rltb 0 t0) eqn:B; [|exact K].
    apply andb_true_iff in B. destruct B as [B1 B2]. apply Rltb_true in B2.
    unfold at_bound in B1. destruct l as [l|]; [|discriminate]. apply Reqb_true in B1.
    specialize (Tl _ eq_refl). eapply Rle_trans; [|exact K].
    rewrite Rmult_0_l. apply Rmult_le_pos; lra. }
  destruct (at_bound x u && Rltb t1 0) eqn:B.
  - apply andb_true_iff in B. destruct B as [B1 B2]. apply Rltb_true in B2.
    unfold at_bound in B1. destruct u as [u|]; [|discriminate]. apply Reqb_true in B1.
    specialize (Tu _ eq_refl). eapply Rle_trans; [|exact K1]. rewrite Rabs_R0.
    replace (t1 * (t - x)) with ((- t1) * (x - t)) by ring.
    assert (0 <= - t1 * (x - t)) by (apply Rmult_le_pos; lra). lra.
  - eapply Rle_trans; [|exact K1]. specialize (A t1). lra.
Qed.

Lemma within_between l u x t z : within l u x -> within l u t -> (x <= z <= t \/ t <= z <= x) -> within l u z.
Proof.
  intros [A B] [C D] H. split; intros b Hb.
  - specialize (A b Hb). specialize (C b Hb). lra.
  - specialize (B b Hb). specialize (D b Hb). lra.
Qed.

(** if the code's term is non-zero there is an admissible descent move *)
Lemma term_zero_of_stationary x g p l u : 0 <= p -> within l u x ->
  coord_stationary g p l u x -> subgrad_term x g p l u = 0.
Proof.
  intros Hp Hx Hs. unfold subgrad_term.
  set (t0 := if Reqb x 0 then fsign g * fmax (Rabs g - p) 0 else g + fsign x * p).
  (* moving down by a small amount changes the linearised objective by -t0*e when t0 > 0 *)
  assert (Down : 0 < t0 -> exists e0, 0 < e0 /\ forall e, 0 < e <= e0 -> g * (x - e - x) + p * (Rabs (x - e) - Rabs x) < 0).
  { unfold t0. destruct (Reqb x 0) eqn:E; intros H.
    - apply Reqb_true in E. subst x. rewrite fmax_Rmax in H. exists 1. split; [lra|]. intros e He.
      rewrite Rabs_R0. replace (0 - e) with (- e) by ring. rewrite Rabs_Ropp, (Rabs_right e) by lra.
      destruct (fsign_cases g) as [[Eg F]|[[Eg F]|[Eg F]]]; rewrite F in H.
      + lra.
      + rewrite (Rabs_right g) in H by lra. unfold Rmax in H. destruct Rle_dec; nra.
      + pose proof (Rmax_r (Rabs g - p) 0). lra.
    - apply Reqb_false in E.
      destruct (fsign_cases x) as [[E' F]|[[E' F]|[E' F]]]; rewrite F in H; [contradiction| |].
      + exists (x / 2). split; [lra|]. intros e He. rewrite !Rabs_right by lra. nra.
      + exists 1. split; [lra|]. intros e He. rewrite !Rabs_left by lra. nra. }
  assert (Up : t0 < 0 -> exists e0, 0 < e0 /\ forall e, 0 < e <= e0 -> g * (x + e - x) + p * (Rabs (x + e) - Rabs x) < 0).
  { unfold t0. destruct (Reqb x 0) eqn:E; intros H.
    - apply Reqb_true in E. subst x. rewrite fmax_Rmax in H. exists 1. split; [lra|]. intros e He.
      rewrite Rabs_R0, Rplus_0_l, (Rabs_right e) by lra.
      destruct (fsign_cases g) as [[Eg F]|[[Eg F]|[Eg F]]]; rewrite F in H.
      + lra.
      + pose proof (Rmax_r (Rabs g - p) 0). lra.
      + rewrite (Rabs_left g) in H by lra. unfold Rmax in H. destruct Rle_dec; nra.
    - apply Reqb_false in E.
      destruct (fsign_cases x) as [[E' F]|[[E' F]|[E' F]]]; rewrite F in H; [contradiction| |].
      + exists 1. split; [lra|]. intros e He. rewrite !Rabs_right by lra. nra.
      + exists (- x / 2). split; [lra|]. intros e He. rewrite !Rabs_left by lra. nra. }
  destruct Hx as [Hl Hu].
  assert (NoDown : (forall b, l = Some b -> b < x) -> ~ 0 < t0).
  { intros Hint Hpos. destruct (Down Hpos) as [e0 [He0 Hd]].
    set (e := match l with Some b => Rmin e0 (x - b) | None => e0 end).
    assert (He : 0 < e <= e0).
    { unfold e. destruct l as [b|]; [|lra]. specialize (Hint b eq_refl).
      unfold Rmin. destruct Rle_dec; lra. }
    assert (Hw : within l u (x - e)).
    { split; intros b Hb.
      - unfold e. rewrite Hb. pose proof (Rmin_r e0 (x - b)). lra.
      - specialize (Hu b Hb). lra. }
    specialize (Hs _ Hw). specialize (Hd e He). lra. }
  assert (NoUp : (forall b, u = Some b -> x < b) -> ~ t0 < 0).
  { intros Hint Hneg. destruct (Up Hneg) as [e0 [He0 Hd]].
    set (e := match u with Some b => Rmin e0 (b - x) | None => e0 end).
    assert (He : 0 < e <= e0).
    { unfold e. destruct u as [b|]; [|lra]. specialize (Hint b eq_refl).
      unfold Rmin. destruct Rle_dec; lra. }
    assert (Hw : within l u (x + e)).
    { split; intros b Hb.
      - specialize (Hl b Hb). lra.
      - unfold e. rewrite Hb. pose proof (Rmin_r e0 (b - x)). lra. }
    specialize (Hs _ Hw). specialize (Hd e He). lra. }
  cbv zeta. set (t1 := if at_bound x l && Rltb 0 t0 then 0 else t0).
  assert (T1 : t1 <= 0 /\ (t1 < 0 -> t0 < 0)).
  { unfold t1. destruct (Rltb 0 t0) eqn:P.
    - apply Rltb_true in P. destruct (at_bound x l) eqn:B; cbn; [lra|].
      exfalso. apply (NoDown); [|exact P]. intros b Hb. specialize (Hl b Hb).
      unfold at_bound in B. rewrite Hb in B. apply Reqb_false in B. lra.
    - apply Rltb_false in P. rewrite andb_false_r. lra. }
  destruct (Rltb t1 0) eqn:N.
  - apply Rltb_true in N. destruct (at_bound x u) eqn:B; cbn; [reflexivity|].
    exfalso. apply NoUp; [|apply T1; exact N]. intros b Hb. specialize (Hu b Hb).
    unfold at_bound in B. rewrite Hb in B. apply Reqb_false in B. lra.
  - apply Rltb_false in N. rewrite andb_false_r. lra.
Qed.

Lemma term_zero_iff x g p l u : 0 <= p -> within l u x ->
  (subgrad_term x g p l u = 0 <-> coord_stationary g p l u x).
Proof.
  intros Hp Hx. split.
  - intros E t Ht. pose proof (term_bound x g p l u Hp Hx t Ht) as B. rewrite E, Rabs_R0 in B. lra.
  - apply term_zero_of_stationary; assumption.
Qed.

Lemma stationary_free_iff g x : coord_stationary g 0 None None x <-> g = 0.
Proof.
  split.
  - intros H. assert (W : forall t, within None None t) by (intros; split; intros b [=]).
    pose proof (H (x + 1) (W _)). pose proof (H (x - 1) (W _)). lra.
  - intros -> t _. lra.
Qed.

Lemma entry_zero_iff coef grad P1 ic lb ub i : (forall j, 0 <= P1 j) ->
  within (bnd_of ic lb i) (bnd_of ic ub i) (coef i) ->
  (entry coef grad P1 ic lb ub i = 0 <->
   coord_stationary (grad i) (pen_of ic P1 i) (bnd_of ic lb i) (bnd_of ic ub i) (coef i)).
Proof.
  intros Hp Hw. unfold entry, pen_of, bnd_of, ioff in *. destruct ic, i as [|i]; cbn [Nat.ltb Nat.leb Nat.sub] in *;
   rewrite ?Nat.sub_0_r.
  - rewrite stationary_free_iff. split; intros H.
    + destruct (Req_dec (grad 0%nat) 0) as [|Hn]; [assumption|]. exfalso. apply (Rabs_no_R0 _ Hn). exact H.
    + rewrite H. apply Rabs_R0.
  - rewrite <- term_zero_iff by auto. split; intros H.
    + destruct (Req_dec (subgrad_term (coef (S i)) (grad (S i)) (P1 i) (lb i) (ub i)) 0) as [|Hn]; [assumption|].
      exfalso. apply (Rabs_no_R0 _ Hn). exact H.
    + rewrite H. apply Rabs_R0.
  - rewrite <- term_zero_iff by auto. split; intros H.
    + destruct (Req_dec (subgrad_term (coef 0%nat) (grad 0%nat) (P1 0%nat) (lb 0%nat) (ub 0%nat)) 0) as [|Hn]; [assumption|].
      exfalso. apply (Rabs_no_R0 _ Hn). exact H.
    + rewrite H. apply Rabs_R0.
  - rewrite <- term_zero_iff by auto. split; intros H.
    + destruct (Req_dec (subgrad_term (coef (S i)) (grad (S i)) (P1 (S i)) (lb (S i)) (ub (S i))) 0) as [|Hn]; [assumption|].
      exfalso. apply (Rabs_no_R0 _ Hn). exact H.
    + rewrite H. apply Rabs_R0.
Qed.

Lemma entry_bound coef grad P1 ic lb ub i t : (forall j, 0 <= P1 j) ->
  within (bnd_of ic lb i) (bnd_of ic ub i) (coef i) ->
  within (bnd_of ic lb i) (bnd_of ic ub i) t ->
  - (entry coef grad P1 ic lb ub i * Rabs (t - coef i))
  <= grad i * (t - coef i) + pen_of ic P1 i * (Rabs t - Rabs (coef i)).
Proof.
  intros Hp Hw Ht. unfold entry, pen_of, bnd_of, ioff in *. destruct ic, i as [|i]; cbn [Nat.ltb Nat.leb Nat.sub] in *;
   rewrite ?Nat.sub_0_r; try (apply term_bound; auto).
  rewrite <- Rabs_mult. pose proof (Rle_abs (- (grad 0%nat * (t - coef 0%nat)))) as A. rewrite Rabs_Ropp in A. lra.
Qed.

Lemma norm_zero_iff n coef grad P1 ic lb ub : (forall j, 0 <= P1 j) ->
  (forall i, (i < n)%nat -> within (bnd_of ic lb i) (bnd_of ic ub i) (coef i)) ->
  (fst (norm_min_subgrad (seq 0 n) coef grad P1 ic lb ub) = 0 <->
   forall i, (i < n)%nat ->
     coord_stationary (grad i) (pen_of ic P1 i) (bnd_of ic lb i) (bnd_of ic ub i) (coef i)).
Proof.
  intros Hp Hw. rewrite norm_sum_full. split.
  - intros E i Hi. apply entry_zero_iff; auto. revert i Hi. apply rsum_zero_inv; [|exact E].
    intros. apply entry_nonneg.
  - intros H. apply rsum_zero. intros i Hi. apply entry_zero_iff; auto.
Qed.

Lemma norm_nonneg n coef grad P1 ic lb ub : 0 <= fst (norm_min_subgrad (seq 0 n) coef grad P1 ic lb ub).
Proof. rewrite norm_sum_full. apply rsum_nonneg. intros; apply entry_nonneg. Qed.

(** suboptimality *)
Lemma subopt n f coef grad P1 ic lb ub v D : (forall j, 0 <= P1 j) ->
  (forall i, (i < n)%nat -> within (bnd_of ic lb i) (bnd_of ic ub i) (coef i)) ->
  (forall i, (i < n)%nat -> within (bnd_of ic lb i) (bnd_of ic ub i) (v i)) ->
  supports n f coef grad ->
  (forall i, (i < n)%nat -> Rabs (v i - coef i) <= D) ->
  f coef + rsum n (fun i => pen_of ic P1 i * Rabs (coef i))
  <= f v + rsum n (fun i => pen_of ic P1 i * Rabs (v i))
     + fst (norm_min_subgrad (seq 0 n) coef grad P1 ic lb ub) * D.
Proof.
  intros Hp Hw Hv Hf HD. rewrite norm_sum_full. specialize (Hf v).
  assert (K : - (rsum n (entry coef grad P1 ic lb ub) * D)
    <= rsum n (fun i => grad i * (v i - coef i)) + rsum n (fun i => pen_of ic P1 i * Rabs (v i))
       - rsum n (fun i => pen_of ic P1 i * Rabs (coef i))).
  { rewrite <- rsum_scal_r, <- rsum_opp, <- rsum_plus, <- rsum_minus. apply rsum_le. intros i Hi.
    eapply Rle_trans; [|eapply Rle_trans; [apply (entry_bound coef grad P1 ic lb ub i (v i)); auto|]].
    - pose proof (entry_nonneg coef grad P1 ic lb ub i) as E0. specialize (HD i Hi).
      apply Ropp_le_contravar. apply Rmult_le_compat_l; assumption.
    - lra. }
  lra.
Qed.

(** the second output: infinite without an intercept, else at least every entry *)
Lemma max_no_ic act coef grad P1 lb ub norm :
  snd (norm_loop act coef grad P1 false lb ub norm None) = None.
Proof. revert norm. induction act as [|i act IH]; intros norm; cbn; auto. Qed.
Lemma max_mono act coef grad P1 ic lb ub : (forall i, In i act -> (ioff ic <= i)%nat) ->
  forall norm m, exists m', snd (norm_loop act coef grad P1 ic lb ub norm (Some m)) = Some m' /\ m <= m' /\
    forall i, In i act -> entry coef grad P1 ic lb ub i <= m'.
Proof.
  induction act as [|i act IH]; intros H norm m; cbn [norm_loop].
  - exists m. simpl. split; [reflexivity|]. split; [lra|contradiction].
  - assert (Hi : (ioff ic <= i)%nat) by auto with datatypes.
    destruct (Nat.ltb_spec i (ioff ic)) as [Hlt|_]; [lia|]. cbv zeta.
    set (t := Rabs _).
    assert (Ht : entry coef grad P1 ic lb ub i = t).
    { unfold entry. destruct (Nat.ltb_spec i (ioff ic)) as [Hlt|_]; [lia|]. reflexivity. }
    destruct (Rltb m t) eqn:E; [apply Rltb_true in E|apply Rltb_false in E].
    + destruct (IH ltac:(auto with datatypes) (norm + t) t) as [m' [E1 [E2 E3]]].
      exists m'. split; [exact E1|]. split; [lra|]. intros j [->|Hj]; [lra|auto].
    + destruct (IH ltac:(auto with datatypes) (norm + t) m) as [m' [E1 [E2 E3]]].
      exists m'. split; [exact E1|]. split; [lra|]. intros j [->|Hj]; [lra|auto].
Qed.
