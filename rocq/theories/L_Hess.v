(** The incrementally maintained Hessian. *)
From Verif Require Import M_Solver S_Solver L_CD L_KKT.

Lemma xt_ic pb i k : pb_ic pb = true -> (0 < k)%nat -> xt pb i k = pb_X pb i (k - 1)%nat.
Proof. intros H Hk. unfold xt. rewrite H. destruct k; [lia|]. simpl. rewrite Nat.sub_0_r. reflexivity. Qed.

(** ** positions *)
Lemma find_pos_spec x l a : find_pos x l = Some a -> (a < length l)%nat /\ nth a l 0%nat = x.
Proof.
  revert a. induction l as [|y r IH]; intros a H; simpl in H; [discriminate|].
  destruct (Nat.eqb_spec x y) as [->|Hne].
  - injection H as <-. simpl. split; [lia|reflexivity].
  - destruct (find_pos x r) as [b|]; [|discriminate]. injection H as <-.
    destruct (IH b eq_refl) as [A B]. simpl. split; [lia|exact B].
Qed.
Lemma find_pos_in x l : In x l -> exists a, find_pos x l = Some a.
Proof.
  induction l as [|y r IH]; simpl; [contradiction|]. intros H.
  destruct (Nat.eqb_spec x y) as [->|Hne]; [eauto|].
  destruct H as [->|H]; [contradiction|]. destruct (IH H) as [a Ha]. rewrite Ha. simpl. eauto.
Qed.
Lemma find_pos_nth l a : NoDup l -> (a < length l)%nat -> find_pos (nth a l 0%nat) l = Some a.
Proof.
  intros ND Ha. destruct (find_pos_in (nth a l 0%nat) l (nth_In l 0%nat Ha)) as [b Hb].
  rewrite Hb. f_equal. destruct (find_pos_spec _ _ _ Hb) as [B1 B2]. apply (nth_inj l); auto.
Qed.

(** ** subset test *)
Lemma mem_in x l : mem x l = true <-> In x l.
Proof. unfold mem. rewrite existsb_exists. split.
  - intros [y [Hy E]]. apply Nat.eqb_eq in E. subst. exact Hy.
  - intros H. exists x. split; [exact H|apply Nat.eqb_refl]. Qed.
Lemma is_subset_incl x y : NoDup x -> is_subset x y = true -> incl y x.
Proof.
  intros ND H. unfold is_subset in H. apply Nat.eqb_eq in H.
  set (f := filter (fun a => mem a y) x) in *.
  assert (Nf : NoDup f) by (apply NoDup_filter; exact ND).
  assert (If : incl f y). { intros a Ha. unfold f in Ha. apply filter_In in Ha. apply mem_in. apply Ha. }
  assert (I2 : incl y f). { apply NoDup_length_incl; auto. lia. }
  intros a Ha. specialize (I2 a Ha). unfold f in I2. apply filter_In in I2. apply I2.
Qed.
Lemma is_subset_complete x y : NoDup x -> NoDup y -> incl y x -> is_subset x y = true.
Proof.
  intros Nx Ny H. unfold is_subset. apply Nat.eqb_eq.
  apply Nat.le_antisymm.
  - apply NoDup_incl_length; [apply NoDup_filter; exact Nx|]. intros a Ha. apply filter_In in Ha. apply mem_in. apply Ha.
  - apply NoDup_incl_length; [exact Ny|]. intros a Ha. apply filter_In. split; [apply H; exact Ha|]. apply mem_in. exact Ha.
Qed.

(** ** active sets *)
Definition act_ok (pb : problem) (act : list nat) : Prop :=
  NoDup act /\ (forall k, In k act -> (k < nc pb)%nat) /\
  (pb_ic pb = true -> exists r, act = 0%nat :: r /\ forall k, In k r -> (1 <= k)%nat).

Lemma act_ok_identify pb c sc mx : act_ok pb (identify_active_set pb c sc mx).
Proof.
  unfold act_ok, identify_active_set, nc, ioff.
  assert (N1 : forall (g : nat -> nat) l, (forall x y, g x = g y -> x = y) -> NoDup l -> NoDup (map g l)).
  { intros g l Hg Hl. induction Hl; simpl; constructor; auto. rewrite in_map_iff. intros [y [E Hy]].
    apply Hg in E. subst. contradiction. }
  assert (Hin : forall j, In j (filter (is_active pb c sc mx) (seq 0 (pb_p pb))) -> (j < pb_p pb)%nat).
  { intros j Hj. apply filter_In in Hj. destruct Hj as [Hj _]. apply in_seq in Hj. lia. }
  destruct (pb_ic pb).
  - split; [|split].
    + simpl. constructor.
      * rewrite in_map_iff. intros [y [E _]]. discriminate.
      * apply N1; [intros; lia|]. apply NoDup_filter. apply seq_NoDup.
    + intros k Hk. simpl in Hk. destruct Hk as [<-|Hk]; [lia|]. apply in_map_iff in Hk.
      destruct Hk as [y [<- Hy]]. apply Hin in Hy. lia.
    + intros _. eexists. split; [reflexivity|]. intros k Hk. apply in_map_iff in Hk. destruct Hk as [y [<- _]]. lia.
  - split; [|split].
    + simpl. apply N1; [intros; lia|]. apply NoDup_filter. apply seq_NoDup.
    + intros k Hk. simpl in Hk. apply in_map_iff in Hk. destruct Hk as [y [<- Hy]]. apply Hin in Hy. lia.
    + discriminate.
Qed.
Lemma act_ok_full pb : act_ok pb (seq 0 (nc pb)).
Proof.
  split; [apply seq_NoDup|]. split.
  - intros k Hk. apply in_seq in Hk. lia.
  - intros Hic. unfold nc, ioff. rewrite Hic. simpl. eexists. split; [reflexivity|].
    intros k Hk. apply in_seq in Hk. lia.
Qed.

(** ** the sandwich product *)
Lemma nth_mapf (f : nat -> nat) l c : (c < length l)%nat -> nth c (map f l) 0%nat = f (nth c l 0%nat).
Proof. revert c. induction l as [|x l IH]; intros [|c] H; simpl in *; try lia; auto. apply IH. lia. Qed.
Lemma lsumf_filter_nz (f : nat -> R) (d : nat -> R) l :
  (forall i, In i l -> d i = 0 -> f i = 0) ->
  lsumf f (filter (fun i => negb (Reqb (d i) 0)) l) = lsumf f l.
Proof.
  induction l as [|i l IH]; intros H; [reflexivity|]. cbn [filter].
  destruct (Reqb (d i) 0) eqn:E; cbn [negb].
  - rewrite lsumf_cons, IH by auto with datatypes. apply Reqb_true in E.
    rewrite H; auto with datatypes. lra.
  - rewrite !lsumf_cons, IH by auto with datatypes. reflexivity.
Qed.

Lemma sandwich_exact pb d rows act a b : act_ok pb act -> (a < length act)%nat -> (b < length act)%nat ->
  (rows = seq 0 (pb_n pb) \/ rows = filter (fun i => negb (Reqb (d i) 0)) (seq 0 (pb_n pb))) ->
  sandwich pb d rows (map (fun k => (k - ioff (pb_ic pb))%nat) (skipn (ioff (pb_ic pb)) act)) a b
  = rsum (pb_n pb) (fun i => d i * xt pb i (nth a act 0%nat) * xt pb i (nth b act 0%nat)).
Proof.
  intros [_ [Hb Hic]] Ha Hbl Hrows.
  assert (HS : forall g, (forall i, d i = 0 -> g i = 0) -> lsumf g rows = rsum (pb_n pb) g).
  { intros g Hg. rewrite <- lsumf_seq. destruct Hrows as [ -> | -> ]; [reflexivity|].
    apply lsumf_filter_nz. intros i _. apply Hg. }
  unfold sandwich. destruct (pb_ic pb) eqn:E; cbn [ioff].
  - destruct (Hic eq_refl) as [r [-> Hr]]. cbn [skipn].
    assert (Hn : forall c, (S c < length (0%nat :: r))%nat ->
       nth c (map (fun k => (k - 1)%nat) r) 0%nat = (nth (S c) (0%nat :: r) 0%nat - 1)%nat
       /\ (0 < nth (S c) (0%nat :: r) 0%nat)%nat).
    { intros c Hc. simpl in Hc. cbn [nth]. split.
      - rewrite nth_mapf by lia. reflexivity.
      - assert (1 <= nth c r 0)%nat by (apply Hr; apply nth_In; lia). lia. }
    assert (X0 : forall i, xt pb i (nth 0 (0%nat :: r) 0%nat) = 1) by (intros; unfold xt; rewrite E; reflexivity).
    destruct a as [|a], b as [|b].
    + apply rsum_ext. intros i _. rewrite X0. ring.
    + destruct (Hn b Hbl) as [N1 N2]. rewrite N1, HS by (intros i Hi; rewrite Hi; ring).
      apply rsum_ext. intros i _. rewrite X0, (xt_ic pb i) by auto. ring.
    + destruct (Hn a Ha) as [N1 N2]. rewrite N1, HS by (intros i Hi; rewrite Hi; ring).
      apply rsum_ext. intros i _. rewrite X0, (xt_ic pb i (nth (S a) _ _)) by auto. ring.
    + destruct (Hn a Ha) as [N1 N2]. destruct (Hn b Hbl) as [N3 N4].
      rewrite N1, N3, HS by (intros i Hi; rewrite Hi; ring).
      apply rsum_ext. intros i _. rewrite !(xt_ic pb i) by auto. ring.
  - cbn [skipn].
    assert (Hn : forall c, (c < length act)%nat -> nth c (map (fun k => (k - 0)%nat) act) 0%nat = nth c act 0%nat).
    { intros c Hc. rewrite nth_mapf by lia. lia. }
    rewrite !Hn by auto. rewrite HS by (intros i Hi; rewrite Hi; ring).
    apply rsum_ext. intros i _. unfold xt. rewrite E. ring.
Qed.

Lemma build_delta_none pb d rows act a b : act_ok pb act -> (a < length act)%nat -> (b < length act)%nat ->
  (rows = seq 0 (pb_n pb) \/ rows = filter (fun i => negb (Reqb (d i) 0)) (seq 0 (pb_n pb))) ->
  build_hessian_delta pb d None rows act a b
  = rsum (pb_n pb) (fun i => d i * xt pb i (nth a act 0%nat) * xt pb i (nth b act 0%nat)).
Proof. intros. unfold build_hessian_delta. apply sandwich_exact; auto. Qed.

Lemma build_delta_some pb h P2 act a b : act_ok pb act -> (a < length act)%nat -> (b < length act)%nat ->
  build_hessian_delta pb h (Some P2) (seq 0 (pb_n pb)) act a b
  = exact_hessian pb h P2 (nth a act 0%nat) (nth b act 0%nat).
Proof.
  intros HA Ha Hb. unfold build_hessian_delta, exact_hessian. cbv zeta.
  rewrite sandwich_exact by auto.
  set (S := rsum _ _). destruct HA as [ND [Hlt Hic]]. unfold p2_full.
  destruct (pb_ic pb) eqn:E; cbn [ioff].
  - destruct (Hic eq_refl) as [r [-> Hr]]. cbn [skipn].
    destruct a as [|a], b as [|b]; cbn [Nat.ltb Nat.leb orb nth].
    + lra.
    + lra.
    + destruct (nth a r 0%nat); lra.
    + simpl in Ha, Hb.
      assert (N : forall c, (c < length r)%nat -> nth c (map (fun k => (k - 1)%nat) r) 0%nat = (nth c r 0 - 1)%nat).
      { intros c Hc. rewrite nth_mapf by lia. reflexivity. }
      assert (P : forall c, (c < length r)%nat -> (1 <= nth c r 0)%nat) by (intros; apply Hr; apply nth_In; auto).
      cbn [Nat.sub]. rewrite !Nat.sub_0_r, !N by lia.
      destruct (nth a r 0%nat) as [|i] eqn:Ei; [specialize (P a ltac:(lia)); lia|].
      destruct (nth b r 0%nat) as [|j] eqn:Ej; [specialize (P b ltac:(lia)); lia|].
      cbn [Nat.sub]. rewrite ?Nat.sub_0_r. unfold p2_entry. destruct P2 as [v|M]; [|lra].
      destruct (Nat.eqb_spec (Datatypes.S a) (Datatypes.S b)) as [Eab|Nab].
      * injection Eab as ->. rewrite Ei in Ej. injection Ej as ->. rewrite Nat.eqb_refl. lra.
      * destruct (Nat.eqb_spec i j) as [->|_]; [|lra]. exfalso. apply Nab. f_equal.
        inversion ND as [|x0 r0 Hn0 NDr]; subst x0 r0. apply (nth_inj r a b NDr); [lia|lia|]. rewrite Ei, Ej. reflexivity.
  - cbn [skipn Nat.ltb Nat.leb orb]. 
    assert (N : forall c, (c < length act)%nat -> nth c (map (fun k => (k - 0)%nat) act) 0%nat = nth c act 0%nat).
    { intros c Hc. rewrite nth_mapf by lia. lia. }
    rewrite !Nat.sub_0_r, !N by auto. unfold p2_entry. destruct P2 as [v|M]; [|lra].
    destruct (Nat.eqb_spec a b) as [->|Nab].
    + rewrite Nat.eqb_refl. lra.
    + destruct (Nat.eqb_spec (nth a act 0%nat) (nth b act 0%nat)) as [Eq|_]; [|lra].
      exfalso. apply Nab. apply (nth_inj act); auto.
Qed.

(** ** identify_active_rows *)
Lemma max_abs_diff_attained n h old : 
  (forall i, (i < n)%nat -> Rabs (h i - old i) <= max_abs_diff n h old) /\
  (max_abs_diff n h old = 0 \/ exists j, (j < n)%nat /\ max_abs_diff n h old = Rabs (h j - old j)).
Proof.
  induction n as [|n [I1 I2]]; simpl; [split; [intros; lia|auto]|].
  destruct (Rltb (max_abs_diff n h old) (Rabs (h n - old n))) eqn:E;
    [apply Rltb_true in E|apply Rltb_false in E]; split.
  - intros i Hi. destruct (Nat.eq_dec i n) as [->|]; [lra|]. specialize (I1 i ltac:(lia)). lra.
  - right. exists n. split; [lia|reflexivity].
  - intros i Hi. destruct (Nat.eq_dec i n) as [->|]; [lra|]. apply I1. lia.
  - destruct I2 as [I2|[j [J1 J2]]]; [auto|]. right. exists j. split; [lia|exact J2].
Qed.

Lemma active_rows_spec n h old C : 0 <= C ->
  let '(diff, rows, h') := identify_active_rows n h old C in
  (forall i, h' i = old i + diff i) /\
  rows = filter (fun i => negb (Reqb (diff i) 0)) (seq 0 n) /\
  (forall i, (i < n)%nat -> h' i = h i \/
     (h' i = old i /\ exists j, (j < n)%nat /\ (forall k, (k < n)%nat -> Rabs (h k - old k) <= Rabs (h j - old j))
        /\ Rabs (h' i - h i) < C * Rabs (h j - old j))) /\
  (C = 0 -> forall i, h' i = h i).
Proof.
  intros HC. unfold identify_active_rows. cbv zeta.
  destruct (max_abs_diff_attained n h old) as [M1 M2]. split; [|split; [reflexivity|split]].
  - intros i. destruct (Rltb _ _); ring.
  - intros i Hi. destruct (Rltb (Rabs (h i - old i)) (C * max_abs_diff n h old)) eqn:E; [|auto].
    apply Rltb_true in E. right. split; [reflexivity|].
    destruct M2 as [M2|[j [J1 J2]]].
    + exfalso. rewrite M2, Rmult_0_r in E. pose proof (Rabs_pos (h i - old i)). lra.
    + exists j. split; [exact J1|]. split.
      * intros k Hk. rewrite <- J2. apply M1. exact Hk.
      * rewrite <- J2. rewrite <- Rabs_Ropp. replace (- (old i - h i)) with (h i - old i) by ring. exact E.
  - intros -> i. destruct (Rltb _ _) eqn:E; [|reflexivity]. apply Rltb_true in E.
    rewrite Rmult_0_l in E. pose proof (Rabs_pos (h i - old i)). lra.
Qed.

(** ** one update *)
Definition hess_inv (pb : problem) (hinit : bool) (act : list nat) (hess : nat -> nat -> R)
    (old_h : nat -> R) (P2 : P2t) : Prop :=
  hinit = true -> forall i j, In i act -> In j act -> hess i j = exact_hessian pb old_h P2 i j.

(** what is known about the row weights used in place of the true ones *)
Definition rows_close (pb : problem) (h h' : nat -> R) (old_h : nat -> R) : Prop :=
  forall i, (i < pb_n pb)%nat -> h' i = h i \/
     (h' i = old_h i /\ exists j, (j < pb_n pb)%nat /\
        (forall k, (k < pb_n pb)%nat -> Rabs (h k - old_h k) <= Rabs (h j - old_h j))
        /\ Rabs (h' i - h i) < pb_approx pb * Rabs (h j - old_h j)).

Lemma update_hessian_spec pb hess hinit old_act act h old_h P2 : 0 <= pb_approx pb ->
  NoDup old_act -> act_ok pb act -> hess_inv pb hinit old_act hess old_h P2 ->
  let '(hess', h', Hact, _) := update_hessian pb hess hinit old_act act h old_h P2 in
  hess_inv pb true act hess' h' P2 /\
  (forall a b, (a < length act)%nat -> (b < length act)%nat ->
     Hact a b = exact_hessian pb h' P2 (nth a act 0%nat) (nth b act 0%nat)) /\
  rows_close pb h h' old_h /\ (pb_approx pb = 0 -> forall i, h' i = h i).
Proof.
  intros HC No HA Inv. unfold update_hessian.
  assert (ND : NoDup act) by apply HA.
  assert (RD : forall H0 h0, (forall i j, In i act -> In j act -> H0 i j = exact_hessian pb h0 P2 i j) ->
     forall a b, (a < length act)%nat -> (b < length act)%nat ->
     ix_read H0 act a b = exact_hessian pb h0 P2 (nth a act 0%nat) (nth b act 0%nat)).
  { intros H0 h0 HH a b Ha Hb. unfold ix_read. apply HH; apply nth_In; auto. }
  destruct (negb hinit || negb (is_subset old_act act)) eqn:E.
  - assert (K : forall i j, In i act -> In j act ->
      ix_assign hess act (build_hessian_delta pb h (Some P2) (seq 0 (pb_n pb)) act) i j = exact_hessian pb h P2 i j).
    { intros i j Hi Hj. unfold ix_assign.
      destruct (find_pos_in i act Hi) as [a Ea]. destruct (find_pos_in j act Hj) as [b Eb]. rewrite Ea, Eb.
      destruct (find_pos_spec _ _ _ Ea) as [A1 A2]. destruct (find_pos_spec _ _ _ Eb) as [B1 B2].
      rewrite build_delta_some by auto. rewrite A2, B2. reflexivity. }
    split; [intros _; exact K|]. split; [apply RD; exact K|]. split; [intros i _; auto|auto].
  - apply orb_false_iff in E. destruct E as [E1 E2]. apply negb_false_iff in E1, E2.
    pose proof (active_rows_spec (pb_n pb) h old_h (pb_approx pb) HC) as AR.
    destruct (identify_active_rows (pb_n pb) h old_h (pb_approx pb)) as [[diff rows] h'].
    destruct AR as [R1 [R2 [R3 R4]]].
    pose proof (is_subset_incl _ _ No E2) as Inc.
    assert (K : forall i j, In i act -> In j act ->
      ix_add hess act (build_hessian_delta pb diff None rows act) i j = exact_hessian pb h' P2 i j).
    { intros i j Hi Hj. unfold ix_add.
      destruct (find_pos_in i act Hi) as [a Ea]. destruct (find_pos_in j act Hj) as [b Eb]. rewrite Ea, Eb.
      destruct (find_pos_spec _ _ _ Ea) as [A1 A2]. destruct (find_pos_spec _ _ _ Eb) as [B1 B2].
      rewrite build_delta_none by auto. rewrite A2, B2.
      rewrite (Inv E1 i j) by auto. unfold exact_hessian.
      rewrite (rsum_ext _ (fun i0 => h' i0 * xt pb i0 i * xt pb i0 j)
        (fun i0 => old_h i0 * xt pb i0 i * xt pb i0 j + diff i0 * xt pb i0 i * xt pb i0 j)).
      - rewrite rsum_plus. lra.
      - intros r _. rewrite R1. ring. }
    split; [intros _; exact K|]. split; [apply RD; exact K|]. split; [exact R3|exact R4].
Qed.
