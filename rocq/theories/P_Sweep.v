(** C113: cyclic coordinate descent converges, with a rate. *)
From Coq Require Import List Lia Lra Arith Classical_Prop. Import ListNotations.
From Verif Require Import Base M_CD S_CD L_CD L_CDb L_KKT L_Score L_FitAll L_Exist P_CD S_Sweep.
Local Open Scope R_scope.

Definition res (a : cd_args) (w q : nat -> R) (k : nat) : R :=
  let i := nth k (cd_act a) 0%nat in
  Rabs (subgrad_term (w i) (q i) (pen_of (cd_ic a) (cd_P1 a) i) (bnd_of (cd_ic a) (cd_lb a) i) (bnd_of (cd_ic a) (cd_ub a) i)).

(** the minimum-norm subgradient is a nonexpansive function of the gradient *)
Lemma subgrad_lip x g g' p l u : 0 <= p -> Rabs (subgrad_term x g p l u) <= Rabs (subgrad_term x g' p l u) + Rabs (g - g').
Proof.
  intros Hp. unfold subgrad_term.
  set (t := fun g => if Reqb x 0 then fsign g * fmax (Rabs g - p) 0 else g + fsign x * p).
  assert (L : Rabs (t g - t g') <= Rabs (g - g')).
  { unfold t. destruct (Reqb x 0); [|right; f_equal; ring]. rewrite !fmax_Rmax.
    assert (S : forall h, fsign h * Rmax (Rabs h - p) 0 = Rmax (h - p) 0 + Rmin (h + p) 0).
    { intros h. destruct (fsign_cases h) as [[H ->] | [[H ->] | [H ->]]]; unfold Rabs, Rmax, Rmin; repeat (destruct Rcase_abs || destruct Rle_dec); lra. }
    rewrite !S. unfold Rabs, Rmax, Rmin; repeat (destruct Rcase_abs || destruct Rle_dec); lra. }
  change (if Reqb x 0 then fsign g * fmax (Rabs g - p) 0 else g + fsign x * p) with (t g).
  change (if Reqb x 0 then fsign g' * fmax (Rabs g' - p) 0 else g' + fsign x * p) with (t g').
  set (y := t g) in *. set (y' := t g') in *. cbv zeta.
  destruct (at_bound x l), (at_bound x u); cbn [andb];
    repeat match goal with |- context [Rltb ?p ?q] => let E := fresh in destruct (Rltb p q) eqn:E; [apply Rltb_true in E | apply Rltb_false in E] end;
    unfold Rabs in *; repeat destruct Rcase_abs; lra.
Qed.

(** the norm of the stopping test is at most the sum of the entries *)
Lemma norm_le a w q : forall act nm mx, 0 <= nm ->
  fst (norm_loop act w q (cd_P1 a) (cd_ic a) (cd_lb a) (cd_ub a) nm mx)
  <= nm + lsumf (fun i => Rabs (subgrad_term (w i) (q i) (pen_of (cd_ic a) (cd_P1 a) i) (bnd_of (cd_ic a) (cd_lb a) i) (bnd_of (cd_ic a) (cd_ub a) i))) act.
Proof.
  induction act as [|i act IH]; intros nm mx H; cbn [norm_loop]; [rewrite lsumf_nil; cbn [fst]; lra|]. rewrite lsumf_cons.
  destruct (Nat.ltb i (ioff (cd_ic a))) eqn:E.
  - apply Nat.ltb_lt in E. assert (cd_ic a = true /\ i = 0%nat) as [IC ->] by (revert E; unfold ioff; destruct (cd_ic a); intros E; [split; [reflexivity | lia] | lia]).
    assert (Z : subgrad_term (w 0%nat) (q 0%nat) (pen_of (cd_ic a) (cd_P1 a) 0) (bnd_of (cd_ic a) (cd_lb a) 0) (bnd_of (cd_ic a) (cd_ub a) 0) = q 0%nat) by (rewrite IC; apply subgrad_free).
    rewrite Z. pose proof (IH (Rabs (q 0%nat)) (Some (Rabs (q 0%nat))) (Rabs_pos _)) as I0. lra.
  - apply Nat.ltb_ge in E. eapply Rle_trans; [apply IH; apply Rplus_le_le_0_compat; [exact H | apply Rabs_pos]|].
    assert (EQ : forall A (b : nat -> A), b (i - ioff (cd_ic a))%nat = match cd_ic a, i with true, O => b 0%nat | true, S j => b j | false, j => b j end).
    { intros A b. unfold ioff. destruct (cd_ic a), i; try reflexivity; cbn; rewrite ?Nat.sub_0_r; reflexivity. }
    right. rewrite (EQ _ (cd_P1 a)), (EQ _ (cd_lb a)), (EQ _ (cd_ub a)). revert E. unfold ioff. destruct (cd_ic a), i; cbn [pen_of bnd_of]; intros E; try lia; ring.
Qed.
Lemma norm_ge0 a w q : forall act nm mx, 0 <= nm -> 0 <= fst (norm_loop act w q (cd_P1 a) (cd_ic a) (cd_lb a) (cd_ub a) nm mx).
Proof.
  induction act as [|i act IH]; intros nm mx H; cbn [norm_loop]; [exact H|]. destruct (Nat.ltb i (ioff (cd_ic a))); apply IH; [apply Rabs_pos|].
  apply Rplus_le_le_0_compat; [exact H | apply Rabs_pos].
Qed.
Lemma sum_le_count (f : nat -> R) c act : (forall i, In i act -> f i <= c) -> lsumf f act <= INR (length act) * c.
Proof.
  induction act as [|i act IH]; intros H; [rewrite lsumf_nil; cbn; lra|]. rewrite lsumf_cons. cbn [length]. rewrite S_INR.
  pose proof (H i (or_introl eq_refl)). assert (lsumf f act <= INR (length act) * c) by (apply IH; intros; apply H; right; assumption). lra.
Qed.
Lemma kkt_le a v c : (forall k, (k < length (cd_act a))%nat -> res a (fst v) (snd v) k <= c) -> kkt_norm a v <= INR (length (cd_act a)) * c.
Proof.
  intros H. unfold kkt_norm, norm_min_subgrad. eapply Rle_trans; [apply norm_le; lra|]. rewrite Rplus_0_l. apply sum_le_count.
  intros i Hi. destruct (In_nth _ _ 0%nat Hi) as [k [Hk E]]. specialize (H k Hk). unfold res in H. cbv zeta in H. rewrite E in H. exact H.
Qed.

Section Sweep.
Variables (a : cd_args) (mu B : R) (w0 q0 : nat -> R).
Hypothesis HC : cyclic a mu B.
Let n := length (cd_act a).
Let F := cd_model a w0 q0.
Lemma Bpos : (0 < n)%nat -> 0 <= B.
Proof. intros H. destruct HC as (_ & _ & _ & _ & _ & _ & HB). eapply Rle_trans; [apply Rabs_pos | apply (HB 0%nat 0%nat); exact H]. Qed.
Lemma sw_wf : wf_args a.
Proof. destruct HC as (_ & H1 & H2 & H3 & H4 & _). split; [exact H1|]. split; [exact H2|]. split; [lra | exact H3]. Qed.
Definition good (s : cd_state) : Prop :=
  (forall l, (l < n)%nat -> cs_q s (nth l (cd_act a) 0%nat) = quad_grad (cd_act a) (cd_Q a) q0 w0 (cs_w s) l) /\ cd_feasible a (cs_w s).
Lemma visit_good s k : (k < n)%nat -> good s ->
  let s' := cd_visit a k s in
  good s' /\ 0 <= Rabs (cs_w s' (nth k (cd_act a) 0%nat) - cs_w s (nth k (cd_act a) 0%nat)) <= cs_dwmax s' /\ cs_dwmax s <= cs_dwmax s' /\
  F (cs_w s') + mu / 2 * cs_dwmax s' ^ 2 <= F (cs_w s) + mu / 2 * Rmax 0 (cs_dwmax s) ^ 2 /\
  res a (cs_w s') (cs_q s') k = 0 /\
  (forall l, (l < n)%nat -> l <> k -> res a (cs_w s') (cs_q s') l <= res a (cs_w s) (cs_q s) l + B * cs_dwmax s').
Proof.
  intros Hk [G1 G2] s'. pose proof HC as (HR & ND & Sy & HP & He & HD & HB). pose proof sw_wf as WF.
  set (i := nth k (cd_act a) 0%nat) in *. assert (In i (cd_act a)) as Ii by (apply nth_In; exact Hk).
  assert (QE : cd_eps a < cd_Q a k k) by (specialize (HD k Hk); lra).
  destruct (visit_exact a w0 q0 s k WF Hk (G1 k Hk) QE (G2 i Ii)) as (V1 & V2 & V3). fold s' in V1, V2, V3. fold i in V1, V2, V3.
  pose proof (visit_q a w0 q0 s k WF Hk G1) as V4. fold s' in V4.
  assert (GS : good s').
  { split; [exact V4|]. intros j Hj. destruct (Nat.eq_dec j i) as [->|Nj]; [exact V1|]. rewrite (V2 j Nj). apply G2, Hj. }
  set (d := cs_w s' i - cs_w s i).
  assert (DM : cs_dwmax s' = Rmax (cs_dwmax s) (Rabs d)).
  { assert (E : Rleb (cd_Q a k k) (cd_eps a) = false) by (apply not_true_is_false; intros X; apply Rleb_true in X; lra).
    unfold d, s', cd_visit. rewrite E. cbv zeta. cbn [cs_dwmax cs_w]. fold i. rewrite upd_same.
    match goal with |- context [Rltb ?p ?q] => destruct (Rltb p q) eqn:X; [apply Rltb_true in X; rewrite Rmax_right by lra | apply Rltb_false in X; rewrite Rmax_left by lra] end; reflexivity. }
  pose proof (Rmax_l (cs_dwmax s) (Rabs d)) as M1. pose proof (Rmax_r (cs_dwmax s) (Rabs d)) as M2. rewrite <- DM in M1, M2. pose proof (Rabs_pos d) as PD.
  assert (W : forall j, cs_w s' j = subst1 (cs_w s) i (cs_w s' i) j).
  { intros j. unfold subst1. destruct (Nat.eqb_spec j i) as [->|Nj]; [reflexivity | apply V2, Nj]. }
  assert (GRD : forall l, (l < n)%nat -> cs_q s' (nth l (cd_act a) 0%nat) = cs_q s (nth l (cd_act a) 0%nat) + d * cd_Q a k l).
  { intros l Hl. rewrite V4, G1 by exact Hl. transitivity (quad_grad (cd_act a) (cd_Q a) q0 w0 (subst1 (cs_w s) (nth k (cd_act a) 0%nat) (cs_w s' i)) l).
    - unfold quad_grad. cbv zeta. f_equal. apply rsum_ext. intros j _. rewrite W. reflexivity.
    - rewrite quad_grad_subst by assumption. reflexivity. }
  split; [exact GS|]. split; [split; [exact PD | exact M2]|]. split; [exact M1|]. split.
  { specialize (V3 (cs_w s i) (G2 i Ii)).
    assert (Z : quad_model (cd_act a) (cd_Q a) q0 (pen a) w0 (subst1 (cs_w s) i (cs_w s i)) = F (cs_w s)).
    { unfold F, cd_model. unfold quad_model. cbv zeta. assert (E : forall j, subst1 (cs_w s) i (cs_w s i) j = cs_w s j) by (intros j; unfold subst1; destruct (Nat.eqb_spec j i) as [->|]; reflexivity).
      f_equal; [f_equal|].
      - apply rsum_ext; intros j _; rewrite E; reflexivity.
      - f_equal. apply rsum_ext; intros j _. apply rsum_ext; intros l _. rewrite !E. reflexivity.
      - apply rsum_ext; intros j _; rewrite E; reflexivity. }
    rewrite Z in V3. change (quad_model (cd_act a) (cd_Q a) q0 (pen a) w0 (cs_w s')) with (F (cs_w s')) in V3.
    specialize (HD k Hk). replace ((cs_w s i - cs_w s' i) * (cs_w s i - cs_w s' i)) with (Rabs d ^ 2) in V3 by (rewrite RPow_abs, Rabs_pos_eq by apply pow2_ge_0; unfold d; ring).
    assert (SQ : mu / 2 * cs_dwmax s' ^ 2 <= mu / 2 * Rmax 0 (cs_dwmax s) ^ 2 + cd_Q a k k / 2 * Rabs d ^ 2); [|lra].
    pose proof (pow2_ge_0 (Rabs d)) as N1. pose proof (pow2_ge_0 (Rmax 0 (cs_dwmax s))) as N2.
    rewrite DM. destruct (Rle_dec (cs_dwmax s) (Rabs d)) as [L|L].
    - rewrite Rmax_right by exact L. assert (mu / 2 * Rabs d ^ 2 <= cd_Q a k k / 2 * Rabs d ^ 2) by (apply Rmult_le_compat_r; lra).
      assert (0 <= mu / 2 * Rmax 0 (cs_dwmax s) ^ 2) by (apply Rmult_le_pos; lra). lra.
    - rewrite Rmax_left by lra. rewrite Rmax_right by lra. assert (0 <= cd_Q a k k / 2 * Rabs d ^ 2) by (apply Rmult_le_pos; lra). lra. }
  assert (PN : forall j, 0 <= pen_of (cd_ic a) (cd_P1 a) j) by (intros j; unfold pen_of; destruct (cd_ic a), j; auto; lra).
  split.
  { unfold res. fold i. cbv zeta. rewrite term_zero_of_stationary; [apply Rabs_R0 | apply PN | exact V1|].
    intros t Ht. specialize (V3 t Ht). assert (Q1 : subst1 (cs_w s) i t = subst1 (cs_w s) i t) by reflexivity. clear Q1.
    assert (Z : quad_model (cd_act a) (cd_Q a) q0 (pen a) w0 (subst1 (cs_w s) i t) = quad_model (cd_act a) (cd_Q a) q0 (pen a) w0 (subst1 (cs_w s') i t)).
    { unfold quad_model. cbv zeta. assert (E : forall j, subst1 (cs_w s) i t j = subst1 (cs_w s') i t j) by (intros j; unfold subst1; destruct (Nat.eqb_spec j i); [reflexivity | symmetry; apply V2; assumption]).
      f_equal; [f_equal|].
      - apply rsum_ext; intros j _; rewrite E; reflexivity.
      - f_equal. apply rsum_ext; intros j _. apply rsum_ext; intros l _. rewrite !E. reflexivity.
      - apply rsum_ext; intros j _; rewrite E; reflexivity. }
    rewrite Z in V3. unfold i in V3. rewrite quad_model_subst in V3 by auto. fold i in V3. rewrite <- V4 in V3 by exact Hk. fold i in V3. unfold pen in V3. lra. }
  intros l Hl Nl. unfold res. cbv zeta. set (j := nth l (cd_act a) 0%nat). assert (Nj : j <> i) by (intros E; apply Nl; apply (nth_inj (cd_act a)); auto).
  rewrite (V2 j Nj). eapply Rle_trans; [apply (subgrad_lip _ _ (cs_q s j)); apply PN|]. apply Rplus_le_compat_l. unfold j. rewrite GRD by exact Hl.
  replace (_ + _ - _) with (d * cd_Q a k l) by ring. rewrite Rabs_mult, Rmult_comm. apply Rmult_le_compat; try apply Rabs_pos; [apply HB; assumption | exact M2].
Qed.
Lemma sweep_good : forall m f seed s, (f + m = n)%nat -> good s -> 0 <= cs_dwmax s ->
  let s' := snd (cd_sweep a m f seed s) in
  good s' /\ cs_dwmax s <= cs_dwmax s' /\ F (cs_w s') + mu / 2 * cs_dwmax s' ^ 2 <= F (cs_w s) + mu / 2 * cs_dwmax s ^ 2 /\
  forall k, (k < n)%nat -> ((k < f)%nat -> res a (cs_w s') (cs_q s') k <= res a (cs_w s) (cs_q s) k + INR m * (B * cs_dwmax s')) /\
    ((f <= k)%nat -> res a (cs_w s') (cs_q s') k <= INR m * (B * cs_dwmax s')).
Proof.
  pose proof HC as (HR & _). induction m as [|m IH]; intros f seed s E G D0 s'.
  - unfold s'. cbn [cd_sweep snd]. split; [exact G|]. split; [lra|]. split; [lra|]. intros k Hk. split; intros H; [cbn [INR]; lra | lia].
  - unfold s'. cbn [cd_sweep]. rewrite HR. destruct (visit_good s f ltac:(lia) G) as (G1 & D1 & M1 & F1 & Z1 & R1). rewrite Rmax_right in F1 by exact D0.
    set (s1 := cd_visit a f s) in *. specialize (IH (S f) seed s1 ltac:(lia) G1 ltac:(lra)). cbv zeta in IH. set (s2 := snd (cd_sweep a m (S f) seed s1)) in *.
    destruct IH as (G2 & M2 & F2 & R2). pose proof (Bpos ltac:(lia)) as BP.
    split; [exact G2|]. split; [lra|]. split; [lra|]. intros k Hk. destruct (R2 k Hk) as [Ra Rb]. rewrite S_INR.
    assert (LE : B * cs_dwmax s1 <= B * cs_dwmax s2) by (apply Rmult_le_compat_l; assumption).
    assert (BB : 0 <= B * cs_dwmax s2) by (apply Rmult_le_pos; lra).
    split; intros H.
    + specialize (Ra ltac:(lia)). specialize (R1 k Hk ltac:(lia)). lra.
    + destruct (Nat.eq_dec k f) as [->|Nk]; [specialize (Ra ltac:(lia)); lra|]. specialize (Rb ltac:(lia)). lra.
Qed.
Hypothesis Hfeas : cd_feasible a w0.
Definition st (v : (nat -> R) * (nat -> R)) : cd_state := mkCS (fst v) (snd v) 0 0.
Definition moved (j : nat) : R := cs_dwmax (snd (cd_sweep a n 0 0%N (st (sweeps a j w0 q0)))).
Lemma sweeps_good j : good (st (sweeps a j w0 q0)) /\ 0 <= moved j /\
  F (fst (sweeps a (S j) w0 q0)) + mu / 2 * moved j ^ 2 <= F (fst (sweeps a j w0 q0)) /\
  (forall k, (k < n)%nat -> res a (fst (sweeps a (S j) w0 q0)) (snd (sweeps a (S j) w0 q0)) k <= INR n * (B * moved j)).
Proof.
  assert (G : good (st (sweeps a j w0 q0))).
  { induction j as [|j IH].
    - split; [|exact Hfeas]. intros l Hl. cbn. symmetry. unfold quad_grad. cbv zeta. rewrite rsum_zero; [ring | intros; ring].
    - destruct (sweep_good n 0 0%N _ ltac:(lia) IH (Rle_refl 0)) as (G & _). exact G. }
  split; [exact G|]. destruct (sweep_good n 0 0%N _ ltac:(lia) G (Rle_refl 0)) as (_ & M & FF & RR). cbn [cs_dwmax st] in M, FF.
  split; [exact M|]. split.
  - unfold moved. eapply Rle_trans; [exact FF|]. cbn [cs_w st]. right. ring.
  - intros k Hk. apply (proj2 (RR k Hk)). lia.
Qed.
Lemma sweeps_feasible j : cd_feasible a (fst (sweeps a j w0 q0)).
Proof. destruct (sweeps_good j) as [[_ G] _]. exact G. Qed.
Lemma sweeps_kkt j : kkt_norm a (sweeps a (S j) w0 q0) <= INR n * (INR n * (B * moved j)).
Proof. destruct (sweeps_good j) as (_ & _ & _ & H). apply kkt_le. exact H. Qed.
Lemma moved_sum m : F (fst (sweeps a m w0 q0)) + mu / 2 * rsum m (fun j => moved j ^ 2) <= F w0.
Proof.
  induction m as [|m IH]; [cbn; lra|]. destruct (sweeps_good m) as (_ & _ & H & _). change (rsum (S m) (fun j => moved j ^ 2)) with (rsum m (fun j => moved j ^ 2) + moved m ^ 2). lra.
Qed.
End Sweep.

Lemma kkt_nonneg a v : 0 <= kkt_norm a v.
Proof. apply norm_ge0. lra. Qed.
(** C113: the squares of the stopping quantity after the sweeps sum to at most this. *)
Theorem C113_rate : forall a mu B w0 q0 L m, cyclic a mu B -> cd_feasible a w0 -> (forall v, cd_feasible a v -> L <= cd_model a w0 q0 v) ->
  mu * rsum m (fun j => kkt_norm a (sweeps a (S j) w0 q0) ^ 2) <= 2 * INR (length (cd_act a)) ^ 4 * B ^ 2 * (cd_model a w0 q0 w0 - L).
Proof.
  intros a mu B w0 q0 L m HC HF HL. pose proof (moved_sum a mu B w0 q0 HC HF m) as S1. pose proof (HL _ (sweeps_feasible a mu B w0 q0 HC HF m)) as L1.
  assert (MU : 0 < mu) by (destruct HC as (_ & _ & _ & _ & H & _); lra).
  set (N := INR (length (cd_act a))) in *. assert (N0 : 0 <= N) by apply pos_INR.
  apply Rle_trans with (mu * (N ^ 4 * B ^ 2 * rsum m (fun j => moved a w0 q0 j ^ 2))).
  - apply Rmult_le_compat_l; [lra|]. rewrite <- rsum_scal. apply rsum_le. intros j _.
    pose proof (sweeps_kkt a mu B w0 q0 HC HF j) as K. fold N in K. pose proof (kkt_nonneg a (sweeps a (S j) w0 q0)) as K0.
    replace (N ^ 4 * B ^ 2 * moved a w0 q0 j ^ 2) with ((N * (N * (B * moved a w0 q0 j))) ^ 2) by ring. apply pow_incr. split; assumption.
  - replace (mu * (N ^ 4 * B ^ 2 * rsum m (fun j => moved a w0 q0 j ^ 2))) with (2 * N ^ 4 * B ^ 2 * (mu / 2 * rsum m (fun j => moved a w0 q0 j ^ 2))) by field.
    apply Rmult_le_compat_l; [|lra]. apply Rmult_le_pos; [|apply pow2_ge_0]. apply Rmult_le_pos; [lra | apply pow_le, N0].
Qed.
Print Assumptions C113_rate.
(** hence among the first m sweeps there is one after which it is of order 1 / sqrt m *)
Theorem C113_best : forall a mu B w0 q0 L m, cyclic a mu B -> cd_feasible a w0 -> (forall v, cd_feasible a v -> L <= cd_model a w0 q0 v) -> (1 <= m)%nat ->
  exists j, (1 <= j <= m)%nat /\ mu * INR m * kkt_norm a (sweeps a j w0 q0) ^ 2 <= 2 * INR (length (cd_act a)) ^ 4 * B ^ 2 * (cd_model a w0 q0 w0 - L).
Proof.
  intros a mu B w0 q0 L m HC HF HL Hm. pose proof (C113_rate a mu B w0 q0 L m HC HF HL) as R0. set (C := 2 * _ * _ * _) in *.
  assert (MU : 0 < mu) by (destruct HC as (_ & _ & _ & _ & H & _); lra).
  apply NNPP. intros N. assert (X : forall j, (j < m)%nat -> C / (mu * INR m) < kkt_norm a (sweeps a (S j) w0 q0) ^ 2).
  { intros j Hj. apply Rnot_le_lt. intros Q. apply N. exists (S j). split; [lia|]. assert (0 < INR m) by (apply lt_0_INR; lia).
    apply Rle_trans with (mu * INR m * (C / (mu * INR m))); [apply Rmult_le_compat_l; [apply Rmult_le_pos; lra | exact Q] | right; field; split; lra]. }
  assert (PM : 0 < INR m) by (apply lt_0_INR; lia).
  assert (Y : INR m * (C / (mu * INR m)) < rsum m (fun j => kkt_norm a (sweeps a (S j) w0 q0) ^ 2)).
  { revert X. generalize (C / (mu * INR m)) as c. clear - Hm. intros c X. destruct m as [|m]; [lia|]. clear Hm.
    induction m as [|m IH]; [cbn [INR rsum]; specialize (X 0%nat ltac:(lia)); lra|].
    specialize (IH ltac:(intros; apply X; lia)). specialize (X (S m) ltac:(lia)). rewrite S_INR.
    change (rsum (S (S m)) (fun j => kkt_norm a (sweeps a (S j) w0 q0) ^ 2)) with (rsum (S m) (fun j => kkt_norm a (sweeps a (S j) w0 q0) ^ 2) + kkt_norm a (sweeps a (S (S m)) w0 q0) ^ 2). lra. }
  assert (Z : mu * (INR m * (C / (mu * INR m))) = C) by (field; lra).
  assert (mu * (INR m * (C / (mu * INR m))) < mu * rsum m (fun j => kkt_norm a (sweeps a (S j) w0 q0) ^ 2)) by (apply Rmult_lt_compat_l; assumption). lra.
Qed.
Print Assumptions C113_best.

Lemma summable_vanishes (f : nat -> R) C : (forall j, 0 <= f j) -> (forall m, rsum m f <= C) -> forall e, 0 < e -> exists N, forall j, (N <= j)%nat -> f j <= e.
Proof.
  intros Hf HS e He. destruct (completeness (fun x => exists m, x = rsum m f)) as [S0 [U Lb]].
  { exists C. intros x [m ->]. apply HS. } { exists 0, 0%nat. reflexivity. }
  assert (A : exists m, S0 - e < rsum m f).
  { apply NNPP. intros N. assert (is_upper_bound (fun x => exists m, x = rsum m f) (S0 - e)).
    { intros x [m ->]. apply Rnot_lt_le. intros Q. apply N. exists m. exact Q. }
    specialize (Lb _ H). lra. }
  destruct A as [N HN]. exists N. intros j Hj. assert (T : rsum (S j) f <= S0) by (apply U; exists (S j); reflexivity).
  assert (Mo : forall k, rsum N f <= rsum (N + k) f).
  { induction k as [|k IH]; [rewrite Nat.add_0_r; lra|]. rewrite Nat.add_succ_r. cbn [rsum]. specialize (Hf (N + k)%nat). lra. }
  specialize (Mo (j - N)%nat). replace (N + (j - N))%nat with j in Mo by lia. cbn [rsum] in T. lra.
Qed.
(** C113: the stopping quantity tends to zero. *)
Theorem C113_vanishes : forall a mu B w0 q0 L, cyclic a mu B -> cd_feasible a w0 -> (forall v, cd_feasible a v -> L <= cd_model a w0 q0 v) ->
  forall e, 0 < e -> exists N, forall j, (N <= j)%nat -> kkt_norm a (sweeps a j w0 q0) <= e.
Proof.
  intros a mu B w0 q0 L HC HF HL e He. assert (MU : 0 < mu) by (destruct HC as (_ & _ & _ & _ & H & _); lra).
  destruct (summable_vanishes (fun j => kkt_norm a (sweeps a (S j) w0 q0) ^ 2) (/ mu * (2 * INR (length (cd_act a)) ^ 4 * B ^ 2 * (cd_model a w0 q0 w0 - L)))) with (e := e ^ 2) as [N HN].
  - intros; apply pow2_ge_0.
  - intros m. pose proof (C113_rate a mu B w0 q0 L m HC HF HL) as R0. apply Rmult_le_reg_l with mu; [exact MU|]. rewrite <- Rmult_assoc, Rinv_r, Rmult_1_l by lra. exact R0.
  - apply pow_lt, He.
  - exists (S N). intros j Hj. destruct j as [|j]; [lia|]. specialize (HN j ltac:(lia)). cbv beta in HN. pose proof (kkt_nonneg a (sweeps a (S j) w0 q0)).
    apply Rnot_lt_le. intros Q. assert (e ^ 2 < kkt_norm a (sweeps a (S j) w0 q0) ^ 2) by nra. lra.
Qed.
Print Assumptions C113_vanishes.

(** the call with limit N goes through the sweeps *)
Lemma sweep_limit a N : cd_random a = false -> forall m f seed seed' s, snd (cd_sweep (with_limit a N) m f seed s) = snd (cd_sweep a m f seed' s).
Proof.
  intros HR. induction m as [|m IH]; intros f seed seed' s; [reflexivity|]. cbn [cd_sweep with_limit cd_random]. rewrite HR.
  change (cd_visit (with_limit a N) f s) with (cd_visit a f s). apply (IH (S f) seed seed').
Qed.
Lemma loop_stops a N w0 q0 : cd_random a = false -> forall m j i seed nm, (1 <= m)%nat -> kkt_norm a (sweeps a (j + m) w0 q0) <= cd_tol a ->
  cr_warn (cd_loop (with_limit a N) m i seed nm (fst (sweeps a j w0 q0)) (snd (sweeps a j w0 q0))) = false.
Proof.
  intros HR. induction m as [|m IH]; intros j i seed nm Hm HK; [lia|]. cbn [cd_loop].
  pose proof (sweep_limit a N HR (length (cd_act (with_limit a N))) 0 seed 0%N (mkCS (fst (sweeps a j w0 q0)) (snd (sweeps a j w0 q0)) 0 0)) as E.
  destruct (cd_sweep (with_limit a N) (length (cd_act (with_limit a N))) 0 seed _) as [seed1 s1]. cbn [snd] in E. change (cd_act (with_limit a N)) with (cd_act a) in *.
  assert (V : sweeps a (S j) w0 q0 = (cs_w s1, cs_q s1)) by (cbn [sweeps]; unfold one_sweep; rewrite <- E; reflexivity).
  assert (NEXT : forall nm', (1 <= m)%nat -> cr_warn (cd_loop (with_limit a N) m (S i) seed1 nm' (cs_w s1) (cs_q s1)) = false).
  { intros nm' Hm'. pose proof (IH (S j) (S i) seed1 nm' Hm') as T. rewrite V in T. cbn [fst snd] in T. apply T. replace (S j + m)%nat with (j + S m)%nat by lia. exact HK. }
  destruct m as [|m].
  - rewrite Nat.eqb_refl, orb_true_r. replace (j + 1)%nat with (S j) in HK by lia. rewrite V in HK. unfold kkt_norm in HK. cbn [fst snd] in HK.
    change (fst (norm_min_subgrad (cd_act a) (cs_w s1) (cs_q s1) (cd_P1 (with_limit a N)) (cd_ic (with_limit a N)) (cd_lb (with_limit a N)) (cd_ub (with_limit a N))))
      with (fst (norm_min_subgrad (cd_act a) (cs_w s1) (cs_q s1) (cd_P1 a) (cd_ic a) (cd_lb a) (cd_ub a))).
    change (cd_tol (with_limit a N)) with (cd_tol a). apply Rleb_true in HK. rewrite HK. reflexivity.
  - destruct (_ || _ || _); [|apply NEXT; lia]. destruct (Rleb _ _); [reflexivity | apply NEXT; lia].
Qed.
(** C113: with a large enough limit the call ends without a convergence warning, for every tolerance. *)
Theorem C113_terminates : forall a mu B w0 q0 L seed, cyclic a mu B -> cd_feasible a w0 -> (forall v, cd_feasible a v -> L <= cd_model a w0 q0 v) ->
  0 < cd_tol a -> exists N0, forall N, (N0 <= N)%nat -> cr_warn (enet_coordinate_descent_gram (with_limit a N) seed w0 q0) = false.
Proof.
  intros a mu B w0 q0 L seed HC HF HL HT. destruct (C113_vanishes a mu B w0 q0 L HC HF HL (cd_tol a) HT) as [N0 HN]. exists (S N0). intros N Hn.
  unfold enet_coordinate_descent_gram. change (cd_max_iter (with_limit a N)) with N. apply (loop_stops a N w0 q0 (proj1 HC) N 0 0 seed 0); [lia|]. apply HN. lia.
Qed.
Print Assumptions C113_terminates.

(** the model around another point *)
Lemma model_expand S H g0 p w0 w v : symmetric (length S) H ->
  quad_model S H g0 p w0 v = quad_model S H g0 p w0 w
   + rsum (length S) (fun k => quad_grad S H g0 w0 w k * (v (nth k S 0%nat) - w (nth k S 0%nat)) + p (nth k S 0%nat) * (Rabs (v (nth k S 0%nat)) - Rabs (w (nth k S 0%nat))))
   + / 2 * rsum (length S) (fun k => rsum (length S) (fun l => (v (nth k S 0%nat) - w (nth k S 0%nat)) * H k l * (v (nth l S 0%nat) - w (nth l S 0%nat)))).
Proof.
  intros Sy. unfold quad_model, quad_grad. cbv zeta. set (n := length S) in *.
  set (x := fun k => w (nth k S 0%nat) - w0 (nth k S 0%nat)). set (b := fun k => v (nth k S 0%nat) - w (nth k S 0%nat)).
  assert (E : forall k, v (nth k S 0%nat) - w0 (nth k S 0%nat) = x k + b k) by (intros; unfold x, b; ring).
  assert (Q : rsum n (fun k => rsum n (fun l => (v (nth k S 0%nat) - w0 (nth k S 0%nat)) * H k l * (v (nth l S 0%nat) - w0 (nth l S 0%nat))))
    = rsum n (fun k => rsum n (fun l => x k * H k l * x l)) + 2 * rsum n (fun k => rsum n (fun l => x l * H l k) * b k) + rsum n (fun k => rsum n (fun l => b k * H k l * b l))).
  { assert (S1 : rsum n (fun k => rsum n (fun l => x k * H k l * b l)) = rsum n (fun k => rsum n (fun l => x l * H l k) * b k)).
    { rewrite rsum_swap. apply rsum_ext. intros k _. rewrite <- rsum_scal_r. apply rsum_ext. intros l _. ring. }
    assert (S2 : rsum n (fun k => rsum n (fun l => b k * H k l * x l)) = rsum n (fun k => rsum n (fun l => x l * H l k) * b k)).
    { apply rsum_ext. intros k Hk. rewrite <- rsum_scal_r. apply rsum_ext. intros l Hl. rewrite (Sy k l Hk Hl). ring. }
    replace (2 * rsum n (fun k => rsum n (fun l => x l * H l k) * b k)) with (rsum n (fun k => rsum n (fun l => x k * H k l * b l)) + rsum n (fun k => rsum n (fun l => b k * H k l * x l))) by (rewrite S1, S2; ring).
    rewrite <- !rsum_plus. apply rsum_ext. intros k _. rewrite <- !rsum_plus. apply rsum_ext. intros l _. rewrite !E. ring. }
  rewrite Q. rewrite (rsum_ext n (fun k => g0 (nth k S 0%nat) * (v (nth k S 0%nat) - w0 (nth k S 0%nat))) (fun k => g0 (nth k S 0%nat) * x k + g0 (nth k S 0%nat) * b k)) by (intros; rewrite E; ring).
  rewrite rsum_plus. rewrite (rsum_ext n (fun k => p (nth k S 0%nat) * Rabs (v (nth k S 0%nat))) (fun k => p (nth k S 0%nat) * Rabs (w (nth k S 0%nat)) + p (nth k S 0%nat) * (Rabs (v (nth k S 0%nat)) - Rabs (w (nth k S 0%nat))))) by (intros; ring).
  rewrite rsum_plus. rewrite (rsum_ext n (fun k => (g0 (nth k S 0%nat) + rsum n (fun l => (w (nth l S 0%nat) - w0 (nth l S 0%nat)) * H l k)) * (v (nth k S 0%nat) - w (nth k S 0%nat)) + p (nth k S 0%nat) * (Rabs (v (nth k S 0%nat)) - Rabs (w (nth k S 0%nat))))
    (fun k => g0 (nth k S 0%nat) * b k + rsum n (fun l => x l * H l k) * b k + p (nth k S 0%nat) * (Rabs (v (nth k S 0%nat)) - Rabs (w (nth k S 0%nat))))) by (intros; unfold x, b; ring).
  rewrite !rsum_plus. unfold x, b. field.
Qed.
Lemma definite_below a w0 q0 m : (forall j, 0 <= cd_P1 a j) -> definite a m -> exists L, forall v, L <= cd_model a w0 q0 v.
Proof.
  intros HP [Hm HD]. set (n := length (cd_act a)).
  exists (rsum n (fun k => - (q0 (nth k (cd_act a) 0%nat) ^ 2 / (2 * m)))). intros v. unfold cd_model, quad_model. cbv zeta. fold n.
  set (d := fun k => v (nth k (cd_act a) 0%nat) - w0 (nth k (cd_act a) 0%nat)). specialize (HD d). fold n in HD.
  assert (P : 0 <= rsum n (fun k => pen_of (cd_ic a) (cd_P1 a) (nth k (cd_act a) 0%nat) * Rabs (v (nth k (cd_act a) 0%nat)))).
  { apply rsum_nonneg. intros k _. apply Rmult_le_pos; [|apply Rabs_pos]. unfold pen_of. destruct (cd_ic a), (nth k (cd_act a) 0%nat); auto; lra. }
  assert (X : rsum n (fun k => - (q0 (nth k (cd_act a) 0%nat) ^ 2 / (2 * m))) <= rsum n (fun k => q0 (nth k (cd_act a) 0%nat) * d k + / 2 * m * d k ^ 2)).
  { apply rsum_le. intros k _. set (g := q0 _). assert (0 <= (m * d k + g) ^ 2 / (2 * m)) by (apply Rmult_le_pos; [apply pow2_ge_0 | left; apply Rinv_0_lt_compat; lra]).
    replace (g * d k + / 2 * m * d k ^ 2) with ((m * d k + g) ^ 2 / (2 * m) - g ^ 2 / (2 * m)) by (field; lra). lra. }
  rewrite rsum_plus, rsum_scal in X. change (rsum n (fun k => q0 (nth k (cd_act a) 0%nat) * d k)) with (rsum n (fun k => q0 (nth k (cd_act a) 0%nat) * (v (nth k (cd_act a) 0%nat) - w0 (nth k (cd_act a) 0%nat)))) in X.
  change (rsum n (fun k => rsum n (fun l => d k * cd_Q a k l * d l))) with (rsum n (fun k => rsum n (fun l => (v (nth k (cd_act a) 0%nat) - w0 (nth k (cd_act a) 0%nat)) * cd_Q a k l * (v (nth l (cd_act a) 0%nat) - w0 (nth l (cd_act a) 0%nat))))) in HD.
  lra.
Qed.
Lemma argmax n (f : nat -> R) : (0 < n)%nat -> exists k, (k < n)%nat /\ forall i, (i < n)%nat -> f i <= f k.
Proof.
  induction n as [|n IH]; [lia|]. intros _. destruct n as [|n].
  - exists 0%nat. split; [lia|]. intros i Hi. replace i with 0%nat by lia. lra.
  - destruct (IH ltac:(lia)) as [k [Hk H]]. destruct (Rle_dec (f (S n)) (f k)) as [L|L].
    + exists k. split; [lia|]. intros i Hi. destruct (Nat.eq_dec i (S n)) as [->|]; [exact L|apply H; lia].
    + exists (S n). split; [lia|]. intros i Hi. destruct (Nat.eq_dec i (S n)) as [->|]; [lra|]. specialize (H i ltac:(lia)). lra.
Qed.
(** C113: with a positive definite matrix the iterates converge to the minimiser of the model. *)
Theorem C113_converges : forall a mu B m w0 q0 v, cyclic a mu B -> definite a m -> cd_feasible a w0 -> cd_minimiser a w0 q0 v ->
  forall e, 0 < e -> exists N, forall j, (N <= j)%nat -> forall i, In i (cd_act a) -> Rabs (fst (sweeps a j w0 q0) i - v i) <= e.
Proof.
  intros a mu B m w0 q0 v HC [Hm HD] HF [VF VM] e He. pose proof HC as (HR & ND & Sy & HP & HE & HQ & HB).
  set (n := length (cd_act a)). assert (N0 : 0 <= INR n) by apply pos_INR.
  destruct (definite_below a w0 q0 m HP (conj Hm HD)) as [L HL].
  assert (MS : forall k, mu / 2 * rsum k (fun j => moved a w0 q0 j ^ 2) <= cd_model a w0 q0 w0 - L).
  { intros k. pose proof (moved_sum a mu B w0 q0 HC HF k). pose proof (HL (fst (sweeps a k w0 q0))). lra. }
  set (c := INR n * (INR n * B)).
  assert (B0 : (0 < n)%nat -> 0 <= B) by (intros H; apply (Bpos a mu B HC H)).
  set (e1 := m * e / (2 * (Rabs c + 1))). assert (C1 : 0 < Rabs c + 1) by (pose proof (Rabs_pos c); lra).
  assert (E1 : 0 < e1) by (apply Rmult_lt_0_compat; [apply Rmult_lt_0_compat; assumption | apply Rinv_0_lt_compat; lra]).
  destruct (summable_vanishes (fun j => moved a w0 q0 j ^ 2) (2 / mu * (cd_model a w0 q0 w0 - L))) with (e := e1 ^ 2) as [N HN].
  { intros; apply pow2_ge_0. }
  { intros k. specialize (MS k). apply Rmult_le_reg_l with (mu / 2); [lra|]. replace (mu / 2 * (2 / mu * (cd_model a w0 q0 w0 - L))) with (cd_model a w0 q0 w0 - L) by (field; lra). exact MS. }
  { apply pow_lt, E1. }
  exists (S N). intros j Hj i Hi. destruct j as [|j]; [lia|]. specialize (HN j ltac:(lia)). cbv beta in HN.
  destruct (sweeps_good a mu B w0 q0 HC HF j) as (_ & M0 & _ & RR). destruct (sweeps_good a mu B w0 q0 HC HF (S j)) as ([GQ GF] & _). cbn [cs_w cs_q st] in GQ, GF. fold n in RR, GQ.
  assert (ME : moved a w0 q0 j <= e1) by (apply Rnot_lt_le; intros Q; nra).
  set (u := sweeps a (S j) w0 q0) in *. set (r := INR n * (B * moved a w0 q0 j)) in *.
  set (dl := fun k => v (nth k (cd_act a) 0%nat) - fst u (nth k (cd_act a) 0%nat)).
  assert (NP : (0 < n)%nat) by (unfold n; destruct (cd_act a); [destruct Hi | cbn; lia]). specialize (B0 NP).
  destruct (argmax n (fun k => Rabs (dl k)) NP) as [k0 [Hk0 MX]]. set (D := Rabs (dl k0)) in *.
  assert (D0 : 0 <= D) by apply Rabs_pos. assert (R0 : 0 <= r) by (apply Rmult_le_pos; [exact N0 | apply Rmult_le_pos; assumption]).
  (* m D^2 / 2 <= n r D *)
  assert (KEY : m / 2 * D ^ 2 <= INR n * r * D).
  { pose proof (model_expand (cd_act a) (cd_Q a) q0 (pen_of (cd_ic a) (cd_P1 a)) w0 (fst u) v Sy) as X. fold n in X. specialize (HD dl). fold n in HD.
    change (rsum n (fun k => rsum n (fun l => (v (nth k (cd_act a) 0%nat) - fst u (nth k (cd_act a) 0%nat)) * cd_Q a k l * (v (nth l (cd_act a) 0%nat) - fst u (nth l (cd_act a) 0%nat)))))
      with (rsum n (fun k => rsum n (fun l => dl k * cd_Q a k l * dl l))) in X.
    specialize (VM (fst u) GF). unfold cd_model in VM.
    assert (LB : - (INR n * r * D) <= rsum n (fun k => quad_grad (cd_act a) (cd_Q a) q0 w0 (fst u) k * (v (nth k (cd_act a) 0%nat) - fst u (nth k (cd_act a) 0%nat))
      + pen_of (cd_ic a) (cd_P1 a) (nth k (cd_act a) 0%nat) * (Rabs (v (nth k (cd_act a) 0%nat)) - Rabs (fst u (nth k (cd_act a) 0%nat))))).
    { replace (- (INR n * r * D)) with (rsum n (fun _ => - (r * D))) by (rewrite rsum_const; ring). apply rsum_le. intros k Hk.
      rewrite <- GQ by exact Hk. assert (Ik : In (nth k (cd_act a) 0%nat) (cd_act a)) by (apply nth_In; exact Hk).
      assert (PN : 0 <= pen_of (cd_ic a) (cd_P1 a) (nth k (cd_act a) 0%nat)) by (unfold pen_of; destruct (cd_ic a), (nth k (cd_act a) 0%nat); auto; lra).
      pose proof (term_bound _ (snd u (nth k (cd_act a) 0%nat)) _ _ _ PN (GF _ Ik) _ (VF _ Ik)) as T. specialize (RR k Hk). unfold res in RR. cbv zeta in RR.
      eapply Rle_trans; [|exact T]. apply Ropp_le_contravar. apply Rmult_le_compat; try apply Rabs_pos; [exact RR | exact (MX k Hk)]. }
    assert (SQ : D ^ 2 <= rsum n (fun k => dl k ^ 2)).
    { pose proof (rsum_ge_one n (fun k => dl k ^ 2) k0 ltac:(intros; apply pow2_ge_0) Hk0) as G. cbv beta in G. unfold D. rewrite RPow_abs, Rabs_pos_eq by apply pow2_ge_0. exact G. }
    assert (m * D ^ 2 <= m * rsum n (fun k => dl k ^ 2)) by (apply Rmult_le_compat_l; lra). lra. }
  assert (DB : D <= e).
  { destruct (Req_dec D 0) as [Z|Z]; [lra|]. assert (m / 2 * D <= INR n * r) by (apply Rmult_le_reg_r with D; [lra|]; lra).
    assert (CR : INR n * r <= Rabs c * e1).
    { unfold r. replace (INR n * (INR n * (B * moved a w0 q0 j))) with (c * moved a w0 q0 j) by (unfold c; ring). apply Rmult_le_compat; try assumption; [|apply Rle_abs].
      unfold c. apply Rmult_le_pos; [exact N0 | apply Rmult_le_pos; assumption]. }
    assert (CE : Rabs c * e1 <= m / 2 * e).
    { unfold e1. replace (m / 2 * e) with ((Rabs c + 1) * (m * e / (2 * (Rabs c + 1)))) by (field; lra). apply Rmult_le_compat_r; [left; exact E1 | lra]. }
    apply Rmult_le_reg_l with (m / 2); lra. }
  destruct (In_nth _ _ 0%nat Hi) as [k [Hk Ek]]. specialize (MX k Hk). unfold dl in MX. rewrite Ek in MX. rewrite Rabs_minus_sym. lra.
Qed.
Print Assumptions C113_converges.
Theorem C113_definite : forall a mu B m w0 q0 seed, cyclic a mu B -> definite a m -> cd_feasible a w0 -> 0 < cd_tol a ->
  exists N0, forall N, (N0 <= N)%nat -> cr_warn (enet_coordinate_descent_gram (with_limit a N) seed w0 q0) = false.
Proof.
  intros a mu B m w0 q0 seed HC HD HF HT. destruct (definite_below a w0 q0 m ltac:(apply HC) HD) as [L HL].
  apply (C113_terminates a mu B w0 q0 L seed HC HF); [intros v _; apply HL | exact HT].
Qed.
Print Assumptions C113_definite.

(** Non-vacuity: two correlated features and an intercept, an L1 penalty and bounds. *)
Definition ex113_a : cd_args :=
  mkCD [0; 1; 2]%nat (fun _ => 1 / 10) (fun i j => if Nat.eqb i j then 2 else 1 / 2) 1 (1 / 1000) true false
       (fun j => match j with O => Some (-1) | _ => Some 0 end) (fun j => match j with O => Some 1 | _ => None end) (1 / 1000).
Example ex113 : cyclic ex113_a 2 2 /\ definite ex113_a 1 /\ cd_feasible ex113_a (fun _ => 0) /\
  exists N0, forall N, (N0 <= N)%nat -> cr_warn (enet_coordinate_descent_gram (with_limit ex113_a N) 1 (fun _ => 0) (fun _ => 1)) = false.
Proof.
  assert (C : cyclic ex113_a 2 2).
  { split; [reflexivity|]. split; [repeat constructor; cbn; intuition discriminate|]. split.
    { intros i j _ _. cbn. rewrite Nat.eqb_sym. reflexivity. }
    split; [intros; cbn; lra|]. split; [cbn; lra|]. split.
    - intros k _. cbn. rewrite Nat.eqb_refl. lra.
    - intros k l _ _. cbn. destruct (Nat.eqb k l); rewrite Rabs_pos_eq; lra. }
  assert (D : definite ex113_a 1).
  { split; [lra|]. intros d. cbn. set (x := d 0%nat). set (y := d 1%nat). set (z := d 2%nat). pose proof (pow2_ge_0 (x + y + z)). nra. }
  assert (Fe : cd_feasible ex113_a (fun _ => 0)).
  { intros i Hi. cbn in Hi. destruct Hi as [<-|[<-|[<-|[]]]]; split; intros b E; cbn in E; try discriminate; injection E as <-; lra. }
  split; [exact C|]. split; [exact D|]. split; [exact Fe|]. apply (C113_definite ex113_a 2 2 1 _ _ 1%N C D Fe). cbn. lra.
Qed.
