(** Theorems C84: bounds in floating point. *)
From Coq Require Import Reals ZArith Lra Lia List. Import ListNotations.
From Flocq Require Import Core Relative Sterbenz.
From Verif Require Import Base M_CD M_Std M_Float S_Float L_Float M_FCD S_FCD.
Local Open Scope R_scope.

Section Run.
Variables p e0 : Z.
Hypothesis Hp : (1 < p)%Z.
Local Notation r := (rnd p e0).
Local Notation fl := (is_float p e0).

(** whatever clipping establishes and the start satisfies, coordinate descent keeps *)
Lemma visit_keeps (P : nat -> R -> Prop) a k s : (forall i x, fl x -> P i (cd_clip a i x)) ->
  (forall i, P i (cs_w s i)) -> forall i, P i (cs_w (f_visit r a k s) i).
Proof.
  intros C H i. unfold f_visit. destruct (Rleb _ _); [apply H|]. cbn [cs_w]. unfold upd.
  destruct (Nat.eqb i _) eqn:E; [|apply H]. apply Nat.eqb_eq in E. subst i. apply C, rnd_float, Hp.
Qed.
Lemma sweep_keeps (P : nat -> R -> Prop) a : (forall i x, fl x -> P i (cd_clip a i x)) ->
  forall m f seed s, (forall i, P i (cs_w s i)) -> forall i, P i (cs_w (snd (f_sweep r a m f seed s)) i).
Proof.
  intros C. induction m as [|m IH]; intros f seed s H i; [apply H|]. cbn [f_sweep].
  destruct (if cd_random a then _ else _) as [k seed']. apply IH. apply visit_keeps; assumption.
Qed.
Lemma cd_keeps (P : nat -> R -> Prop) a : (forall i x, fl x -> P i (cd_clip a i x)) ->
  forall seed w q, (forall i, P i (w i)) -> forall i, P i (f_cd r a seed w q i).
Proof.
  intros C. unfold f_cd. induction (cd_max_iter a) as [|m IH]; intros seed w q H i; [apply H|]. cbn [f_loop].
  pose proof (sweep_keeps P a C (length (cd_act a)) 0 seed (mkCS w q 0 0) H) as S.
  destruct (f_sweep _ _ _ _ _ _) as [seed' s]. cbn [snd] in S. destruct (_ && _)%bool; [apply S|apply IH, S].
Qed.
Lemma clip_float a : float_bounds p e0 (cd_lb a) -> float_bounds p e0 (cd_ub a) -> forall i x, fl x -> fl (cd_clip a i x).
Proof.
  intros L U i x Hx. unfold cd_clip. destruct (Nat.leb _ _); [|exact Hx]. cbv zeta.
  destruct (cd_lb a _) as [l|] eqn:El; cbn [below bnd_val].
  - specialize (L _ _ El). destruct (Rltb x l); destruct (cd_ub a _) as [u|] eqn:Eu; cbn [above bnd_val]; try assumption;
      specialize (U _ _ Eu); destruct (Rltb _ _); assumption.
  - destruct (cd_ub a _) as [u|] eqn:Eu; cbn [above bnd_val]; try assumption; specialize (U _ _ Eu); destruct (Rltb _ _); assumption.
Qed.
Lemma clip_in a : ordered_bounds (cd_lb a) (cd_ub a) -> forall j x,
  (forall l, cd_lb a j = Some l -> l <= cd_clip a (ioff (cd_ic a) + j) x) /\ (forall u, cd_ub a j = Some u -> cd_clip a (ioff (cd_ic a) + j) x <= u).
Proof.
  intros O j x. unfold cd_clip. rewrite (proj2 (Nat.leb_le _ _)) by lia. replace (ioff (cd_ic a) + j - ioff (cd_ic a))%nat with j by lia. cbv zeta.
  specialize (O j). split.
  - intros l E. rewrite E in *. cbn [below bnd_val]. destruct (cd_ub a j) as [u|]; cbn [above bnd_val].
    + specialize (O _ _ eq_refl eq_refl). destruct (Rltb x l) eqn:A; rewrite ?Rltb_true, ?Rltb_false in A.
      * destruct (Rltb u l); lra.
      * destruct (Rltb u x); lra.
    + destruct (Rltb x l) eqn:A; rewrite ?Rltb_true, ?Rltb_false in A; lra.
  - intros u E. rewrite E in *. cbn [above bnd_val]. destruct (Rltb u (if below x (cd_lb a j) then bnd_val (cd_lb a j) x else x)) eqn:B; [lra|].
    apply Rltb_false in B. exact B.
Qed.

(** Coordinate descent itself respects every bound exactly, on the coordinates it starts with inside. *)
Theorem C84_descent_in_bounds : forall a seed w q, ordered_bounds (cd_lb a) (cd_ub a) -> forall j,
  (forall l, cd_lb a j = Some l -> l <= coef_at (cd_ic a) w j) -> (forall u, cd_ub a j = Some u -> coef_at (cd_ic a) w j <= u) ->
  (forall l, cd_lb a j = Some l -> l <= coef_at (cd_ic a) (f_cd r a seed w q) j) /\
  (forall u, cd_ub a j = Some u -> coef_at (cd_ic a) (f_cd r a seed w q) j <= u).
Proof.
  intros a seed w q O j HL HU. unfold coef_at in *.
  pose (P := fun i x => i = (ioff (cd_ic a) + j)%nat -> (forall l, cd_lb a j = Some l -> l <= x) /\ (forall u, cd_ub a j = Some u -> x <= u)).
  apply (cd_keeps P a) with (seed := seed) (w := w) (q := q); [| |reflexivity].
  - intros i x _ ->. apply clip_in, O.
  - intros i ->. auto.
Qed.

(** one update: with a sign constraint the new coefficient has the right sign *)
Lemma step_nonneg w v k : fl w -> 0 <= w -> 0 <= v -> 0 <= r (w + r (/ 2 ^ k * r (v - w))).
Proof.
  intros Fw Hw Hv. apply rnd_nonneg; [exact Hp|].
  assert (D : - w <= r (v - w)) by (apply rnd_ge; [exact Hp|apply float_opp; assumption|lra]).
  assert (K : 0 < / 2 ^ k <= 1).
  { assert (1 <= 2 ^ k) by (apply pow_R1_Rle; lra). split; [apply Rinv_0_lt_compat; lra|]. rewrite <- Rinv_1. apply Rinv_le_contravar; lra. }
  assert (S : - w <= r (/ 2 ^ k * r (v - w))).
  { apply rnd_ge; [exact Hp|apply float_opp; assumption|]. destruct (Rle_lt_dec 0 (r (v - w))); nra. }
  lra.
Qed.
Lemma step_nonpos w v k : fl w -> w <= 0 -> v <= 0 -> r (w + r (/ 2 ^ k * r (v - w))) <= 0.
Proof.
  intros Fw Hw Hv. pose proof (step_nonneg (- w) (- v) k (float_opp _ _ _ Fw) ltac:(lra) ltac:(lra)) as H.
  replace (- v - - w) with (- (v - w)) in H by ring. rewrite rnd_opp in H.
  replace (/ 2 ^ k * - r (v - w)) with (- (/ 2 ^ k * r (v - w))) in H by ring. rewrite rnd_opp in H.
  replace (- w + - r (/ 2 ^ k * r (v - w))) with (- (w + r (/ 2 ^ k * r (v - w)))) in H by ring. rewrite rnd_opp in H. lra.
Qed.

(** Sign constraints hold exactly: every coefficient the solver reaches, and the coefficient in the user's
    units, has the sign that was asked for, whatever rounding does. *)
Theorem C84_sign_constraints : forall ic lb ub start w, float_bounds p e0 lb -> float_bounds p e0 ub -> ordered_bounds lb ub ->
  (forall i, fl (start i)) ->
  (forall j, nonneg_at lb j -> 0 <= coef_at ic start j) -> (forall j, nonpos_at ub j -> coef_at ic start j <= 0) ->
  f_reach r ic lb ub start w -> forall m : nat -> R, (forall j, 0 <= m j) -> forall j,
  (nonneg_at lb j -> 0 <= coef_at ic w j /\ 0 <= f_unstd r m (coef_at ic w) j) /\
  (nonpos_at ub j -> coef_at ic w j <= 0 /\ f_unstd r m (coef_at ic w) j <= 0).
Proof.
  intros ic lb ub start w FL FU O FS SL SU RE m Hm j.
  assert (INV : (forall i, fl (w i)) /\ (forall j, nonneg_at lb j -> 0 <= coef_at ic w j) /\ (forall j, nonpos_at ub j -> coef_at ic w j <= 0)).
  { induction RE as [|w a seed k q RE [IF [IL IU]] E1 E2 E3 Hk]; [auto|]. subst ic lb ub.
    assert (NF : forall i, fl (f_cd r a seed w q i)) by (apply (cd_keeps (fun _ x => fl x) a); [apply clip_float; assumption|assumption]).
    assert (NL : forall j, nonneg_at (cd_lb a) j -> 0 <= coef_at (cd_ic a) (f_cd r a seed w q) j).
    { intros i Hi. pose (P := fun n x => n = (ioff (cd_ic a) + i)%nat -> 0 <= x).
      apply (cd_keeps P a) with (seed := seed) (w := w) (q := q); [| |reflexivity].
      - intros n x _ ->. apply (clip_in a O i x), Hi.
      - intros n ->. apply IL, Hi. }
    assert (NU : forall j, nonpos_at (cd_ub a) j -> coef_at (cd_ic a) (f_cd r a seed w q) j <= 0).
    { intros i Hi. pose (P := fun n x => n = (ioff (cd_ic a) + i)%nat -> x <= 0).
      apply (cd_keeps P a) with (seed := seed) (w := w) (q := q); [| |reflexivity].
      - intros n x _ ->. apply (clip_in a O i x), Hi.
      - intros n ->. apply IU, Hi. }
    split; [intros i; apply rnd_float, Hp|]. split.
    - intros i Hi. apply step_nonneg; [apply IF|apply IL, Hi|apply NL, Hi].
    - intros i Hi. apply step_nonpos; [apply IF|apply IU, Hi|apply NU, Hi]. }
  destruct INV as [_ [IL IU]]. split.
  - intros H. split; [apply IL, H|]. apply rnd_nonneg; [exact Hp|]. apply Rmult_le_pos; [apply IL, H|apply Hm].
  - intros H. split; [apply IU, H|]. apply rnd_nonpos; [exact Hp|]. specialize (IU j H). specialize (Hm j). nra.
Qed.

(** Other bounds: a full step lands within rounding of the point coordinate descent chose, and exactly on it
    when the two are within a factor of two. *)
Theorem C84_full_step : forall w v, fl w -> fl v ->
  Rabs (r (w + r (/ 2 ^ 0 * r (v - w))) - v) <= 2 * half_ulp p * (Rabs (v - w) + Rabs v) /\
  (w / 2 <= v <= 2 * w -> r (w + r (/ 2 ^ 0 * r (v - w))) = v).
Proof.
  intros w v Fw Fv. replace (/ 2 ^ 0 * r (v - w)) with (r (v - w)) by (cbn; field).
  rewrite (rnd_id p e0 Hp (r (v - w))) by (apply rnd_float, Hp). split.
  - set (d := r (v - w)). assert (Fd : fl d) by (apply rnd_float, Hp).
    pose proof (rnd_add_err p e0 Hp v (- w) Fv (float_opp _ _ _ Fw)) as E1. fold (v - w) in E1. fold d in E1.
    pose proof (rnd_add_err p e0 Hp w d Fw Fd) as E2.
    assert (HU : half_ulp p = bpow radix2 (- p)) by (unfold half_ulp; rewrite bpow_powerRZ; reflexivity). rewrite HU.
    pose proof (bpow_gt_0 radix2 (- p)) as U0. assert (U1 : bpow radix2 (- p) <= / 2).
    { change (/ 2) with (bpow radix2 (-1)). apply bpow_le. lia. }
    set (u := bpow radix2 (- p)) in *.
    assert (T1 : Rabs (w + d) <= Rabs v + u * Rabs (v - w)).
    { replace (w + d) with (v + (d - (v - w))) by ring. eapply Rle_trans; [apply Rabs_triang|]. lra. }
    replace (r (w + d) - v) with ((r (w + d) - (w + d)) + (d - (v - w))) by ring.
    eapply Rle_trans; [apply Rabs_triang|]. pose proof (Rabs_pos (v - w)) as V1. pose proof (Rabs_pos v) as V2.
    assert (T2 : u * Rabs (w + d) <= u * Rabs v + u * (u * Rabs (v - w))).
    { rewrite <- Rmult_plus_distr_l. apply Rmult_le_compat_l; lra. }
    assert (T3 : u * (u * Rabs (v - w)) <= u * Rabs (v - w)) by (apply Rmult_le_compat_l; nra).
    assert (T4 : 0 <= u * Rabs v) by (apply Rmult_le_pos; lra).
    lra.
  - intros St. assert (D : r (v - w) = v - w).
    { apply rnd_id; [exact Hp|]. apply (fmt_iff p e0 Hp). apply sterbenz; [apply FLT_exp_valid; unfold Prec_gt_0; lia|apply FLT_exp_monotone| | |exact St]; apply (fmt_iff p e0 Hp); assumption. }
    rewrite D. replace (w + (v - w)) with v by ring. apply rnd_id; assumption.
Qed.

(** A coefficient at or above its bound in the solver's units is at or above it in the user's units up to
    three roundings, provided nothing is subnormal. *)
Theorem C84_user_bound : forall l m w, 0 < l -> 0 < m -> r (l / m) <= w ->
  powerRZ 2 (e0 + p) <= l / m -> powerRZ 2 (e0 + p) <= l -> l * (1 - 3 * half_ulp p) <= r (w * m).
Proof.
  intros l m w Hl Hm Hw N1 N2.
  assert (HU : half_ulp p = bpow radix2 (- p)) by (unfold half_ulp; rewrite bpow_powerRZ; reflexivity).
  assert (N : forall x, powerRZ 2 (e0 + p) = bpow radix2 (e0 + p) -> bpow radix2 (e0 + p - 1) <= Rabs x -> (1 - half_ulp p) * Rabs x <= Rabs (r x)).
  { intros x _ Hx. pose proof (relative_error_N_FLT radix2 e0 p ltac:(lia) (fun t => negb (Z.even t)) x Hx) as E.
    change (round radix2 (FLT_exp e0 p) (Znearest (fun t => negb (Z.even t))) x) with (r x) in E.
    assert (B1 : / 2 * bpow radix2 (- p + 1) = bpow radix2 (- p)) by (rewrite bpow_plus; change (bpow radix2 1) with 2; field).
    rewrite B1 in E. rewrite HU. pose proof (Rabs_triang_inv x (x - r x)) as T. replace (x - (x - r x)) with (r x) in T by ring.
    rewrite Rabs_minus_sym in T. replace (Rabs (r x - x)) with (Rabs (r x - x)) in T by reflexivity.
    rewrite (Rabs_minus_sym (r x) x) in E. rewrite (Rabs_minus_sym x (r x)) in E. lra. }
  assert (PB : powerRZ 2 (e0 + p) = bpow radix2 (e0 + p)) by (rewrite bpow_powerRZ; reflexivity). rewrite PB in N1, N2.
  pose proof (bpow_gt_0 radix2 (- p)) as U0. assert (U1 : bpow radix2 (- p) <= / 4).
  { change (/ 4) with (bpow radix2 (-2)). apply bpow_le. lia. }
  assert (HB : bpow radix2 (e0 + p) = 2 * bpow radix2 (e0 + p - 1)) by (unfold Z.sub; rewrite (bpow_plus radix2 (e0 + p)); change (bpow radix2 (-(1))) with (/ 2); field).
  pose proof (bpow_gt_0 radix2 (e0 + p - 1)) as BP.
  pose proof (N (l / m) PB) as A. rewrite (Rabs_right (l / m)) in A by lra. specialize (A ltac:(lra)).
  assert (RN : 0 <= r (l / m)) by (apply rnd_nonneg; [exact Hp|lra]). rewrite Rabs_right in A by lra.
  rewrite HU in *. set (u := bpow radix2 (- p)) in *.
  assert (LM : l / m * m = l) by (field; lra).
  assert (X : (1 - u) * l <= w * m) by (rewrite <- LM at 1; nra).
  assert (X2 : bpow radix2 (e0 + p - 1) <= w * m) by nra.
  pose proof (N (w * m) PB) as B. rewrite (Rabs_right (w * m)) in B by lra. specialize (B X2).
  rewrite Rabs_right in B by (apply Rle_ge, rnd_nonneg; [exact Hp|lra]). nra.
Qed.
End Run.
Print Assumptions C84_descent_in_bounds.
Print Assumptions C84_sign_constraints.
Print Assumptions C84_full_step.
Print Assumptions C84_user_bound.

(** A bound other than 0 can be missed by an ulp: lower_bounds = 1 and a column with standard deviation 93. The
    solver ends exactly on its bound and the coefficient reported is 1 - 2^-53. *)
Lemma rnd64_near x M e : (-1074 <= e)%Z -> bpow radix2 (e + 52) <= x < bpow radix2 (e + 53) -> Rabs (x * bpow radix2 (- e) - IZR M) < / 2 ->
  rnd64 x = IZR M * bpow radix2 e.
Proof.
  intros He Hx Hm. unfold rnd64, rnd, round, scaled_mantissa, cexp. pose proof (bpow_gt_0 radix2 (e + 52)) as P.
  assert (MG : mag radix2 x = (e + 53)%Z :> Z).
  { apply mag_unique. rewrite Rabs_right by lra. replace (e + 53 - 1)%Z with (e + 52)%Z by lia. exact Hx. }
  assert (C : FLT_exp (-1074) 53 (mag radix2 x) = e) by (rewrite MG; unfold FLT_exp; lia).
  rewrite C, (Znearest_imp _ _ M Hm). reflexivity.
Qed.
Definition ex84_m : R := IZR 6198502712940038 * / IZR (2 ^ 59).
Definition ex84_b : R := IZR 6544293208522751 * / IZR (2 ^ 46).
Definition ex84_args : cd_args :=
  mkCD (0%nat :: nil) (fun _ => 0) (fun _ _ => 1) 1 1 false false (fun j => Some ex84_b) (fun _ => None) 0.
Lemma ex84_inv : rnd64 (1 / 93) = ex84_m.
Proof.
  rewrite (rnd64_near (1 / 93) 6198502712940038 (-59)); [unfold ex84_m; f_equal|lia| |].
  - change (bpow radix2 (-59 + 52)) with (/ IZR (2 ^ 7)). change (bpow radix2 (-59 + 53)) with (/ IZR (2 ^ 6)).
    change (2 ^ 7)%Z with 128%Z. change (2 ^ 6)%Z with 64%Z. lra.
  - change (bpow radix2 (- -59)) with (IZR (2 ^ 59)). change (2 ^ 59)%Z with 576460752303423488%Z. apply Rabs_def1; lra.
Qed.
Lemma ex84_bound : rnd64 (1 / ex84_m) = ex84_b.
Proof.
  assert (E : 1 / ex84_m = IZR 576460752303423488 / IZR 6198502712940038).
  { unfold ex84_m. change (2 ^ 59)%Z with 576460752303423488%Z. field. }
  rewrite E. rewrite (rnd64_near _ 6544293208522751 (-46)); [unfold ex84_b; f_equal|lia| |].
  - change (bpow radix2 (-46 + 52)) with 64. change (bpow radix2 (-46 + 53)) with 128. lra.
  - change (bpow radix2 (- -46)) with (IZR (2 ^ 46)). change (2 ^ 46)%Z with 70368744177664%Z. apply Rabs_def1; lra.
Qed.
Lemma ex84_back : rnd64 (ex84_b * ex84_m) = 1 - / 2 ^ 53.
Proof.
  rewrite (rnd64_near _ 9007199254740991 (-53)).
  - change (bpow radix2 (-53)) with (/ IZR (2 ^ 53)). change (2 ^ 53)%Z with 9007199254740992%Z.
    replace (2 ^ 53) with 9007199254740992 by (cbn; lra). lra.
  - lia.
  - unfold ex84_b, ex84_m. change (2 ^ 46)%Z with 70368744177664%Z. change (2 ^ 59)%Z with 576460752303423488%Z.
    change (bpow radix2 (-53 + 52)) with (/ 2). change (bpow radix2 (-53 + 53)) with 1. lra.
  - unfold ex84_b, ex84_m. change (2 ^ 46)%Z with 70368744177664%Z. change (2 ^ 59)%Z with 576460752303423488%Z.
    change (bpow radix2 (- -53)) with (IZR (2 ^ 53)). change (2 ^ 53)%Z with 9007199254740992%Z. apply Rabs_def1; lra.
Qed.
Lemma P53 : (1 < 53)%Z. Proof. lia. Qed.
Lemma f64_int z : (Z.abs z < 2 ^ 53)%Z -> float64 (IZR z).
Proof. intros H. exists z, 0%Z. split; [exact H|]. split; [lia|]. cbn. ring. Qed.
Lemma ex84_float : float64 ex84_b /\ float64 (ex84_b - 1).
Proof.
  split.
  - exists 6544293208522751%Z, (-46)%Z. split; [reflexivity|]. split; [lia|]. unfold ex84_b. change (powerRZ 2 (-46)) with (/ 2 ^ 46). change (2 ^ 46)%Z with 70368744177664%Z. replace (2 ^ 46) with 70368744177664 by (cbn; lra). lra.
  - exists 6473924464345087%Z, (-46)%Z. split; [reflexivity|]. split; [lia|]. unfold ex84_b. change (powerRZ 2 (-46)) with (/ 2 ^ 46).
    change (2 ^ 46)%Z with 70368744177664%Z. replace (2 ^ 46) with 70368744177664 by (cbn; lra). lra.
Qed.
Theorem C84_bounds_refuted : exists tiny l s start w,
  let m := f_one_over rnd64 tiny s in
  0 < tiny < s /\ f_reach rnd64 false (f_std_bounds rnd64 (fun _ => Some l) (fun _ => m)) (fun _ => None) start w /\
  (forall x, f_std_bounds rnd64 (fun _ => Some l) (fun _ => m) 0%nat = Some x -> x <= w 0%nat) /\
  f_unstd rnd64 (fun _ => m) w 0%nat < l.
Proof.
  exists (1 / 1000), 1, 93, (fun _ => 1), (f_iter rnd64 ex84_args 1 0 (fun _ => 1) (fun _ => 1000)).
  assert (M : f_one_over rnd64 (1 / 1000) 93 = ex84_m).
  { unfold f_one_over. rewrite (proj2 (Rltb_false _ _)) by (rewrite Rabs_right; lra). apply ex84_inv. }
  cbv zeta. rewrite M. unfold f_std_bounds. rewrite ex84_bound.
  assert (BV : 92 < ex84_b < 93) by (unfold ex84_b; change (2 ^ 46)%Z with 70368744177664%Z; lra).
  destruct ex84_float as [FB FB1].
  assert (W : f_iter rnd64 ex84_args 1 0 (fun _ => 1) (fun _ => 1000) 0%nat = ex84_b).
  { assert (V : f_cd rnd64 ex84_args 1 (fun _ => 1) (fun _ => 1000) 0%nat = ex84_b).
    { unfold f_cd. change (cd_max_iter ex84_args) with 1%nat. cbn [f_loop].
      change (length (cd_act ex84_args)) with 1%nat. cbn [f_sweep]. change (cd_random ex84_args) with false. cbv iota.
      match goal with |- (if ?c then ?x else ?y) _ = _ => assert (Q : x 0%nat = ex84_b) end.
      { cbn [f_sweep]. unfold f_visit. change (cd_Q ex84_args 0%nat 0%nat) with 1. change (cd_eps ex84_args) with 0.
        rewrite (proj2 (Rleb_false 1 0)) by lra. cbn [cs_w]. change (nth 0 (cd_act ex84_args) 0%nat) with 0%nat. unfold upd. cbn [Nat.eqb cs_w cs_q].
        assert (QT : rnd64 (1000 - rnd64 (1 * 1)) = 999).
        { rewrite Rmult_1_r. unfold rnd64. rewrite (rnd_id 53 (-1074) P53 1) by (apply (f64_int 1); reflexivity).
          replace (1000 - 1) with 999 by ring. apply (rnd_id 53 (-1074) P53). apply (f64_int 999). reflexivity. }
        rewrite QT. unfold cd_clip. cbn [Nat.leb ioff ex84_args cd_ic Nat.sub]. cbv zeta. cbn [cd_lb cd_ub below above bnd_val].
        set (x := rnd64 (rnd64 _ / 1)).
        assert (X : x <= 0).
        { unfold x. apply (rnd_nonpos 53 (-1074) P53). unfold Rdiv. rewrite Rinv_1, Rmult_1_r. apply (rnd_nonpos 53 (-1074) P53).
          unfold fsign. destruct (Reqb (- (999)) 0); [lra|]. rewrite (proj2 (Rltb_false _ _)) by lra. unfold fmax. destruct (Rltb 0 _) eqn:Z; [apply Rltb_true in Z|]; lra. }
        change (cd_lb ex84_args 0%nat) with (Some ex84_b). change (cd_ub ex84_args 0%nat) with (@None R). cbn [below above bnd_val].
        rewrite (proj2 (Rltb_true x ex84_b)) by lra. reflexivity. }
      destruct (_ && _)%bool; exact Q. }
    unfold f_iter. rewrite V. replace (/ 2 ^ 0) with 1 by (cbn; field). rewrite Rmult_1_l.
    unfold rnd64. rewrite (rnd_id 53 (-1074) P53 (ex84_b - 1) FB1), (rnd_id 53 (-1074) P53 (ex84_b - 1) FB1).
    replace (1 + (ex84_b - 1)) with ex84_b by ring. apply (rnd_id 53 (-1074) P53), FB. }
  split; [lra|]. split; [|split].
  - apply FRS with (k := 0%nat); [constructor|reflexivity|reflexivity|reflexivity|lia].
  - intros x E. injection E as <-. rewrite W. lra.
  - unfold f_unstd. rewrite W, ex84_back. assert (0 < / 2 ^ 53) by (apply Rinv_0_lt_compat, pow_lt; lra). lra.
Qed.
Print Assumptions C84_bounds_refuted.
(** the hypotheses of C84_sign_constraints: a run that moves *)
Example C84_nonvacuous : exists w, f_reach rnd64 false (fun _ => Some 0) (fun _ => None) (fun _ => 0) w /\ w 0%nat = 3 /\
  float_bounds 53 (-1074) (fun _ => Some 0) /\ ordered_bounds (fun _ => Some 0) (fun _ => None).
Proof.
  pose (a := mkCD (0%nat :: nil) (fun _ => 0) (fun _ _ => 1) 1 1 false false (fun _ => Some 0) (fun _ => None) 0).
  exists (f_iter rnd64 a 1 0 (fun _ => 0) (fun _ => -3)). split; [apply FRS with (k := 0%nat); [constructor|reflexivity|reflexivity|reflexivity|lia]|].
  assert (F3 : float64 3) by (apply (f64_int 3); reflexivity). assert (F0 : float64 0) by (apply (f64_int 0); reflexivity).
  assert (Fm : float64 (-3)) by (apply (f64_int (-3)); reflexivity).
  assert (I : forall x, float64 x -> rnd64 x = x) by (intros x; apply (rnd_id 53 (-1074) P53)).
  split; [|split; [intros j x E; injection E as <-; exact F0|intros j x y _ E; discriminate]].
  assert (V : f_cd rnd64 a 1 (fun _ => 0) (fun _ => -3) 0%nat = 3).
  { unfold f_cd. change (cd_max_iter a) with 1%nat. cbn [f_loop].
    change (length (cd_act a)) with 1%nat. cbn [f_sweep]. change (cd_random a) with false. cbv iota.
    match goal with |- (if ?c then ?x else ?y) _ = _ => assert (Q : x 0%nat = 3) end.
    { cbn [f_sweep]. unfold f_visit. change (cd_Q a 0%nat 0%nat) with 1. change (cd_eps a) with 0.
      rewrite (proj2 (Rleb_false 1 0)) by lra. cbn [cs_w]. change (nth 0 (cd_act a) 0%nat) with 0%nat. unfold upd. cbn [Nat.eqb cs_w cs_q].
      change (cd_pen (cd_P1 a) (cd_ic a) 0) with 0.
      rewrite Rmult_0_l, (I 0 F0). replace (-3 - 0) with (-3) by ring. rewrite (I _ Fm). replace (Rabs (-3) - 0) with 3 by (rewrite Rabs_left; lra).
      rewrite (I _ F3). unfold fmax. rewrite (proj2 (Rltb_true 0 3)) by lra. unfold fsign. replace (- -3) with 3 by ring.
      assert (Z : Reqb 3 0 = false) by (destruct (Reqb 3 0) eqn:Z; [apply Reqb_true in Z; lra|reflexivity]). rewrite Z, (proj2 (Rltb_true 0 3)) by lra.
      rewrite Rmult_1_l, (I _ F3). replace (3 / 1) with 3 by field. rewrite (I _ F3).
      unfold cd_clip, a. cbn [Nat.leb ioff cd_ic cd_lb cd_ub below above bnd_val Nat.sub]. cbv zeta. rewrite (proj2 (Rltb_false 3 0)) by lra. reflexivity. }
    destruct (_ && _)%bool; exact Q. }
  unfold f_iter. rewrite V. replace (/ 2 ^ 0) with 1 by (cbn; field). rewrite Rmult_1_l, Rminus_0_r, Rplus_0_l, (I _ F3), (I _ F3). apply I, F3.
Qed.
