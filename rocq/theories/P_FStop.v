(** Theorems C84: what it means, in floating point, that coordinate descent stopped. *)
From Coq Require Import Reals ZArith Lra Lia List. Import ListNotations.
From Flocq Require Import Core Relative Sterbenz.
From Verif Require Import Base M_CD M_Std M_Float S_Float L_Float M_FCD S_FCD S_FStop L_CD.
Local Open Scope R_scope.

Lemma sign_near x x' u : 0 <= u < 1 -> Rabs (x' - x) <= u * Rabs x -> (0 < x' <-> 0 < x) /\ (x' < 0 <-> x < 0).
Proof. intros H. unfold Rabs. repeat destruct Rcase_abs; intros; split; split; nra. Qed.
Lemma zeroed x x' u l h : 0 <= u < 1 -> Rabs (x' - x) <= u * Rabs x ->
  let z y := let t1 := if (l && Rltb 0 y)%bool then 0 else y in if (h && Rltb t1 0)%bool then 0 else t1 in
  Rabs (z x' - z x) <= u * Rabs (z x).
Proof.
  intros U H. destruct (sign_near _ _ _ U H) as [A B]. cbv zeta beta.
  assert (E0 : Rltb 0 x' = Rltb 0 x) by (destruct (Rltb 0 x) eqn:E, (Rltb 0 x') eqn:E'; rewrite ?Rltb_true, ?Rltb_false in *; try reflexivity; tauto || (exfalso; lra)).
  assert (E1 : Rltb x' 0 = Rltb x 0) by (destruct (Rltb x 0) eqn:E, (Rltb x' 0) eqn:E'; rewrite ?Rltb_true, ?Rltb_false in *; try reflexivity; tauto || (exfalso; lra)).
  rewrite E0. destruct (l && Rltb 0 x)%bool.
  - destruct (h && Rltb 0 0)%bool; rewrite Rminus_0_r, Rabs_R0; lra.
  - rewrite E1. destruct (h && Rltb x 0)%bool; [rewrite Rminus_0_r, Rabs_R0; lra | exact H].
Qed.

Section Run.
Variables p e0 : Z.
Hypothesis Hp : (1 < p)%Z.
Local Notation r := (rnd p e0).
Local Notation fl := (is_float p e0).

Lemma hu : half_ulp p = bpow radix2 (- p). Proof. unfold half_ulp. rewrite bpow_powerRZ. reflexivity. Qed.
Lemma hu_range : 0 <= half_ulp p < 1.
Proof. rewrite hu. split; [apply bpow_ge_0|]. change 1 with (bpow radix2 0). apply bpow_lt. lia. Qed.
Lemma sub_err x y : fl x -> fl y -> Rabs (r (x - y) - (x - y)) <= half_ulp p * Rabs (x - y).
Proof. intros X Y. rewrite hu. apply (rnd_add_err p e0 Hp x (- y) X (float_opp _ _ _ Y)). Qed.
Lemma add_err x y : fl x -> fl y -> Rabs (r (x + y) - (x + y)) <= half_ulp p * Rabs (x + y).
Proof. intros X Y. rewrite hu. apply (rnd_add_err p e0 Hp x y X Y). Qed.
Lemma fl_abs x : fl x -> fl (Rabs x).
Proof. intros H. unfold Rabs. destruct Rcase_abs; [apply float_opp, H | exact H]. Qed.

Lemma fl_sign c x : fl x -> fl (fsign c * x).
Proof.
  intros H. assert (K : fsign c = 1 \/ fsign c = 0 \/ fsign c = -1) by (destruct (fsign_cases c) as [[_ ->] | [[_ ->] | [_ ->]]]; lra).
  destruct K as [-> | [-> | ->]]; [rewrite Rmult_1_l; exact H | rewrite Rmult_0_l; apply (float_0 p e0 Hp) | replace (-1 * x) with (- x) by ring; apply float_opp; assumption].
Qed.
Lemma term_float c g P l h : fl (f_term r c g P l h).
Proof.
  unfold f_term. pose proof (float_0 p e0 Hp) as Z.
  destruct (Reqb c 0); match goal with |- context [r ?z] => pose proof (rnd_float p e0 Hp z) as F; set (t := r z) in * end;
    destruct (at_bound c l && Rltb 0 t)%bool; match goal with |- fl (if ?b then _ else _) => destruct b end; assumption.
Qed.
Lemma term_near c g P l h : fl g -> fl P -> Rabs (f_term r c g P l h - subgrad_term c g P l h) <= half_ulp p * Rabs (subgrad_term c g P l h).
Proof.
  intros G HP. unfold f_term, subgrad_term. apply (zeroed _ _ (half_ulp p) (at_bound c l) (at_bound c h) hu_range).
  pose proof hu_range as U. destruct (Reqb c 0).
  - pose proof (sub_err (Rabs g) P (fl_abs g G) HP) as E. set (z := Rabs g - P) in *.
    assert (F : fl (fsign g * fmax (r z) 0)).
    { assert (M : fl (fmax (r z) 0)) by (rewrite fmax_Rmax; unfold Rmax; destruct Rle_dec; [apply (float_0 p e0 Hp) | apply rnd_float, Hp]).
      apply fl_sign, M. }
    rewrite (rnd_id p e0 Hp _ F). rewrite <- Rmult_minus_distr_l, !Rabs_mult.
    assert (K : Rabs (fmax (r z) 0 - fmax z 0) <= half_ulp p * Rabs (fmax z 0)).
    { destruct (sign_near _ _ _ U E) as [A B]. rewrite !fmax_Rmax. unfold Rmax. destruct (Rle_dec (r z) 0) as [L|L], (Rle_dec z 0) as [L'|L'].
      - rewrite Rminus_0_r, Rabs_R0. lra.
      - exfalso. apply L'. apply Rnot_lt_le. intros Q. apply A in Q. lra.
      - exfalso. apply L. apply Rnot_lt_le. intros Q. apply A in Q. lra.
      - exact E. }
    pose proof (Rabs_pos (fsign g)). nra.
  - assert (F : fl (fsign c * P)).
    { apply fl_sign, HP. }
    rewrite (rnd_id p e0 Hp _ F). apply add_err; assumption.
Qed.

Lemma update_float a k dw : forall q, (forall i, fl (q i)) -> forall i, fl (f_update_q r a k dw q i).
Proof.
  unfold f_update_q. induction (seq 0 (length (cd_act a))) as [|j l IH]; intros q H i; cbn [fold_left]; [apply H|].
  apply IH. intros m. unfold upd. destruct (Nat.eqb m _); [apply rnd_float, Hp | apply H].
Qed.
Lemma clip_fl a : float_bounds p e0 (cd_lb a) -> float_bounds p e0 (cd_ub a) -> forall i x, fl x -> fl (cd_clip a i x).
Proof.
  intros L U i x Hx. unfold cd_clip. destruct (Nat.leb _ _); [|exact Hx]. cbv zeta.
  destruct (cd_lb a _) as [l|] eqn:El; cbn [below bnd_val].
  - specialize (L _ _ El). destruct (Rltb x l); destruct (cd_ub a _) as [u|] eqn:Eu; cbn [above bnd_val]; try assumption;
      specialize (U _ _ Eu); destruct (Rltb _ _); assumption.
  - destruct (cd_ub a _) as [u|] eqn:Eu; cbn [above bnd_val]; try assumption; specialize (U _ _ Eu); destruct (Rltb _ _); assumption.
Qed.
Lemma sweep_float a : float_bounds p e0 (cd_lb a) -> float_bounds p e0 (cd_ub a) -> forall m f seed s,
  (forall i, fl (cs_w s i)) -> (forall i, fl (cs_q s i)) ->
  (forall i, fl (cs_w (snd (f_sweep r a m f seed s)) i)) /\ (forall i, fl (cs_q (snd (f_sweep r a m f seed s)) i)).
Proof.
  intros L U. induction m as [|m IH]; intros f seed s W Q; [split; assumption|]. cbn [f_sweep].
  destruct (if cd_random a then _ else _) as [k seed']. apply IH; intros i; unfold f_visit; destruct (Rleb _ _); auto; cbn [cs_w cs_q].
  - unfold upd. destruct (Nat.eqb _ _); [|apply W]. apply clip_fl; try assumption. apply rnd_float, Hp.
  - destruct (_ || _)%bool; [apply update_float, Q | apply Q].
Qed.

(** C84: coefficients and gradients are floating-point numbers after any number of sweeps. *)
Theorem C84_floats : forall a n seed w q, float_bounds p e0 (cd_lb a) -> float_bounds p e0 (cd_ub a) ->
  (forall i, fl (w i)) -> (forall i, fl (q i)) ->
  (forall i, fl (f_coefs r a n seed w q i)) /\ (forall i, fl (f_grads r a n seed w q i)).
Proof.
  intros a n seed w q L U W Q. unfold f_coefs, f_grads. induction n as [|n [IW IQ]]; [split; assumption|]. cbn [f_after f_one]. unfold f_one. cbn [fst snd].
  apply (sweep_float a L U); assumption.
Qed.

(** the floating-point norm is at least every term *)
Lemma norm_ge w q P1 ic lb ub : forall act nm, (forall i, In i act -> (ioff ic <= i)%nat) -> fl nm -> 0 <= nm ->
  nm <= f_norm r act w q P1 ic lb ub nm /\
  forall i, In i act -> Rabs (f_term r (w i) (q i) (P1 (i - ioff ic)%nat) (lb (i - ioff ic)%nat) (ub (i - ioff ic)%nat)) <= f_norm r act w q P1 ic lb ub nm.
Proof.
  induction act as [|i act IH]; intros nm HI Fn Pn; cbn [f_norm]; [split; [lra | intros i []]|].
  rewrite (proj2 (Nat.ltb_ge _ _)) by (apply HI; left; reflexivity). cbv zeta. set (t := Rabs (f_term r (w i) _ _ _ _)).
  assert (Ft : fl t) by apply fl_abs, term_float. assert (Pt : 0 <= t) by apply Rabs_pos.
  assert (G1 : nm <= r (nm + t)) by (apply rnd_ge; [exact Hp | exact Fn | lra]).
  assert (G2 : t <= r (nm + t)) by (apply rnd_ge; [exact Hp | exact Ft | lra]).
  destruct (IH (r (nm + t)) (fun j H => HI j (or_intror H)) ltac:(apply rnd_float, Hp) ltac:(lra)) as [A B]. split; [lra|].
  intros j [<-|H]; [fold t; lra | apply B, H].
Qed.

Lemma loop_after a : forall m seed w q, exists k, (k <= m)%nat /\ ((0 < m)%nat -> (0 < k)%nat) /\ f_loop r a m seed w q = f_coefs r a k seed w q /\
  ((k < m)%nat -> f_norm r (cd_act a) (f_coefs r a k seed w q) (f_grads r a k seed w q) (cd_P1 a) (cd_ic a) (cd_lb a) (cd_ub a) 0 <= cd_tol a) /\
  forall j, (0 < j < k)%nat ->
    cs_wmax (snd (f_sweep r a (length (cd_act a)) 0 (fst (f_after r a (Nat.pred j) seed w q)) (mkCS (f_coefs r a (Nat.pred j) seed w q) (f_grads r a (Nat.pred j) seed w q) 0 0))) = 0 ->
    cd_tol a < f_norm r (cd_act a) (f_coefs r a j seed w q) (f_grads r a j seed w q) (cd_P1 a) (cd_ic a) (cd_lb a) (cd_ub a) 0.
Proof.
  assert (AF : forall k seed w q, f_after r a (S k) seed w q = f_after r a k (fst (f_one r a (seed, (w, q)))) (fst (snd (f_one r a (seed, (w, q))))) (snd (snd (f_one r a (seed, (w, q)))))).
  { induction k as [|k IH]; intros seed w q; [cbn [f_after]; destruct (f_one r a (seed, (w, q))) as [s [x y]]; reflexivity|].
    change (f_after r a (S (S k)) seed w q) with (f_one r a (f_after r a (S k) seed w q)). rewrite IH. reflexivity. }
  induction m as [|m IH]; intros seed w q.
  - exists 0%nat. repeat split; try lia.
  - cbn [f_loop]. pose proof (AF 0%nat seed w q) as A0. set (o := f_one r a (seed, (w, q))) in *.
    assert (EO : o = (fst (f_sweep r a (length (cd_act a)) 0 seed (mkCS w q 0 0)), (cs_w (snd (f_sweep r a (length (cd_act a)) 0 seed (mkCS w q 0 0))), cs_q (snd (f_sweep r a (length (cd_act a)) 0 seed (mkCS w q 0 0)))))) by reflexivity.
    destruct (f_sweep r a (length (cd_act a)) 0 seed (mkCS w q 0 0)) as [seed' s] eqn:ES. cbn [fst snd] in EO.
    assert (C1 : f_coefs r a 1 seed w q = cs_w s /\ f_grads r a 1 seed w q = cs_q s) by (unfold f_coefs, f_grads; rewrite A0, EO; split; reflexivity).
    destruct C1 as [CW CQ]. destruct ((_ || _ || _) && _)%bool eqn:T.
    + exists 1%nat. apply andb_prop in T. destruct T as [_ T]. apply Rleb_true in T. rewrite CW, CQ. repeat split; try lia. intros _. exact T.
    + destruct (IH seed' (cs_w s) (cs_q s)) as [k [K1 [K2 [K3 [K4 K5]]]]].
      assert (SH : forall k, f_after r a (S k) seed w q = f_after r a k seed' (cs_w s) (cs_q s)) by (intros k'; rewrite AF; fold o; rewrite EO; reflexivity).
      assert (SC : forall k, f_coefs r a (S k) seed w q = f_coefs r a k seed' (cs_w s) (cs_q s)) by (intros k'; unfold f_coefs; rewrite SH; reflexivity).
      assert (SG : forall k, f_grads r a (S k) seed w q = f_grads r a k seed' (cs_w s) (cs_q s)) by (intros k'; unfold f_grads; rewrite SH; reflexivity).
      exists (S k). rewrite SC, SG. split; [lia|]. split; [lia|]. split; [exact K3|]. split; [intros H; apply K4; lia|].
      intros [|[|j]] Hj HZ; [lia| |].
      * cbn [Nat.pred] in HZ. change (fst (f_after r a 0 seed w q)) with seed in HZ. change (f_coefs r a 0 seed w q) with w in HZ. change (f_grads r a 0 seed w q) with q in HZ.
        rewrite ES in HZ. cbn [snd] in HZ. rewrite CW, CQ. rewrite HZ, (proj2 (Reqb_true 0 0) eq_refl) in T. cbn [orb andb] in T. apply Rleb_false in T. exact T.
      * change (Nat.pred (S (S j))) with (S j) in HZ. rewrite SC, SG, SH in HZ. rewrite SC, SG. apply (K5 (S j)); [lia|]. exact HZ.
Qed.

Lemma sweep_wmax a n : cd_random a = false -> NoDup (cd_act a) -> n = length (cd_act a) -> forall m f seed s, (f + m = n)%nat -> 0 <= cs_wmax s ->
  (cs_wmax s = 0 \/ exists k, (k < f)%nat /\ cs_w s (nth k (cd_act a) 0%nat) <> 0) ->
  let s' := snd (f_sweep r a m f seed s) in cs_wmax s' = 0 \/ exists k, (k < n)%nat /\ cs_w s' (nth k (cd_act a) 0%nat) <> 0.
Proof.
  intros HR ND Hn. induction m as [|m IH]; intros f seed s Hf P H; cbv zeta.
  - cbn [f_sweep snd]. replace n with f by lia. exact H.
  - cbn [f_sweep]. rewrite HR. apply IH; [lia| |].
    + unfold f_visit. destruct (Rleb _ _); [exact P|]. cbn [cs_wmax]. destruct (Rltb (cs_wmax s) _); [apply Rabs_pos | exact P].
    + unfold f_visit. destruct (Rleb _ _); [destruct H as [H|[k [Hk H]]]; [left; exact H | right; exists k; split; [lia | exact H]]|]. cbn [cs_wmax cs_w].
      set (w2 := cd_clip a _ _). destruct (Rltb (cs_wmax s) (Rabs w2)) eqn:E.
      * right. exists f. split; [lia|]. unfold upd. rewrite Nat.eqb_refl. apply Rltb_true in E. intros Z. rewrite Z, Rabs_R0 in E. lra.
      * destruct H as [H|[k [Hk H]]]; [left; exact H|]. right. exists k. split; [lia|]. unfold upd.
        destruct (Nat.eqb _ _) eqn:Q; [|exact H]. apply Nat.eqb_eq in Q. apply (proj1 (NoDup_nth (cd_act a) 0%nat) ND) in Q; lia.
Qed.

Lemma increasing_nodup l : increasing l -> NoDup l.
Proof. induction l as [|x l IH]; intros H; constructor; cbn in H; [intros Q; destruct H as [H _]; specialize (H _ Q); lia | apply IH, H]. Qed.

(** C84: the call returns the coefficients after some number k of sweeps. If it stops before the limit, every component of the
    minimum-norm subgradient, computed exactly from those coefficients and the floating-point gradients, is at most the tolerance
    up to one rounding. In cyclic order it never goes on with all coefficients zero and a norm within the tolerance. *)
Theorem C84_stop : forall a seed w q, increasing (cd_act a) -> float_bounds p e0 (cd_lb a) -> float_bounds p e0 (cd_ub a) ->
  (forall j, fl (cd_P1 a j)) -> (forall i, fl (w i)) -> (forall i, fl (q i)) -> (1 <= cd_max_iter a)%nat ->
  exists k, (1 <= k <= cd_max_iter a)%nat /\ f_cd r a seed w q = f_coefs r a k seed w q /\
    ((k < cd_max_iter a)%nat -> forall i, In i (cd_act a) ->
       (1 - half_ulp p) * Rabs (exact_term a (f_coefs r a k seed w q) (f_grads r a k seed w q) i) <= cd_tol a) /\
    forall j, (0 < j < k)%nat -> cd_random a = false -> (forall i, In i (cd_act a) -> f_coefs r a j seed w q i = 0) ->
      cd_tol a < f_norm r (cd_act a) (f_coefs r a j seed w q) (f_grads r a j seed w q) (cd_P1 a) (cd_ic a) (cd_lb a) (cd_ub a) 0.
Proof.
  intros a seed w q IN FL FU FP FW FQ HM. unfold f_cd. destruct (loop_after a (cd_max_iter a) seed w q) as [k [K1 [K2 [K3 [K4 K5]]]]].
  exists k. split; [lia|]. split; [exact K3|]. split.
  - intros Hk i Hi. specialize (K4 Hk). destruct (C84_floats a k seed w q FL FU FW FQ) as [GW GQ].
    set (v := f_coefs r a k seed w q) in *. set (g := f_grads r a k seed w q) in *. pose proof hu_range as U.
    assert (TT : forall i, (1 - half_ulp p) * Rabs (subgrad_term (v i) (g i) (cd_P1 a (i - ioff (cd_ic a))%nat) (cd_lb a (i - ioff (cd_ic a))%nat) (cd_ub a (i - ioff (cd_ic a))%nat))
       <= Rabs (f_term r (v i) (g i) (cd_P1 a (i - ioff (cd_ic a))%nat) (cd_lb a (i - ioff (cd_ic a))%nat) (cd_ub a (i - ioff (cd_ic a))%nat))).
    { intros i'. pose proof (term_near (v i') (g i') _ (cd_lb a (i' - ioff (cd_ic a))%nat) (cd_ub a (i' - ioff (cd_ic a))%nat) (GQ i') (FP (i' - ioff (cd_ic a))%nat)) as T.
      set (x := subgrad_term _ _ _ _ _) in *. set (y := f_term _ _ _ _ _ _) in *. pose proof (Rabs_triang_inv x (x - y)) as T2.
      replace (x - (x - y)) with y in T2 by ring. rewrite (Rabs_minus_sym x y) in T2. lra. }
    pose proof (float_0 p e0 Hp) as F0. pose proof (Rle_refl 0) as P0.
    destruct (cd_act a) as [|i0 act] eqn:EA; [destruct Hi|]. cbn [increasing] in IN. destruct IN as [I1 I2]. cbn [f_norm] in K4.
    destruct (Nat.ltb i0 (ioff (cd_ic a))) eqn:E0.
    + apply Nat.ltb_lt in E0. assert (IC : cd_ic a = true) by (unfold ioff in E0; destruct (cd_ic a); [reflexivity | lia]).
      assert (i0 = 0)%nat by (unfold ioff in E0; rewrite IC in E0; lia). subst i0.
      assert (GE : forall i, In i act -> (ioff (cd_ic a) <= i)%nat) by (intros y Hy; specialize (I1 y Hy); unfold ioff; rewrite IC; lia).
      destruct (norm_ge v g (cd_P1 a) (cd_ic a) (cd_lb a) (cd_ub a) act _ GE (fl_abs _ (GQ 0%nat)) (Rabs_pos _)) as [A B].
      unfold exact_term. rewrite IC. destruct Hi as [<-|Hi].
      * cbn [andb Nat.eqb]. pose proof (Rabs_pos (g 0%nat)). nra.
      * assert (NZ : Nat.eqb i 0 = false) by (apply Nat.eqb_neq; specialize (I1 i Hi); lia). rewrite NZ. cbn [andb]. specialize (TT i). rewrite IC in TT. eapply Rle_trans; [exact TT|].
        rewrite IC in B, K4. eapply Rle_trans; [apply B, Hi|]. exact K4.
    + apply Nat.ltb_ge in E0. assert (GE : forall i, In i (i0 :: act) -> (ioff (cd_ic a) <= i)%nat) by (intros y [<-|Hy]; [exact E0 | specialize (I1 y Hy); lia]).
      destruct (norm_ge v g (cd_P1 a) (cd_ic a) (cd_lb a) (cd_ub a) (i0 :: act) 0 GE F0 P0) as [_ B]. specialize (B i Hi).
      assert (NZ : (cd_ic a && Nat.eqb i 0)%bool = false).
      { specialize (GE i Hi). unfold ioff in GE. destruct (cd_ic a); [|reflexivity]. cbn [andb]. apply Nat.eqb_neq. lia. }
      unfold exact_term. rewrite NZ. eapply Rle_trans; [apply TT|]. eapply Rle_trans; [exact B|]. cbn [f_norm]. rewrite (proj2 (Nat.ltb_ge _ _) E0). exact K4.
  - intros j Hj HR HZ. apply (K5 j Hj). destruct j as [|j]; [lia|]. cbn [Nat.pred].
    destruct (sweep_wmax a (length (cd_act a)) HR (increasing_nodup _ IN) eq_refl (length (cd_act a)) 0 (fst (f_after r a j seed w q))
      (mkCS (f_coefs r a j seed w q) (f_grads r a j seed w q) 0 0) ltac:(lia) (Rle_refl 0) (or_introl eq_refl)) as [H|[i [Hi H]]]; [exact H|].
    exfalso. apply H. apply HZ. apply nth_In, Hi.
Qed.
End Run.
Print Assumptions C84_floats.
Print Assumptions C84_stop.

(** Non-vacuity: an intercept and two columns, an L1 penalty and a bound, doubles. *)
Definition ex84s : cd_args :=
  mkCD (0 :: 1 :: 2 :: nil)%nat (fun _ => 1) (fun i j => if Nat.eqb i j then 4 else 1) 50 1 true false (fun _ => Some 0) (fun _ => None) 0.
Example ex84_stop : increasing (cd_act ex84s) /\ float_bounds 53 (-1074) (cd_lb ex84s) /\ float_bounds 53 (-1074) (cd_ub ex84s) /\
  (forall j, is_float 53 (-1074) (cd_P1 ex84s j)) /\ (forall i : nat, is_float 53 (-1074) 2) /\ (1 <= cd_max_iter ex84s)%nat.
Proof.
  assert (I : forall z, (Z.abs z < 2 ^ 53)%Z -> is_float 53 (-1074) (IZR z)) by (intros z H; exists z, 0%Z; split; [exact H|]; split; [lia|]; cbn; ring).
  repeat split; try (intros; cbn in *; lia); try (intros j x E; cbn in E; first [discriminate | injection E as <-; apply (I 0%Z); reflexivity]).
  - intros j. apply (I 1%Z). reflexivity.
  - intros _. apply (I 2%Z). reflexivity.
Qed.
