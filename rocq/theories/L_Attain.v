(** Compactness for C112: a lower semicontinuous function with bounded sublevel sets attains its minimum (no choice, no
    convexity): cluster points of filter bases in R^n, coordinate by coordinate. *)
From Coq Require Import Reals Lra Lia Classical_Prop Arith.
Local Open Scope R_scope.

Section Cluster.
Variable F : R -> (nat -> R) -> Prop.
Hypothesis Fmono : forall e e' x, 0 < e -> e <= e' -> F e x -> F e' x.
Hypothesis Fne : forall e, 0 < e -> exists x, F e x.
Lemma cluster n : (exists B, forall x, F 1 x -> forall k, (k < n)%nat -> Rabs (x k) <= B) ->
  exists c, forall e, 0 < e -> exists x, F e x /\ forall k, (k < n)%nat -> Rabs (x k - c k) <= e.
Proof.
  induction n as [|n IH]; intros [B HB].
  - exists (fun _ => 0). intros e He. destruct (Fne e He) as [x Hx]. exists x; split; [exact Hx | intros; lia].
  - destruct IH as [c Hc]; [exists B; intros; apply HB; [assumption | lia]|].
    pose (G := fun e x => F e x /\ forall k, (k < n)%nat -> Rabs (x k - c k) <= e).
    assert (Gm : forall e e' x, 0 < e -> e <= e' -> G e x -> G e' x).
    { intros e e' x He L [A1 A2]. split; [apply (Fmono e); assumption | intros k Hk; specialize (A2 k Hk); lra]. }
    pose (P := fun t => exists e, 0 < e /\ forall x, G e x -> t < x n).
    assert (Pl : P (- B - 1)).
    { exists 1. split; [lra|]. intros x [A _]. specialize (HB x A n ltac:(lia)). pose proof (Rle_abs (- x n)). rewrite Rabs_Ropp in H. lra. }
    assert (Pu : forall t, P t -> t <= B).
    { intros t [e [He H]]. apply Rnot_lt_le; intros L. destruct (Hc (Rmin e 1)) as [x Hx]; [apply Rmin_glb_lt; lra|].
      assert (G1 : G (Rmin e 1) x) by exact Hx.
      assert (A : G e x) by (apply (Gm (Rmin e 1)); [apply Rmin_glb_lt; lra | apply Rmin_l | exact G1]).
      assert (A1 : G 1 x) by (apply (Gm (Rmin e 1)); [apply Rmin_glb_lt; lra | apply Rmin_r | exact G1]).
      specialize (H x A). specialize (HB x (proj1 A1) n ltac:(lia)). pose proof (Rle_abs (x n)). lra. }
    destruct (completeness P) as [s [U L]]; [exists B; intros t Ht; apply Pu, Ht | exists (- B - 1); exact Pl|].
    exists (fun k => if Nat.eqb k n then s else c k). intros e He.
    assert (A : exists t, P t /\ s - e < t).
    { apply NNPP. intros N. assert (is_upper_bound P (s - e)).
      { intros t Ht. apply Rnot_lt_le. intros Q. apply N. exists t; split; assumption. }
      specialize (L _ H). lra. }
    destruct A as [t [[e1 [He1 Ht]] Lt]].
    assert (NP : ~ P (s + e)) by (intros Q; specialize (U _ Q); lra).
    assert (M : 0 < Rmin e e1) by (apply Rmin_glb_lt; lra).
    assert (X : exists x, G (Rmin e e1) x /\ x n <= s + e).
    { apply NNPP. intros N. apply NP. exists (Rmin e e1). split; [exact M|]. intros x Hx. apply Rnot_le_lt. intros Q. apply N. exists x; split; assumption. }
    destruct X as [x [Gx Xn]]. exists x.
    assert (G1 : G e x) by (apply (Gm (Rmin e e1)); [exact M | apply Rmin_l | exact Gx]).
    assert (G2 : G e1 x) by (apply (Gm (Rmin e e1)); [exact M | apply Rmin_r | exact Gx]).
    split; [apply G1|]. intros k Hk. destruct (Nat.eqb_spec k n) as [->|Nk].
    + specialize (Ht x G2). apply Rabs_le. lra.
    + apply G1. lia.
Qed.
End Cluster.

Section Attain.
Variables (n : nat) (adm : (nat -> R) -> Prop) (f : (nat -> R) -> R).
Hypothesis Hne : exists x, adm x.
Hypothesis Hlow : forall x, adm x -> 0 <= f x.
Hypothesis Hclosed : forall z, (forall e, 0 < e -> exists x, adm x /\ forall k, (k < n)%nat -> Rabs (x k - z k) <= e) -> adm z.
Hypothesis Hlsc : forall z, exists K, 0 <= K /\ forall d x, 0 <= d -> (forall k, (k < n)%nat -> Rabs (x k - z k) <= d) -> f z <= f x + K * d.
Hypothesis Hbound : forall M, exists B, forall x, adm x -> f x <= M -> forall k, (k < n)%nat -> Rabs (x k) <= B.
Lemma attained : exists z, adm z /\ forall x, adm x -> f z <= f x.
Proof.
  destruct (completeness (fun r => exists x, adm x /\ r = - f x)) as [S0 [U L]].
  { exists 0. intros r [x [Hx ->]]. pose proof (Hlow x Hx). lra. }
  { destruct Hne as [x Hx]. exists (- f x), x. split; [exact Hx | reflexivity]. }
  set (I := - S0). assert (HI : forall x, adm x -> I <= f x).
  { intros x Hx. assert (- f x <= S0) by (apply U; exists x; split; [exact Hx | reflexivity]). unfold I; lra. }
  assert (HE : forall e, 0 < e -> exists x, adm x /\ f x <= I + e).
  { intros e He. apply NNPP. intros N. assert (is_upper_bound (fun r => exists x, adm x /\ r = - f x) (S0 - e)).
    { intros r [x [Hx ->]]. apply Rnot_lt_le. intros Q. apply N. exists x. split; [exact Hx | unfold I; lra]. }
    specialize (L _ H). lra. }
  destruct (cluster (fun e x => adm x /\ f x <= I + e)) with (n := n) as [c Hc].
  - intros e e' x He Le [A1 A2]. split; [exact A1 | lra].
  - exact HE.
  - destruct (Hbound (I + 1)) as [B HB]. exists B. intros x [A1 A2]. apply HB; assumption.
  - exists c. split.
    + apply Hclosed. intros e He. destruct (Hc e He) as [x [[A1 _] A3]]. exists x; split; assumption.
    + intros x Hx. specialize (HI x Hx). destruct (Hlsc c) as [K [HK HL]].
      apply Rle_trans with I; [|exact HI]. apply Rnot_lt_le. intros Q.
      pose (e := (f c - I) / (2 * (1 + K))). assert (He : 0 < e) by (apply Rmult_lt_0_compat; [lra | apply Rinv_0_lt_compat; lra]).
      destruct (Hc e He) as [y [[A1 A2] A3]]. specialize (HL e y ltac:(lra) A3).
      assert (E : e * (1 + K) = (f c - I) / 2) by (unfold e; field; lra). lra.
Qed.
End Attain.

(** the largest absolute value *)
Fixpoint sup (n : nat) (x : nat -> R) : R := match n with O => 0 | S n => Rmax (sup n x) (Rabs (x n)) end.
Lemma sup_nonneg n x : 0 <= sup n x.
Proof. induction n; simpl; [lra | eapply Rle_trans; [exact IHn | apply Rmax_l]]. Qed.
Lemma sup_ge n x k : (k < n)%nat -> Rabs (x k) <= sup n x.
Proof.
  induction n; intros H; [lia|]. simpl. destruct (Nat.eq_dec k n) as [->|]; [apply Rmax_r|]. eapply Rle_trans; [apply IHn; lia | apply Rmax_l].
Qed.
Lemma sup_attained n x : (0 < sup n x) -> exists k, (k < n)%nat /\ Rabs (x k) = sup n x.
Proof.
  induction n; simpl; [lra|]. intros H. destruct (Rle_dec (sup n x) (Rabs (x n))) as [L|L].
  - exists n; split; [lia|]. now rewrite Rmax_right.
  - rewrite Rmax_left in * by lra. destruct (IHn H) as [k [A B]]. exists k; split; [lia | exact B].
Qed.
(** an unbounded set has a direction in which it is unbounded *)
Lemma direction n (S0 : (nat -> R) -> Prop) :
  (forall B, exists x, S0 x /\ exists k, (k < n)%nat /\ B < Rabs (x k)) ->
  exists c, (exists k, (k < n)%nat /\ c k <> 0) /\
    forall e, 0 < e -> exists x r, S0 x /\ / e <= r /\ forall k, (k < n)%nat -> Rabs (x k / r - c k) <= e.
Proof.
  intros H. destruct (cluster (fun e d => exists x, S0 x /\ / e <= sup n x /\ 0 < sup n x /\ d = fun k => x k / sup n x)) with (n := n) as [c Hc].
  - intros e e' d He Le (x & A1 & A2 & A3 & A4). exists x. split; [exact A1 | split; [|split; assumption]].
    eapply Rle_trans; [|exact A2]. apply Rinv_le_contravar; assumption.
  - intros e He. destruct (H (/ e)) as (x & A1 & k & Hk & A2). pose proof (sup_ge n x k Hk) as A3. pose proof (Rinv_0_lt_compat e He).
    eexists. exists x. split; [exact A1 | split; [lra | split; [lra | reflexivity]]].
  - exists 1. intros d (x & A1 & A2 & A3 & ->) k Hk. unfold Rdiv. rewrite Rabs_mult, (Rabs_pos_eq (/ sup n x)) by (left; apply Rinv_0_lt_compat; exact A3).
    apply Rmult_le_reg_r with (sup n x); [exact A3|]. rewrite Rmult_assoc, Rinv_l by lra. rewrite Rmult_1_r, Rmult_1_l. apply sup_ge, Hk.
  - exists c. split.
    + apply NNPP. intros N. destruct (Hc (/ 2)) as [d [(x & A1 & A2 & A3 & ->) A4]]; [lra|].
      destruct (sup_attained n x A3) as [k [Hk Ek]]. specialize (A4 k Hk). 
      assert (Z : c k = 0) by (apply NNPP; intros Q; apply N; exists k; split; assumption). rewrite Z, Rminus_0_r in A4.
      unfold Rdiv in A4. rewrite Rabs_mult, (Rabs_pos_eq (/ sup n x)) in A4 by (left; apply Rinv_0_lt_compat; exact A3). rewrite Ek, Rinv_r in A4 by lra. lra.
    + intros e He. destruct (Hc e He) as [d [(x & A1 & A2 & A3 & ->) A4]]. exists x, (sup n x). split; [exact A1 | split; [exact A2 | exact A4]].
Qed.
