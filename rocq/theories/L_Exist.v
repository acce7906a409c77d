(** Existence of minimisers of strongly convex functions of finitely many variables, without compactness or choice: the
    sublevel sets shrink to a point, which the completeness of R provides coordinate by coordinate. *)
From Coq Require Import List Lia Lra Arith.
From Coquelicot Require Import Coquelicot.
From Verif Require Import Base.
Local Open Scope R_scope.

Section MinExists.
Variables (n : nat) (adm : (nat -> R) -> Prop) (f : (nat -> R) -> R) (m : R).
Hypothesis Hm : 0 < m.
Hypothesis Hne : exists x, adm x.
Hypothesis Hlow : forall x, adm x -> 0 <= f x.
Hypothesis Hmid : forall x y, adm x -> adm y -> exists z, adm z /\ forall k, (k < n)%nat -> f z + m * (x k - y k) ^ 2 <= / 2 * (f x + f y).
Hypothesis Hlsc : forall z, exists K, 0 <= K /\ forall d x, 0 <= d -> adm x -> (forall k, (k < n)%nat -> Rabs (x k - z k) <= d) -> f z <= f x + K * d.
Hypothesis Hclosed : forall z, (forall d, 0 < d -> exists x, adm x /\ forall k, (k < n)%nat -> Rabs (x k - z k) <= d) -> adm z.

Lemma inf_exists : exists I, (forall x, adm x -> I <= f x) /\ forall e, 0 < e -> exists x, adm x /\ f x <= I + e.
Proof.
  destruct (completeness (fun r => exists x, adm x /\ r = - f x)) as [M [U L]].
  - exists 0. intros r [x [Hx ->]]. pose proof (Hlow x Hx). lra.
  - destruct Hne as [x Hx]. exists (- f x), x. split; [exact Hx|reflexivity].
  - exists (- M). split.
    + intros x Hx. specialize (U (- f x) (ex_intro _ x (conj Hx eq_refl))). lra.
    + intros e He. apply Classical_Prop.NNPP. intros N.
      assert (M <= M - e); [|lra]. apply L. intros r [x [Hx ->]]. apply Rnot_lt_le. intros Hr. apply N. exists x. split; [exact Hx|lra].
Qed.
Definition low (I e : R) (x : nat -> R) : Prop := adm x /\ f x <= I + e.
Definition Fk (I : R) (k : nat) (P : R -> Prop) : Prop := exists e, 0 < e /\ forall x, low I e x -> P (x k).
Lemma low_close I e x y k : (forall x, adm x -> I <= f x) -> low I e x -> low I e y -> (k < n)%nat -> Rabs (x k - y k) <= sqrt (e / m).
Proof.
  intros HI [A1 L1] [A2 L2] Hk. destruct (Hmid x y A1 A2) as [z [Az Z]]. specialize (Z k Hk). specialize (HI z Az).
  rewrite <- sqrt_Rsqr_abs. apply sqrt_le_1_alt. unfold Rsqr. apply Rmult_le_reg_l with m; [exact Hm|].
  replace (m * (e / m)) with e by (field; lra). nra.
Qed.
Lemma minimiser_exists : exists z, adm z /\ forall x, adm x -> f z <= f x.
Proof.
  destruct inf_exists as [I [HI HE]].
  assert (PF : forall k, ProperFilter (Fk I k)).
  { intros k. constructor.
    - intros P [e [He HP]]. destruct (HE e He) as [x [Ax Lx]]. exists (x k). apply HP. split; assumption.
    - constructor.
      + exists 1. split; [lra|auto].
      + intros P Q [e [He HP]] [e' [He' HQ]]. exists (Rmin e e'). split; [apply Rmin_pos; assumption|]. intros x [Ax Lx].
        pose proof (Rmin_l e e'). pose proof (Rmin_r e e'). split; [apply HP|apply HQ]; (split; [exact Ax|lra]).
      + intros P Q H [e [He HP]]. exists e. split; [exact He|auto]. }
  assert (small : forall eps, 0 < eps -> exists e, 0 < e /\ sqrt (e / m) < eps).
  { intros eps He. exists (m * (eps / 2) ^ 2). split; [apply Rmult_lt_0_compat; [exact Hm|apply pow_lt; lra]|].
    replace (m * (eps / 2) ^ 2 / m) with ((eps / 2) ^ 2) by (field; lra). rewrite sqrt_pow2; lra. }
  assert (CA : forall k, (k < n)%nat -> cauchy (Fk I k)).
  { intros k Hk [eps Heps]. destruct (small eps Heps) as [e [He Se]]. destruct (HE e He) as [x [Ax Lx]]. exists (x k). exists e. split; [exact He|].
    intros y Ly. unfold ball. cbn. unfold AbsRing_ball, abs, minus, plus, opp. cbn.
    eapply Rle_lt_trans; [|exact Se]. apply (low_close I e y x k HI Ly (conj Ax Lx) Hk). }
  pose (z := fun k => R_complete_lim (Fk I k)).
  assert (Z : forall e x k, 0 < e -> low I e x -> (k < n)%nat -> Rabs (x k - z k) <= sqrt (e / m)).
  { intros e x k He Lx Hk. apply le_epsilon. intros eps Heps.
    destruct (R_complete (Fk I k) (PF k) (CA k Hk) (mkposreal eps Heps)) as [e' [He' HB]].
    destruct (HE (Rmin e e') (Rmin_pos _ _ He He')) as [y [Ay Ly]]. pose proof (Rmin_l e e'). pose proof (Rmin_r e e').
    assert (Ly1 : low I e y) by (split; [exact Ay|lra]). assert (Ly2 : low I e' y) by (split; [exact Ay|lra]).
    specialize (HB y Ly2). unfold ball in HB. cbn in HB. unfold AbsRing_ball, abs, minus, plus, opp in HB. cbn in HB. fold (z k) in HB.
    pose proof (low_close I e x y k HI Lx Ly1 Hk) as C.
    replace (x k - z k) with ((x k - y k) + (y k + - z k)) by ring. eapply Rle_trans; [apply Rabs_triang|]. lra. }
  assert (AZ : adm z).
  { apply Hclosed. intros d Hd. destruct (small d Hd) as [e [He Se]]. destruct (HE e He) as [x [Ax Lx]]. exists x. split; [exact Ax|].
    intros k Hk. eapply Rle_trans; [apply (Z e x k He (conj Ax Lx) Hk)|lra]. }
  exists z. split; [exact AZ|]. intros x Hx. apply Rle_trans with I; [|apply HI, Hx].
  destruct (Hlsc z) as [K [HK HL]]. apply le_epsilon. intros eps Heps.
  destruct (small (eps / (2 * (K + 1)))) as [e [He Se]]. { apply Rdiv_lt_0_compat; lra. }
  assert (He2 : 0 < eps / 2) by lra. destruct (HE (Rmin e (eps / 2)) (Rmin_pos _ _ He He2)) as [y [Ay Ly]]. pose proof (Rmin_l e (eps / 2)). pose proof (Rmin_r e (eps / 2)).
  assert (Ly1 : low I e y) by (split; [exact Ay|lra]).
  specialize (HL (sqrt (e / m)) y (sqrt_pos _) Ay (fun k Hk => Z e y k He Ly1 Hk)).
  assert (KS : K * sqrt (e / m) <= (K + 1) * (eps / (2 * (K + 1)))).
  { apply Rmult_le_compat; [exact HK|apply sqrt_pos|lra|lra]. }
  replace ((K + 1) * (eps / (2 * (K + 1)))) with (eps / 2) in KS by (field; lra). lra.
Qed.
End MinExists.
