(** Lemmas about rounding. *)
From Coq Require Import Reals ZArith Lra Lia.
From Flocq Require Import Core Relative Plus_error.
From Verif Require Import Base M_Float S_Float.
Local Open Scope R_scope.

Section Fmt.
Variables p e0 : Z.
Hypothesis Hp : (1 < p)%Z.
Local Instance Pp : Prec_gt_0 p. Proof. unfold Prec_gt_0. lia. Qed.
Local Notation F := (generic_format radix2 (FLT_exp e0 p)).
Lemma fmt_iff x : F x <-> is_float p e0 x.
Proof.
  split.
  - intros H. destruct (FLT_format_generic radix2 e0 p x H) as [[m e] E Hm He]. exists m, e. cbn in Hm, He.
    split; [exact Hm|]. split; [exact He|]. rewrite E. unfold F2R. cbn [Fnum Fexp]. rewrite bpow_powerRZ. reflexivity.
  - intros [m [e [Hm [He E]]]]. apply generic_format_FLT. exists (Float radix2 m e); [|exact Hm|exact He].
    rewrite E. unfold F2R. cbn [Fnum Fexp]. rewrite bpow_powerRZ. reflexivity.
Qed.
Lemma rnd_float x : is_float p e0 (rnd p e0 x).
Proof. apply fmt_iff. apply generic_format_round; [apply FLT_exp_valid, Pp|apply valid_rnd_N]. Qed.
Lemma rnd_nearest x : nearest (is_float p e0) x (rnd p e0 x).
Proof.
  split; [apply rnd_float|]. intros z Hz. destruct (round_N_pt radix2 (FLT_exp e0 p) (fun x => negb (Z.even x)) x) as [_ N].
  apply N, fmt_iff, Hz.
Qed.
Lemma rnd_id x : is_float p e0 x -> rnd p e0 x = x.
Proof. intros H. apply round_generic; [apply valid_rnd_N|apply fmt_iff, H]. Qed.
Lemma rnd_mono x y : x <= y -> rnd p e0 x <= rnd p e0 y.
Proof. apply round_le; [apply FLT_exp_valid, Pp|apply valid_rnd_N]. Qed.
Lemma rnd_opp x : rnd p e0 (- x) = - rnd p e0 x.
Proof. apply round_NE_opp. Qed.
Lemma rnd_0 : rnd p e0 0 = 0.
Proof. apply round_0, valid_rnd_N. Qed.
Lemma rnd_nonneg x : 0 <= x -> 0 <= rnd p e0 x.
Proof. intros H. rewrite <- rnd_0. apply rnd_mono, H. Qed.
Lemma rnd_nonpos x : x <= 0 -> rnd p e0 x <= 0.
Proof. intros H. rewrite <- rnd_0. apply rnd_mono, H. Qed.
Lemma rnd_ge x y : is_float p e0 y -> y <= x -> y <= rnd p e0 x.
Proof. intros H L. rewrite <- (rnd_id y H). apply rnd_mono, L. Qed.
Lemma rnd_le x y : is_float p e0 y -> x <= y -> rnd p e0 x <= y.
Proof. intros H L. rewrite <- (rnd_id y H). apply rnd_mono, L. Qed.
Lemma float_opp x : is_float p e0 x -> is_float p e0 (- x).
Proof. intros [m [e [H1 [H2 ->]]]]. exists (- m)%Z, e. rewrite Z.abs_opp, opp_IZR. split; [exact H1|]. split; [exact H2|ring]. Qed.
Lemma float_0 : is_float p e0 0.
Proof. rewrite <- rnd_0. apply rnd_float. Qed.
Lemma rnd_err x : Rabs (rnd p e0 x - x) <= bpow radix2 (- p) * Rabs x + bpow radix2 (e0 - 1).
Proof.
  destruct (error_N_FLT radix2 e0 p ltac:(lia) (fun x => negb (Z.even x)) x) as [d [h [Hd [Hh [_ E]]]]].
  unfold rnd. rewrite E. replace (x * (1 + d) + h - x) with (d * x + h) by ring.
  eapply Rle_trans; [apply Rabs_triang|]. rewrite Rabs_mult.
  assert (B1 : / 2 * bpow radix2 (- p + 1) = bpow radix2 (- p)) by (rewrite bpow_plus; change (bpow radix2 1) with 2; field).
  assert (B2 : / 2 * bpow radix2 e0 = bpow radix2 (e0 - 1)).
  { unfold Z.sub. rewrite bpow_plus. change (bpow radix2 (-(1))) with (/ 2). ring. }
  rewrite B1 in Hd. rewrite B2 in Hh. apply Rplus_le_compat; [|exact Hh]. apply Rmult_le_compat_r; [apply Rabs_pos|exact Hd].
Qed.
Lemma rnd_add_err x y : is_float p e0 x -> is_float p e0 y -> Rabs (rnd p e0 (x + y) - (x + y)) <= bpow radix2 (- p) * Rabs (x + y).
Proof.
  intros Hx Hy. apply fmt_iff in Hx, Hy.
  destruct (FLT_plus_error_N_ex radix2 e0 p (fun x => negb (Z.even x)) x y Hx Hy) as [d [Hd E]].
  unfold rnd. rewrite E. replace ((x + y) * (1 + d) - (x + y)) with (d * (x + y)) by ring. rewrite Rabs_mult.
  apply Rmult_le_compat_r; [apply Rabs_pos|]. eapply Rle_trans; [exact Hd|].
  unfold u_ro. assert (B1 : / 2 * bpow radix2 (- p + 1) = bpow radix2 (- p)) by (rewrite bpow_plus; change (bpow radix2 1) with 2; field).
  rewrite B1. pose proof (bpow_gt_0 radix2 (- p)). apply Rmult_le_reg_r with (1 + bpow radix2 (- p)); [lra|].
  unfold Rdiv. rewrite Rmult_assoc, Rinv_l by lra. nra.
Qed.
End Fmt.
