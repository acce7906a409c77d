(** C106: fits depend continuously on alpha. *)
From Coq Require Import List Lia Lra Arith. Import ListNotations.
From Verif Require Import Base M_Link M_Dist M_Std M_Valid M_Fit L_KKT L_Std L_Solver3 S_Dist S_Std S_Fit S_FitAll L_Dist L_Score L_FitAll L_Gap L_Fit P_Dist P_Score P_FitAll P_Train P_Order P_Recode P_Ones P_Shrink P_Response P_Weight.
From Verif Require Import M_Solver S_Solver S_Response.
Local Open Scope R_scope.

Lemma alpha_pen u x b : user_pen (at_alpha u x) (pen_scale (at_alpha u x)) b = x * user_pen u (pen_scale u) b.
Proof. unfold user_pen. rewrite alpha_l2, alpha_l1. ring. Qed.
Lemma alpha_obj u x b0 b : user_obj (at_alpha u x) (pen_scale (at_alpha u x)) b0 b = user_half_dev u b0 b + x * user_pen u (pen_scale u) b.
Proof. rewrite obj_split, alpha_pen. reflexivity. Qed.

(** Fits without warnings at two alphas: their distance is bounded by the difference of the alphas times the difference of
    the penalty terms, plus the tolerances. *)
Theorem C106_two_alphas : forall u al al' s s' se se' b0 b b0' b' D,
  user_ok (at_alpha u al) -> user_ok (at_alpha u al') -> convex_pair (u_fam u) (u_link u) ->
  silent s (at_alpha u al) se b0 b -> silent s' (at_alpha u al') se' b0' b' -> 0 <= D -> std_close u D b0 b b0' b' ->
  (al + al') / 2 * user_l2 u (pen_scale u) (fun j => b' j - b j) + / 2 * (pred_dev u b0 b b0' b' + pred_dev u b0' b' b0 b)
  <= (al' - al) * (user_pen u (pen_scale u) b - user_pen u (pen_scale u) b') + (fit_tol s u se + fit_tol s' u se') * D.
Proof.
  intros u al al' s s' se se' b0 b b0' b' D Ok Ok' Hc S1 S2 HD HX.
  destruct (silent_near s (at_alpha u al) se b0 b Ok Hc S1) as [[I1 N1] F1]. destruct (silent_near s' (at_alpha u al') se' b0' b' Ok' Hc S2) as [[I2 N2] F2].
  specialize (N1 b0' b' D (conj F2 I) I2 HD HX). specialize (N2 b0 b D (conj F1 I) I1 HD (std_close_sym _ _ _ _ _ _ HX)).
  rewrite !alpha_obj, alpha_l2 in N1, N2.
  rewrite (user_l2_sym u (pen_scale u) (fun j => b' j - b j) (fun j => b j - b' j)) in N2 by (intros; ring).
  change (fit_tol s (at_alpha u al) se) with (fit_tol s u se) in N1. change (fit_tol s' (at_alpha u al') se') with (fit_tol s' u se') in N2.
  change (pred_dev (at_alpha u al) b0 b b0' b') with (pred_dev u b0 b b0' b') in N1.
  change (pred_dev (at_alpha u al') b0' b' b0 b) with (pred_dev u b0' b' b0 b) in N2. lra.
Qed.
Print Assumptions C106_two_alphas.

(** The trade-off of C64 for every solver: with a larger alpha the penalty term does not rise and the deviance does not fall. *)
Theorem C106_tradeoff : forall u al al' s s' se se' b0 b b0' b' D,
  user_ok (at_alpha u al) -> user_ok (at_alpha u al') -> convex_pair (u_fam u) (u_link u) -> 0 <= al < al' ->
  silent s (at_alpha u al) se b0 b -> silent s' (at_alpha u al') se' b0' b' -> 0 <= D -> std_close u D b0 b b0' b' ->
  let tol := (fit_tol s u se + fit_tol s' u se') * D in
  user_pen u (pen_scale u) b' <= user_pen u (pen_scale u) b + tol / (al' - al) /\
  user_half_dev u b0 b <= user_half_dev u b0' b' + fit_tol s u se * D + al * tol / (al' - al).
Proof.
  intros u al al' s s' se se' b0 b b0' b' D Ok Ok' Hc Hal S1 S2 HD HX tol.
  pose proof (C106_two_alphas u al al' s s' se se' b0 b b0' b' D Ok Ok' Hc S1 S2 HD HX) as H. fold tol in H.
  destruct (silent_near s (at_alpha u al) se b0 b Ok Hc S1) as [[I1 N1] F1]. destruct (silent_near s' (at_alpha u al') se' b0' b' Ok' Hc S2) as [[I2 _] F2].
  specialize (N1 b0' b' D (conj F2 I) I2 HD HX). pose proof (l2_nonneg (at_alpha u al) (fun j => b' j - b j) Ok) as L.
  pose proof (l2_nonneg (at_alpha u al') (fun j => b' j - b j) Ok') as L'. rewrite alpha_l2 in L'.
  pose proof (pred_dev_nonneg (at_alpha u al) b0 b b0' b' Ok Hc) as P1. pose proof (pred_dev_nonneg (at_alpha u al') b0' b' b0 b Ok' Hc) as P2.
  change (pred_dev (at_alpha u al) b0 b b0' b') with (pred_dev u b0 b b0' b') in *. change (pred_dev (at_alpha u al') b0' b' b0 b) with (pred_dev u b0' b' b0 b) in P2.
  rewrite !alpha_obj in N1. rewrite alpha_l2 in N1, L. change (fit_tol s (at_alpha u al) se) with (fit_tol s u se) in N1.
  set (q := user_l2 u (pen_scale u) _) in *. set (P := user_pen u (pen_scale u) b) in *. set (P' := user_pen u (pen_scale u) b') in *.
  assert (A : P' <= P + tol / (al' - al)).
  { apply Rmult_le_reg_r with (al' - al); [lra|]. replace ((P + tol / (al' - al)) * (al' - al)) with (P * (al' - al) + tol) by (field; lra). lra. }
  split; [exact A|]. apply (Rmult_le_compat_l al) in A; [|lra].
  replace (al * (P + tol / (al' - al))) with (al * P + al * tol / (al' - al)) in A by (field; lra). lra.
Qed.
Print Assumptions C106_tradeoff.

(** A modulus of continuity: with an L2 form of at least m times the sum of squares, two fits at alpha < alpha' differ in
    each coefficient by at most the square root of 2 (alpha' - alpha) (H + e) / (alpha (alpha + alpha') m), plus tolerances,
    where H is the half deviance of a model with zero coefficients. *)
Theorem C106_continuity : forall u al al' s s' se se' b0 b b0' b' D c D0 m j,
  user_ok (at_alpha u al) -> user_ok (at_alpha u al') -> convex_pair (u_fam u) (u_link u) -> 0 < al < al' ->
  silent s (at_alpha u al) se b0 b -> silent s' (at_alpha u al') se' b0' b' -> 0 <= D -> std_close u D b0 b b0' b' ->
  user_feasible u (fun _ => 0) -> (u_ic u = false -> c = 0) -> 0 <= D0 -> std_close u D0 b0 b c (fun _ => 0) ->
  0 < m -> (forall d, m * rsum (u_p u) (fun j => d j ^ 2) <= user_l2 u (pen_scale u) d) -> (j < u_p u)%nat ->
  (b' j - b j) ^ 2 <= 2 * (al' - al) * (user_half_dev u c (fun _ => 0) + fit_tol s u se * D0) / (al * (al + al') * m)
                      + 2 * (fit_tol s u se + fit_tol s' u se') * D / ((al + al') * m).
Proof.
  intros u al al' s s' se se' b0 b b0' b' D c D0 m j Ok Ok' Hc Hal S1 S2 HD HX F0 Hic HD0 HX0 Hm HL Hj.
  pose proof (C106_two_alphas u al al' s s' se se' b0 b b0' b' D Ok Ok' Hc S1 S2 HD HX) as H.
  destruct (silent_near s (at_alpha u al) se b0 b Ok Hc S1) as [[I1 N1] F1].
  specialize (N1 c (fun _ => 0) D0 (conj F0 I) Hic HD0 HX0).
  pose proof (pred_dev_nonneg (at_alpha u al) b0 b b0' b' Ok Hc) as P1. pose proof (pred_dev_nonneg (at_alpha u al') b0' b' b0 b Ok' Hc) as P2.
  pose proof (pred_dev_nonneg (at_alpha u al) b0 b c (fun _ => 0) Ok Hc) as P3.
  change (pred_dev (at_alpha u al) b0 b b0' b') with (pred_dev u b0 b b0' b') in *. change (pred_dev (at_alpha u al') b0' b' b0 b) with (pred_dev u b0' b' b0 b) in P2.
  pose proof (l2_nonneg (at_alpha u al) (fun j => 0 - b j) Ok) as L0.
  pose proof (pen_nonneg (at_alpha u al') b' Ok') as Q'. rewrite alpha_pen in Q'.
  assert (PN : 0 <= user_pen u (pen_scale u) b') by (apply Rmult_le_reg_l with al'; lra).
  rewrite !alpha_obj in N1. change (fit_tol s (at_alpha u al) se) with (fit_tol s u se) in N1.
  pose proof (half_dev_nonneg (at_alpha u al) b0 b Ok Hc) as HN. change (user_half_dev (at_alpha u al) b0 b) with (user_half_dev u b0 b) in HN.
  assert (PZ : user_pen u (pen_scale u) (fun _ => 0) = 0) by apply pen_zero. rewrite PZ in N1.
  set (G := user_half_dev u c (fun _ => 0) + fit_tol s u se * D0). set (P := user_pen u (pen_scale u) b) in *.
  assert (PB : al * P <= G) by (unfold G; lra).
  set (T := (fit_tol s u se + fit_tol s' u se') * D) in *.
  specialize (HL (fun j => b' j - b j)). set (q := user_l2 u (pen_scale u) _) in *.
  pose proof (rsum_ge_one (u_p u) (fun j => (b' j - b j) ^ 2) j ltac:(intros; apply pow2_ge_0) Hj) as X. cbv beta in X.
  set (x := (b' j - b j) ^ 2) in *. set (sx := rsum (u_p u) (fun j => (b' j - b j) ^ 2)) in *.
  assert (K1 : m * x <= q) by (eapply Rle_trans; [apply Rmult_le_compat_l; [lra|exact X]|exact HL]).
  assert (K2 : (al + al') / 2 * q <= (al' - al) * P + T) by nra.
  assert (K3 : (al + al') / 2 * (m * x) <= (al' - al) * P + T) by (eapply Rle_trans; [apply Rmult_le_compat_l; [lra|exact K1]|exact K2]).
  assert (K4 : al * ((al + al') / 2 * (m * x)) <= (al' - al) * G + al * T) by nra.
  assert (Pm : 0 < al * (al + al') * m) by (apply Rmult_lt_0_compat; [apply Rmult_lt_0_compat; lra|lra]).
  apply Rmult_le_reg_r with (al * (al + al') * m); [exact Pm|].
  replace ((2 * (al' - al) * G / (al * (al + al') * m) + 2 * (fit_tol s u se + fit_tol s' u se') * D / ((al + al') * m)) * (al * (al + al') * m))
    with (2 * ((al' - al) * G + al * T)) by (unfold T; field; lra). lra.
Qed.
Print Assumptions C106_continuity.

Example ex106_nonvacuous : forall al al', 0 < al < al' -> exists b b' D D0,
  user_ok (at_alpha ex101_u al) /\ user_ok (at_alpha ex101_u al') /\ silent SClosed (at_alpha ex101_u al) ex70_se 0 b /\
  silent SClosed (at_alpha ex101_u al') ex70_se 0 b' /\ 0 <= D /\ std_close ex101_u D 0 b 0 b' /\ user_feasible ex101_u (fun _ => 0) /\
  0 <= D0 /\ std_close ex101_u D0 0 b 0 (fun _ => 0) /\
  forall d, / 2 * rsum (u_p ex101_u) (fun j => d j ^ 2) <= user_l2 ex101_u (pen_scale ex101_u) d.
Proof.
  intros al al' Hal.
  assert (K : forall x, 0 < x -> user_ok (at_alpha ex101_u x) /\ exists b, silent SClosed (at_alpha ex101_u x) ex70_se 0 b).
  { intros x Hx. destruct (ex101_nonvacuous x Hx) as (b & O & _ & L & St & Ac & _ & E & _). split; [exact O|]. exists b, exact_libs, 0, StartNone, 0.
    split; [cbn; lra|]. split; [reflexivity|]. split; [cbn; lra|]. split; [exact L|]. split; [exact St|]. split; [exact Ac|].
    split; [discriminate|]. split; [discriminate|exact E]. }
  destruct (K al ltac:(lra)) as [O [b E]]. destruct (K al' ltac:(lra)) as [O' [b' E']].
  destruct (close_somewhere ex101_u 0 b 0 b') as [D [HD C]]. destruct (close_somewhere ex101_u 0 b 0 (fun _ => 0)) as [D0 [HD0 C0]].
  exists b, b', D, D0. split; [exact O|]. split; [exact O'|]. split; [exact E|]. split; [exact E'|]. split; [exact HD|]. split; [exact C|].
  split; [intros j _; split; discriminate|]. split; [exact HD0|]. split; [exact C0|].
  destruct (ex101_nonvacuous al ltac:(lra)) as (b1 & _ & _ & _ & _ & _ & _ & _ & _ & M). exact M.
Qed.
Print Assumptions ex106_nonvacuous.
