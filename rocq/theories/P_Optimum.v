(** C108: the fit is well defined. *)
From Coq Require Import List Lia Lra Arith. Import ListNotations.
From Verif Require Import Base M_Link M_Dist M_Std M_Valid M_Fit L_KKT L_Std L_Solver3 S_Dist S_Std S_Fit S_FitAll L_Dist L_Dist4 L_Score L_FitAll L_Gap L_Obj L_Fit P_Dist P_Score P_FitAll P_Train P_Order P_Shrink P_Ones L_Exist.
From Verif Require Import M_Solver S_Solver S_Response P_Response P_Weight S_Separation P_Separation S_Optimum.
Local Open Scope R_scope.

Lemma user_l2_mid u k x y :
  / 2 * (/ 2 * user_l2 u k x + / 2 * user_l2 u k y) - / 2 * user_l2 u k (fun j => / 2 * (x j + y j)) = / 8 * user_l2 u k (fun j => x j - y j).
Proof.
  unfold user_l2. rewrite <- !rsum_scal, <- rsum_plus, <- !rsum_scal, <- rsum_minus. apply rsum_ext. intros i _.
  rewrite <- !rsum_scal, <- rsum_plus, <- !rsum_scal, <- rsum_minus. apply rsum_ext. intros j _. field.
Qed.
Lemma l1_mid u k x y : user_ok u ->
  rsum (u_p u) (fun j => u_P1 u j * Rabs (k j * (/ 2 * (x j + y j))))
  <= / 2 * (rsum (u_p u) (fun j => u_P1 u j * Rabs (k j * x j)) + rsum (u_p u) (fun j => u_P1 u j * Rabs (k j * y j))).
Proof.
  intros (_ & _ & _ & P & _). rewrite <- rsum_plus, <- rsum_scal. apply rsum_le. intros j _. specialize (P j).
  replace (k j * (/ 2 * (x j + y j))) with (/ 2 * (k j * x j + k j * y j)) by ring. rewrite Rabs_mult, (Rabs_pos_eq (/ 2)) by lra.
  pose proof (Rabs_triang (k j * x j) (k j * y j)). nra.
Qed.
(** Midpoint form of strong convexity. *)
Lemma obj_mid u b0 b b0' b' : user_ok u -> convex_pair (u_fam u) (u_link u) ->
  user_obj u (pen_scale u) (/ 2 * (b0 + b0')) (fun j => / 2 * (b j + b' j)) + / 8 * curvature u (b0 - b0') (fun j => b j - b' j)
  <= / 2 * (user_obj u (pen_scale u) b0 b + user_obj u (pen_scale u) b0' b').
Proof.
  intros Hok Hc. rewrite !obj_split. unfold user_pen, curvature.
  pose proof (user_l2_mid u (pen_scale u) b b') as Q. pose proof (l1_mid u (pen_scale u) b b' Hok) as L.
  set (c0 := / 2 * (b0 + b0')). set (c := fun j => / 2 * (b j + b' j)) in *.
  assert (E : forall i, user_eta u c0 c i = / 2 * (user_eta u b0 b i + user_eta u b0' b' i)).
  { intros i. unfold user_eta, c0, c. rewrite (rsum_ext _ _ (fun j => / 2 * (u_X u i j * b j + u_X u i j * b' j))) by (intros; field).
    rewrite rsum_scal, rsum_plus. field. }
  assert (T : forall i, tilt u (b0 - b0') (fun j => b j - b' j) i = user_eta u b0 b i - user_eta u b0' b' i).
  { intros i. unfold user_eta, tilt. rewrite (rsum_ext _ _ (fun j => u_X u i j * b j - u_X u i j * b' j)) by (intros; ring).
    rewrite rsum_minus. ring. }
  assert (H : user_half_dev u c0 c + / 8 * match u_fam u, u_link u with NormalF, IdentityL => rsum (u_n u) (fun i => u_w u i * tilt u (b0 - b0') (fun j => b j - b' j) i ^ 2) | _, _ => 0 end
     <= / 2 * (user_half_dev u b0 b + user_half_dev u b0' b')); [|lra].
  assert (M : match u_fam u, u_link u with NormalF, IdentityL => rsum (u_n u) (fun i => u_w u i * tilt u (b0 - b0') (fun j => b j - b' j) i ^ 2) | _, _ => 0 end
     = rsum (u_n u) (fun i => u_w u i * match u_fam u, u_link u with NormalF, IdentityL => (user_eta u b0 b i - user_eta u b0' b' i) ^ 2 | _, _ => 0 end)).
  { destruct (u_fam u) as [p| | | | | | |th], (u_link u); try (symmetry; apply rsum_zero; intros; ring).
    apply rsum_ext. intros i _. rewrite T. reflexivity. }
  rewrite M, !half_dev_rows by assumption. rewrite <- rsum_plus, <- !rsum_scal, <- rsum_plus. apply rsum_le. intros i Hi.
  pose proof Hok as (Hf & Hy & Hw & _). unfold row_half_dev. rewrite E. set (x := user_eta u b0 b i). set (y := user_eta u b0' b' i). set (z := / 2 * (x + y)).
  set (K := match u_fam u, u_link u with NormalF, IdentityL => (x - y) ^ 2 | _, _ => 0 end). specialize (Hw i Hi).
  set (dz := unit_deviance _ _ (mean_at _ z)). set (dx := unit_deviance _ _ (mean_at _ x)). set (dy := unit_deviance _ _ (mean_at _ y)).
  assert (A : / 2 * dz + / 8 * K <= / 2 * (/ 2 * dx + / 2 * dy)); [|nra].
  pose proof (unit_half (u_fam u) (u_link u) (u_y u i) z x Hf (Hy i Hi) Hc) as U1.
  pose proof (unit_half (u_fam u) (u_link u) (u_y u i) z y Hf (Hy i Hi) Hc) as U2. fold dx dz in U1. fold dy dz in U2.
  assert (B : / 8 * K + half_at (u_fam u) (u_link u) (u_y u i) z <= / 2 * (half_at (u_fam u) (u_link u) (u_y u i) x + half_at (u_fam u) (u_link u) (u_y u i) y)); [|lra].
  assert (GEN : half_at (u_fam u) (u_link u) (u_y u i) z <= / 2 * (half_at (u_fam u) (u_link u) (u_y u i) x + half_at (u_fam u) (u_link u) (u_y u i) y)).
  { pose proof (half_gap (u_fam u) (u_link u) (u_y u i) z x Hf (Hy i Hi) Hc) as G1. pose proof (half_gap (u_fam u) (u_link u) (u_y u i) z y Hf (Hy i Hi) Hc) as G2.
    assert (P : forall e, 0 <= pred_weight (u_fam u) (u_y u i) (mean_at (u_link u) z)
      * (half_at (u_fam u) (u_link u) (mean_at (u_link u) z) e - half_at (u_fam u) (u_link u) (mean_at (u_link u) z) z)).
    { intros e. apply Rmult_le_pos; [apply (pred_weight_nonneg _ _ _ _ Hf (Hy i Hi) Hc)|].
      rewrite <- (unit_half _ _ _ _ _ Hf (mean_support _ _ _ Hc) Hc). pose proof (unit_min (u_fam u) (u_link u) z e Hf Hc). lra. }
    pose proof (P x) as P1. pose proof (P y) as P2. set (r := residual _ _ _ _) in *.
    assert (Z : r * (x - z) + r * (y - z) = 0) by (unfold z; field). lra. }
  unfold K. destruct (u_fam u) as [p| | | | | | |th], (u_link u); try lra. cbn [half_at]. unfold z. right. field.
Qed.
Lemma optimum_gap u b0 b b0' b' : user_ok u -> convex_pair (u_fam u) (u_link u) -> optimum u b0 b -> allowed u b0' b' ->
  user_obj u (pen_scale u) b0 b + / 4 * curvature u (b0 - b0') (fun j => b j - b' j) <= user_obj u (pen_scale u) b0' b'.
Proof.
  intros Hok Hc [[A0 A1] O] [B0 B1]. pose proof (obj_mid u b0 b b0' b' Hok Hc) as M.
  assert (AL : allowed u (/ 2 * (b0 + b0')) (fun j => / 2 * (b j + b' j))).
  { split; [intros E; rewrite (A0 E), (B0 E); ring|]. intros j Hj. destruct (A1 j Hj) as [L1 U1]. destruct (B1 j Hj) as [L2 U2].
    split; intros x E; [specialize (L1 x E); specialize (L2 x E)|specialize (U1 x E); specialize (U2 x E)]; lra. }
  specialize (O _ _ AL). lra.
Qed.
Lemma rsum_sq_ge n f j : (j < n)%nat -> f j ^ 2 <= rsum n (fun j => f j ^ 2).
Proof. intros Hj. apply (rsum_ge_one n (fun j => f j ^ 2) j); [intros; apply pow2_ge_0|exact Hj]. Qed.

(** Where the curvature is positive, at most one point is optimal ... *)
Theorem C108_unique : forall u m b0 b b0' b', user_ok u -> convex_pair (u_fam u) (u_link u) -> curved u m ->
  optimum u b0 b -> optimum u b0' b' -> b0 = b0' /\ forall j, (j < u_p u)%nat -> b j = b' j.
Proof.
  intros u m b0 b b0' b' Hok Hc [Hm HC] O1 O2. pose proof (optimum_gap u b0 b b0' b' Hok Hc O1 (proj1 O2)) as G.
  pose proof (proj2 O2 b0 b (proj1 O1)) as L.
  specialize (HC (b0 - b0') (fun j => b j - b' j) ltac:(intros E; rewrite (proj1 (proj1 O1) E), (proj1 (proj1 O2) E); ring)).
  assert (S : (b0 - b0') ^ 2 + rsum (u_p u) (fun j => (b j - b' j) ^ 2) <= 0) by nra.
  assert (N : 0 <= rsum (u_p u) (fun j => (b j - b' j) ^ 2)) by (apply rsum_nonneg; intros; apply pow2_ge_0).
  split; [pose proof (pow2_ge_0 (b0 - b0')); nra|]. intros j Hj. pose proof (rsum_sq_ge (u_p u) (fun j => b j - b' j) j Hj) as P. cbv beta in P.
  pose proof (pow2_ge_0 (b0 - b0')). pose proof (pow2_ge_0 (b j - b' j)). assert ((b j - b' j) ^ 2 = 0) by lra. nra.
Qed.
Print Assumptions C108_unique.

(** Lower semicontinuity of the objective. *)
Lemma obj_lsc u z0 z : user_ok u -> convex_pair (u_fam u) (u_link u) -> exists K, 0 <= K /\ forall d x0 x, 0 <= d ->
  Rabs (x0 - z0) <= d -> (forall j, (j < u_p u)%nat -> Rabs (x j - z j) <= d) -> user_obj u (pen_scale u) z0 z <= user_obj u (pen_scale u) x0 x + K * d.
Proof.
  intros Hok Hc. set (k := pen_scale u). pose proof Hok as (Hf & Hy & Hw & HP & _ & HQ).
  set (K1 := rsum (u_n u) (fun i => u_w u i * (Rabs (residual (u_fam u) (u_link u) (u_y u i) (user_eta u z0 z i)) * (1 + rsum (u_p u) (fun j => Rabs (u_X u i j)))))).
  set (K2 := rsum (u_p u) (fun i => rsum (u_p u) (fun j => Rabs (k i * p2_entry (u_P2 u) i j * (k j * z j)) + Rabs (k i * z i * p2_entry (u_P2 u) i j * k j)))).
  set (K3 := rsum (u_p u) (fun j => u_P1 u j * Rabs (k j))).
  assert (N1 : 0 <= K1).
  { apply rsum_nonneg. intros i Hi. apply Rmult_le_pos; [apply Hw, Hi|]. apply Rmult_le_pos; [apply Rabs_pos|].
    pose proof (rsum_nonneg (u_p u) (fun j => Rabs (u_X u i j)) ltac:(intros; apply Rabs_pos)). lra. }
  assert (N2 : 0 <= K2).
  { apply rsum_nonneg. intros i _. apply rsum_nonneg. intros j _. pose proof (Rabs_pos (k i * p2_entry (u_P2 u) i j * (k j * z j))).
    pose proof (Rabs_pos (k i * z i * p2_entry (u_P2 u) i j * k j)). lra. }
  assert (N3 : 0 <= K3) by (apply rsum_nonneg; intros; apply Rmult_le_pos; [apply HP|apply Rabs_pos]).
  exists (K1 + / 2 * K2 + K3). split; [lra|]. intros d x0 x Hd H0 HX. rewrite !obj_split. unfold user_pen. fold k.
  assert (A1 : user_half_dev u z0 z <= user_half_dev u x0 x + K1 * d).
  { rewrite !half_dev_rows by assumption. unfold K1. rewrite Rmult_comm, <- rsum_scal, <- rsum_plus. apply rsum_le. intros i Hi. unfold row_half_dev.
    set (ez := user_eta u z0 z i). set (ex := user_eta u x0 x i).
    pose proof (half_gap (u_fam u) (u_link u) (u_y u i) ez ex Hf (Hy i Hi) Hc) as G.
    pose proof (unit_half (u_fam u) (u_link u) (u_y u i) ez ex Hf (Hy i Hi) Hc) as U.
    assert (M : 0 <= pred_weight (u_fam u) (u_y u i) (mean_at (u_link u) ez)
      * (half_at (u_fam u) (u_link u) (mean_at (u_link u) ez) ex - half_at (u_fam u) (u_link u) (mean_at (u_link u) ez) ez)).
    { apply Rmult_le_pos; [apply (pred_weight_nonneg _ _ _ _ Hf (Hy i Hi) Hc)|].
      rewrite <- (unit_half _ _ _ _ _ Hf (mean_support _ _ _ Hc) Hc). pose proof (unit_min (u_fam u) (u_link u) ez ex Hf Hc). lra. }
    set (r := residual _ _ _ _) in *. set (S0 := rsum (u_p u) (fun j => Rabs (u_X u i j))).
    assert (DE : Rabs (ex - ez) <= d * (1 + S0)).
    { unfold ex, ez, user_eta. replace (x0 + rsum (u_p u) (fun j => u_X u i j * x j) + u_off u i - (z0 + rsum (u_p u) (fun j => u_X u i j * z j) + u_off u i))
        with ((x0 - z0) + (rsum (u_p u) (fun j => u_X u i j * x j) - rsum (u_p u) (fun j => u_X u i j * z j))) by ring.
      rewrite <- rsum_minus. eapply Rle_trans; [apply Rabs_triang|]. rewrite Rmult_plus_distr_l, Rmult_1_r. apply Rplus_le_compat; [exact H0|].
      eapply Rle_trans; [apply Rabs_rsum_le|]. unfold S0. rewrite <- rsum_scal. apply rsum_le. intros j Hj.
      replace (u_X u i j * x j - u_X u i j * z j) with (u_X u i j * (x j - z j)) by ring. rewrite Rabs_mult, Rmult_comm.
      apply Rmult_le_compat_r; [apply Rabs_pos|apply HX, Hj]. }
    assert (RE : r * (ex - ez) <= Rabs r * (d * (1 + S0))).
    { eapply Rle_trans; [apply Rle_abs|]. rewrite Rabs_mult. apply Rmult_le_compat_l; [apply Rabs_pos|exact DE]. }
    specialize (Hw i Hi). replace (d * (u_w u i * (Rabs r * (1 + S0)))) with (u_w u i * (Rabs r * (d * (1 + S0)))) by ring.
    rewrite <- Rmult_plus_distr_l. apply Rmult_le_compat_l; [exact Hw|]. lra. }
  assert (A2 : user_l2 u k z <= user_l2 u k x + K2 * d).
  { pose proof (HQ (fun j => k j * (x j - z j))) as PS. 
    assert (E : user_l2 u k x = user_l2 u k z + rsum (u_p u) (fun i => rsum (u_p u) (fun j => (x i - z i) * (k i * p2_entry (u_P2 u) i j * (k j * z j)) + (x j - z j) * (k i * z i * p2_entry (u_P2 u) i j * k j)))
        + rsum (u_p u) (fun i => rsum (u_p u) (fun j => k i * (x i - z i) * p2_entry (u_P2 u) i j * (k j * (x j - z j))))).
    { unfold user_l2. rewrite <- !rsum_plus. apply rsum_ext. intros i _. rewrite <- !rsum_plus. apply rsum_ext. intros j _. ring. }
    rewrite E. match goal with |- _ <= _ + ?a + ?b + _ => assert (- (K2 * d) <= a); [|assert (0 <= b) by exact PS; lra] end.
    unfold K2. rewrite Rmult_comm, <- rsum_scal, <- rsum_opp. apply rsum_le. intros i Hi. rewrite <- rsum_scal, <- rsum_opp. apply rsum_le. intros j Hj.
    cbv beta. pose proof (HX i Hi) as Xi. pose proof (HX j Hj) as Xj. set (p := k i * p2_entry (u_P2 u) i j * (k j * z j)). set (q := k i * z i * p2_entry (u_P2 u) i j * k j).
    assert (P1 : Rabs ((x i - z i) * p) <= d * Rabs p) by (rewrite Rabs_mult; apply Rmult_le_compat_r; [apply Rabs_pos|exact Xi]).
    assert (P2 : Rabs ((x j - z j) * q) <= d * Rabs q) by (rewrite Rabs_mult; apply Rmult_le_compat_r; [apply Rabs_pos|exact Xj]).
    pose proof (Rle_abs (- ((x i - z i) * p))). pose proof (Rle_abs (- ((x j - z j) * q))). rewrite Rabs_Ropp in * |-. rewrite Rmult_plus_distr_l. lra. }
  assert (A3 : rsum (u_p u) (fun j => u_P1 u j * Rabs (k j * z j)) <= rsum (u_p u) (fun j => u_P1 u j * Rabs (k j * x j)) + K3 * d).
  { unfold K3. rewrite (Rmult_comm _ d), <- rsum_scal, <- rsum_plus. apply rsum_le. intros j Hj. specialize (HX j Hj). specialize (HP j).
    replace (k j * z j) with (k j * x j + - (k j * (x j - z j))) by ring.
    pose proof (Rabs_triang (k j * x j) (- (k j * (x j - z j)))) as T. rewrite Rabs_Ropp, (Rabs_mult (k j) (x j - z j)) in T.
    assert (Rabs (k j) * Rabs (x j - z j) <= Rabs (k j) * d) by (apply Rmult_le_compat_l; [apply Rabs_pos|exact HX]). 
    replace (d * (u_P1 u j * Rabs (k j))) with (u_P1 u j * (Rabs (k j) * d)) by ring. rewrite <- Rmult_plus_distr_l. apply Rmult_le_compat_l; [exact HP|]. lra. }
  lra.
Qed.

(** ... and one is: the fit is well defined. *)
Theorem C108_exists : forall u m, user_ok u -> convex_pair (u_fam u) (u_link u) -> curved u m ->
  (exists b0 b, allowed u b0 b) -> exists b0 b, optimum u b0 b.
Proof.
  intros u m Hok Hc [Hm HC] [a0 [a Ha]].
  pose (adm := fun x : nat -> R => allowed u (x 0%nat) (fun j => x (S j))).
  pose (f := fun x : nat -> R => user_obj u (pen_scale u) (x 0%nat) (fun j => x (S j))).
  destruct (minimiser_exists (S (u_p u)) adm f (/ 8 * m)) as [z [Az Oz]].
  - lra.
  - exists (fun k => match k with O => a0 | S j => a j end). exact Ha.
  - intros x _. unfold f. rewrite obj_split. pose proof (half_dev_nonneg u (x 0%nat) (fun j => x (S j)) Hok Hc).
    pose proof (pen_nonneg u (fun j => x (S j)) Hok). lra.
  - intros x y [Ax1 Ax2] [Ay1 Ay2]. exists (fun k => / 2 * (x k + y k)). split.
    { split; [intros E; rewrite (Ax1 E), (Ay1 E); ring|]. intros j Hj. destruct (Ax2 j Hj) as [L1 U1]. destruct (Ay2 j Hj) as [L2 U2].
      split; intros v E; [specialize (L1 v E); specialize (L2 v E)|specialize (U1 v E); specialize (U2 v E)]; lra. }
    intros k Hk. pose proof (obj_mid u (x 0%nat) (fun j => x (S j)) (y 0%nat) (fun j => y (S j)) Hok Hc) as M. unfold f. cbv beta in M.
    specialize (HC (x 0%nat - y 0%nat) (fun j => x (S j) - y (S j)) ltac:(intros E; rewrite (Ax1 E), (Ay1 E); ring)).
    assert (Q : (x k - y k) ^ 2 <= (x 0%nat - y 0%nat) ^ 2 + rsum (u_p u) (fun j => (x (S j) - y (S j)) ^ 2)).
    { pose proof (pow2_ge_0 (x 0%nat - y 0%nat)). destruct k as [|j].
      - pose proof (rsum_nonneg (u_p u) (fun j => (x (S j) - y (S j)) ^ 2) ltac:(intros; apply pow2_ge_0)). lra.
      - pose proof (rsum_sq_ge (u_p u) (fun j => x (S j) - y (S j)) j ltac:(lia)). cbv beta in *. lra. }
    cbv beta. nra.
  - intros z. destruct (obj_lsc u (z 0%nat) (fun j => z (S j)) Hok Hc) as [K [HK HL]]. exists K. split; [exact HK|].
    intros d x Hd _ HX. apply (HL d (x 0%nat) (fun j => x (S j)) Hd); [apply HX; lia|]. intros j Hj. apply (HX (S j)). lia.
  - intros z HZ. split.
    + intros E. apply Rabs_eq_0. apply Rle_antisym; [|apply Rabs_pos]. apply le_epsilon. intros e He. destruct (HZ e He) as [x [[A1 _] X]].
      specialize (X 0%nat ltac:(lia)). rewrite (A1 E), Rminus_0_l, Rabs_Ropp in X. lra.
    + intros j Hj. split; intros v E; apply le_epsilon; intros e He; destruct (HZ e He) as [x [[_ A2] X]]; destruct (A2 j Hj) as [L1 U1];
        specialize (X (S j) ltac:(lia)); pose proof (Rle_abs (x (S j) - z (S j))); pose proof (Rle_abs (- (x (S j) - z (S j)))) as Y; rewrite Rabs_Ropp in Y; [specialize (L1 v E)|specialize (U1 v E)]; cbv beta in *; lra.
  - exists (z 0%nat), (fun j => z (S j)). split; [exact Az|]. intros b0' b' A. apply (Oz (fun k => match k with O => b0' | S j => b' j end) A).
Qed.
Print Assumptions C108_exists.

(** Every fit without warning, by whatever solver and from whatever start, is next to that one point. *)
Theorem C108_fits_near : forall u m s se b0 b c0 c S0, user_ok u -> convex_pair (u_fam u) (u_link u) -> curved u m ->
  silent s u se b0 b -> optimum u c0 c ->
  1 + rsum (u_p u) (fun j => Rabs (u_means u j)) <= S0 -> (forall j, (j < u_p u)%nat -> col_scale u j <= S0) ->
  Rabs (b0 - c0) <= 2 * fit_tol s u se * S0 / m /\ forall j, (j < u_p u)%nat -> Rabs (b j - c j) <= 2 * fit_tol s u se * S0 / m.
Proof.
  intros u m s se b0 b c0 c S0 Hok Hc [Hm HC] S1 O HM HS. destruct (silent_near s u se b0 b Hok Hc S1) as [[I1 N1] F1].
  pose proof (tol_nonneg s u se b0 b S1) as TN.
  destruct (argmax (S (u_p u)) (fun k => match k with O => Rabs (c0 - b0) | S j => Rabs (c j - b j) end) ltac:(lia)) as [k [Hk HK]].
  set (dk := match k with O => Rabs (c0 - b0) | S j => Rabs (c j - b j) end) in *.
  assert (D0 : 0 <= dk) by (unfold dk; destruct k; apply Rabs_pos).
  assert (H0 : Rabs (c0 - b0) <= dk) by apply (HK 0%nat ltac:(lia)).
  assert (HJ : forall j, (j < u_p u)%nat -> Rabs (c j - b j) <= dk) by (intros j Hj; apply (HK (S j)); lia).
  assert (SM : 0 <= rsum (u_p u) (fun j => Rabs (u_means u j))) by (apply rsum_nonneg; intros; apply Rabs_pos).
  assert (HX : std_close u (S0 * dk) b0 b c0 c).
  { split.
    - intros _. eapply Rle_trans; [apply Rabs_triang|]. apply Rle_trans with ((1 + rsum (u_p u) (fun j => Rabs (u_means u j))) * dk); [|apply Rmult_le_compat_r; assumption].
      rewrite Rmult_plus_distr_r, Rmult_1_l. apply Rplus_le_compat; [exact H0|]. eapply Rle_trans; [apply Rabs_rsum_le|].
      rewrite Rmult_comm, <- rsum_scal. apply rsum_le. intros j Hj. rewrite Rabs_mult, Rmult_comm. apply Rmult_le_compat_r; [apply Rabs_pos|apply HJ, Hj].
    - intros j Hj. apply Rmult_le_compat; [|apply Rabs_pos|apply HS, Hj|apply HJ, Hj]. rewrite col_scale_inv. left. apply Rinv_0_lt_compat, inv_pos. }
  specialize (N1 c0 c (S0 * dk) (conj (proj2 (proj1 O)) I) (proj1 (proj1 O)) ltac:(apply Rmult_le_pos; lra) HX).
  pose proof (proj2 O b0 b (conj I1 F1)) as L.
  specialize (HC (c0 - b0) (fun j => c j - b j) ltac:(intros E; rewrite (I1 E), (proj1 (proj1 O) E); ring)).
  assert (CV : curvature u (c0 - b0) (fun j => c j - b j) <= user_l2 u (pen_scale u) (fun j => c j - b j) + pred_dev u b0 b c0 c).
  { unfold curvature. apply Rplus_le_compat_l. pose proof (pred_dev_nonneg u b0 b c0 c Hok Hc) as P.
    assert (Q : u_fam u = NormalF -> u_link u = IdentityL -> rsum (u_n u) (fun i => u_w u i * tilt u (c0 - b0) (fun j => c j - b j) i ^ 2) <= pred_dev u b0 b c0 c).
    { intros Ef El. rewrite pred_dev_eq by assumption. apply rsum_le. intros i Hi. rewrite Ef, El. cbn [pred_weight mean_at unit_deviance].
      right. replace (tilt u (c0 - b0) (fun j => c j - b j) i) with (user_eta u c0 c i - user_eta u b0 b i); [ring|].
      unfold user_eta, tilt. rewrite (rsum_ext _ (fun j => u_X u i j * (c j - b j)) (fun j => u_X u i j * c j - u_X u i j * b j)) by (intros; ring). rewrite rsum_minus. ring. }
    destruct (u_fam u) as [p| | | | | | |th], (u_link u); try exact P. apply Q; reflexivity. }
  assert (DK : m * dk ^ 2 <= m * ((c0 - b0) ^ 2 + rsum (u_p u) (fun j => (c j - b j) ^ 2))).
  { apply Rmult_le_compat_l; [lra|]. pose proof (pow2_ge_0 (c0 - b0)). unfold dk. destruct k as [|j].
    - pose proof (rsum_nonneg (u_p u) (fun j => (c j - b j) ^ 2) ltac:(intros; apply pow2_ge_0)). rewrite <- (pow2_abs (c0 - b0)) in *. lra.
    - pose proof (rsum_sq_ge (u_p u) (fun j => c j - b j) j ltac:(lia)) as Q. cbv beta in Q. rewrite <- (pow2_abs (c j - b j)) in Q. lra. }
  assert (B : dk <= 2 * fit_tol s u se * S0 / m).
  { apply Rmult_le_reg_l with m; [exact Hm|]. replace (m * (2 * fit_tol s u se * S0 / m)) with (2 * fit_tol s u se * S0) by (field; lra).
    destruct (Rle_lt_or_eq_dec 0 dk D0) as [P| <-]; [|rewrite Rmult_0_r; apply Rmult_le_pos; [lra|lra]].
    apply Rmult_le_reg_r with dk; [exact P|]. lra. }
  split; [rewrite Rabs_minus_sym; lra|]. intros j Hj. rewrite Rabs_minus_sym. specialize (HJ j Hj). lra.
Qed.
Print Assumptions C108_fits_near.

(** Non-vacuity.  Least squares with intercept and a small ridge penalty; and logistic regression on separated classes: no
    optimum without penalty (C107), exactly one with ridge. *)
Example ex108_nonvacuous : exists b0 b c0 c,
  user_ok ex100_u /\ curved ex100_u (/ 4) /\ silent SClosed ex100_u ex70_se b0 b /\ optimum ex100_u c0 c /\ b0 = c0 /\ b 0%nat = c 0%nat.
Proof.
  assert (CU : curved ex100_u (/ 4)).
  { split; [lra|]. intros d0 d _. unfold curvature, tilt, user_l2. cbn -[Rmult]. set (a := d 0%nat).
    assert (0 <= (3 / 4 * d0 + a) ^ 2) by apply pow2_ge_0. assert (0 <= a ^ 2) by apply pow2_ge_0. nra. }
  destruct (closed_silent ex100_u ex100_ok eq_refl eq_refl (fun _ _ => eq_refl) (fun _ => conj eq_refl eq_refl)) as [b0 [b E1]].
  destruct (C108_exists ex100_u (/ 4) ex100_ok I CU) as [c0 [c O]].
  { exists 0, (fun _ => 0). split; [reflexivity|]. intros j _. split; discriminate. }
  exists b0, b, c0, c. split; [exact ex100_ok|]. split; [exact CU|]. split; [exact E1|]. split; [exact O|].
  destruct (C108_fits_near ex100_u (/ 4) SClosed ex70_se b0 b c0 c (Rmax (1 + rsum (u_p ex100_u) (fun j => Rabs (u_means ex100_u j))) (col_scale ex100_u 0)) ex100_ok I CU E1 O
    (Rmax_l _ _) ltac:(intros j Hj; cbn in Hj; replace j with 0%nat by lia; apply Rmax_r)) as [H0 H1].
  specialize (H1 0%nat ltac:(cbn; lia)). unfold fit_tol, Rdiv in H0, H1. rewrite Rmult_0_r, !Rmult_0_l in H0, H1.
  pose proof (Rabs_pos (b0 - c0)). pose proof (Rabs_pos (b 0%nat - c 0%nat)).
  split; [assert (b0 - c0 = 0) by (apply Rabs_eq_0; lra)|assert (b 0%nat - c 0%nat = 0) by (apply Rabs_eq_0; lra)]; lra.
Qed.
Definition ex108_ridge : user :=
  mkUser 2 1 (u_X ex107_u) (u_y ex107_u) (u_w ex107_u) (fun _ => 0) false BinomialF LogitL (fun _ => 0) (P2diag (fun _ => 1)) (fun _ => None) (fun _ => None) false.
Example ex108_separated : (exists c, optimum ex108_ridge 0 c) /\ ~ exists b0 b, optimum ex107_u b0 b.
Proof.
  split.
  - assert (Hok : user_ok ex108_ridge).
    { split; [exact I|]. split; [intros [|i] Hi; cbn; lra|]. split; [intros; cbn; lra|]. split; [intros; cbn; lra|]. split.
      - intros i j Hi Hj. cbn in Hi, Hj. replace i with j by lia. reflexivity.
      - intros v. cbn. pose proof (pow2_ge_0 (v 0%nat)). lra. }
    destruct (C108_exists ex108_ridge 1 Hok I) as [b0 [b O]].
    + split; [lra|]. intros d0 d H. rewrite (H eq_refl). unfold curvature, user_l2. cbn. lra.
    + exists 0, (fun _ => 0). split; [reflexivity|]. intros j _. split; discriminate.
    + exists b. pose proof (proj1 (proj1 O) eq_refl) as Z. rewrite <- Z. exact O.
  - intros [b0 [b O]]. destruct ex107_nonvacuous as (_ & _ & _ & _ & c0 & c & L & H1 & H2 & H3 & _ & H5 & _ & H6 & H7 & H8).
    pose proof (C107_no_optimum ex107_u b0 b c0 c L 0 1 ex107_ok I ltac:(discriminate) H2 H5 H6 H7 H8 Rlt_0_1) as N.
    destruct O as [[A0 A1] O]. specialize (O (b0 + 1 * c0) (fun j => b j + 1 * c j)).
    assert (allowed ex107_u (b0 + 1 * c0) (fun j => b j + 1 * c j)); [|specialize (O H); lra].
    split; [intros E; rewrite (A0 E), (proj1 H5 E); ring|]. intros j Hj. split; discriminate.
Qed.
Print Assumptions ex108_nonvacuous.
Print Assumptions ex108_separated.
