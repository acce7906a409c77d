(** C112: when the objective has a minimum: iff no direction is unopposed. *)
From Coq Require Import List Lia Lra Arith Classical_Prop. Import ListNotations.
From Verif Require Import Base M_Link M_Dist M_Std M_Valid M_Fit L_KKT L_Std L_Solver3 S_Dist S_Std S_Fit S_FitAll L_Dist L_Dist4 L_Score L_FitAll L_Gap L_Obj L_Fit P_Dist P_Score P_FitAll P_Train P_Order P_Shrink P_Ones L_Exist.
From Verif Require Import M_Solver S_Solver S_Response P_Response P_Weight S_Separation P_Separation S_Optimum P_Optimum L_Attain S_Exist.
Local Open Scope R_scope.

Lemma small_zero x K : 0 <= x -> 0 <= K -> (forall e, 0 < e -> e <= 1 -> x <= K * e) -> x = 0.
Proof.
  intros Hx HK H. apply Rle_antisym; [|exact Hx]. apply Rnot_lt_le. intros L.
  set (e := Rmin 1 (x / (2 * (K + 1)))). assert (Q : 0 < x / (2 * (K + 1))) by (apply Rmult_lt_0_compat; [exact L | apply Rinv_0_lt_compat; lra]).
  assert (E0 : 0 < e) by (apply Rmin_glb_lt; lra). specialize (H e E0 (Rmin_l _ _)).
  assert (E1 : e <= x / (2 * (K + 1))) by apply Rmin_r.
  assert (K * e <= x / 2); [|lra]. apply Rle_trans with ((K + 1) * (x / (2 * (K + 1)))); [nra | right; field; lra].
Qed.
(** a row that speaks against a change d does so at some linear predictor *)
Lemma opposed_residual f lk y d : family_ok f -> support f y -> convex_pair f lk -> d <> 0 ->
  (lk = IdentityL \/ ~ unopposed f y d) -> exists e, residual f lk y e * d < 0.
Proof.
  intros Hf Hy Hc Nd HO.
  assert (ID : lk = IdentityL -> exists e, residual f lk y e * d < 0).
  { intros ->. exists (y + d). assert (0 < d * d) by nra.
    destruct f as [p| | | | | | |th]; simpl in Hc; try (exfalso; exact Hc); cbn [residual mean_at]; nra. }
  destruct HO as [HO|HO]; [exact (ID HO)|].
  assert (LOG : lk = LogL -> 0 <= y -> exists e, residual f lk y e * d < 0).
  { intros -> Y0. assert (Y1 : d < 0 -> 0 < y).
    { intros L. destruct Y0 as [Y0 | <-]; [exact Y0|]. exfalso. apply HO. right; left. split; [reflexivity | exact L]. }
    assert (E : exists e, (y - exp e) * d < 0).
    { destruct (Rtotal_order d 0) as [L | [L | L]]; [| contradiction |].
      - specialize (Y1 L). exists (ln (y / 2)). rewrite exp_ln by lra. nra.
      - exists (ln (y + 1)). rewrite exp_ln by lra. nra. }
    destruct E as [e E]. exists e. destruct f as [p| | | | | | |th]; simpl in Hc; try (exfalso; exact Hc); cbn [residual mean_at].
    - pose proof (exp_pos ((1 - p) * e)). nra.
    - exact E.
    - pose proof (exp_pos (- e)). nra.
    - cbn in Hf. pose proof (exp_pos e). assert (0 < th * exp e) by (apply Rmult_lt_0_compat; assumption).
      assert (0 < / (1 + th * exp e)) by (apply Rinv_0_lt_compat; lra). unfold Rdiv. nra. }
  destruct f as [p| | | | | | |th]; destruct lk; simpl in Hc; try (exfalso; exact Hc); cbn in Hy.
  - apply ID; reflexivity.
  - apply LOG; [reflexivity | apply Hy; lra].
  - apply ID; reflexivity.
  - apply LOG; [reflexivity | exact Hy].
  - apply LOG; [reflexivity | lra].
  - (* logit *)
    assert (E : forall m, 0 < m < 1 -> exists e, / (1 + exp (- e)) = m).
    { intros m Hm. exists (ln (m / (1 - m))). rewrite <- ln_Rinv by (apply Rmult_lt_0_compat; [lra | apply Rinv_0_lt_compat; lra]).
      rewrite exp_ln by (apply Rinv_0_lt_compat, Rmult_lt_0_compat; [lra | apply Rinv_0_lt_compat; lra]). field. split; lra. }
    destruct (Rtotal_order d 0) as [L | [L | L]]; [| contradiction |].
    + assert (Y : 0 < y). { destruct Hy as [[Y | <-] _]; [exact Y|]. exfalso. apply HO. right; left. split; [reflexivity | exact L]. }
      destruct (E (y / 2) ltac:(lra)) as [e He]. exists e. cbn [residual mean_at]. rewrite He. nra.
    + assert (Y : y < 1). { destruct Hy as [_ [Y | ->]]; [exact Y|]. exfalso. apply HO. right; right. repeat split. exact L. }
      destruct (E ((1 + y) / 2) ltac:(lra)) as [e He]. exists e. cbn [residual mean_at]. rewrite He. nra.
  - apply LOG; [reflexivity | exact Hy].
Qed.
Lemma dev_ge0 f lk y e : family_ok f -> support f y -> convex_pair f lk -> 0 <= unit_deviance f y (mean_at lk e).
Proof.
  intros Hf Hy Hc. pose proof (mean_at_pos f lk e Hc) as P.
  destruct f as [p| | | | | | |th]; try (apply unit_deviance_nonneg; [exact Hf | discriminate | exact Hy | exact P]).
  left. apply binomial_unit_deviance_nonneg; [exact Hy | exact P].
Qed.
Lemma row_nonneg u b0 b i : user_ok u -> convex_pair (u_fam u) (u_link u) -> (i < u_n u)%nat -> 0 <= row_half_dev u b0 b i.
Proof.
  intros (Hf & Hy & _) Hc Hi. unfold row_half_dev. apply Rmult_le_pos; [lra|].
  apply dev_ge0; auto.
Qed.
(** linear lower bound of the deviance of a row *)
Lemma row_tangent u b0 b i e : user_ok u -> convex_pair (u_fam u) (u_link u) -> (i < u_n u)%nat ->
  - (residual (u_fam u) (u_link u) (u_y u i) e * (user_eta u b0 b i - e)) <= row_half_dev u b0 b i.
Proof.
  intros Hok Hc Hi. pose proof Hok as (Hf & Hy & _). unfold row_half_dev. set (x := user_eta u b0 b i).
  pose proof (half_gap (u_fam u) (u_link u) (u_y u i) e x Hf (Hy i Hi) Hc) as G.
  pose proof (unit_half (u_fam u) (u_link u) (u_y u i) e x Hf (Hy i Hi) Hc) as U.
  assert (M : 0 <= pred_weight (u_fam u) (u_y u i) (mean_at (u_link u) e)
    * (half_at (u_fam u) (u_link u) (mean_at (u_link u) e) x - half_at (u_fam u) (u_link u) (mean_at (u_link u) e) e)).
  { apply Rmult_le_pos; [apply (pred_weight_nonneg _ _ _ _ Hf (Hy i Hi) Hc)|].
    rewrite <- (unit_half _ _ _ _ _ Hf (mean_support _ _ _ Hc) Hc). pose proof (unit_min (u_fam u) (u_link u) e x Hf Hc). lra. }
  assert (D : 0 <= unit_deviance (u_fam u) (u_y u i) (mean_at (u_link u) e)) by (apply dev_ge0; auto).
  lra.
Qed.
(** lower semicontinuity of the L2 form *)
Lemma l2_lsc u k z : user_ok u -> exists K, 0 <= K /\ forall d x, 0 <= d -> (forall j, (j < u_p u)%nat -> Rabs (x j - z j) <= d) ->
  user_l2 u k z <= user_l2 u k x + K * d.
Proof.
  intros Hok. pose proof Hok as (Hf & Hy & Hw & HP & _ & HQ).
  set (K2 := rsum (u_p u) (fun i => rsum (u_p u) (fun j => Rabs (k i * p2_entry (u_P2 u) i j * (k j * z j)) + Rabs (k i * z i * p2_entry (u_P2 u) i j * k j)))).
  exists K2. split.
  { apply rsum_nonneg. intros i _. apply rsum_nonneg. intros j _. pose proof (Rabs_pos (k i * p2_entry (u_P2 u) i j * (k j * z j))).
    pose proof (Rabs_pos (k i * z i * p2_entry (u_P2 u) i j * k j)). lra. }
  intros d x Hd HX. pose proof (HQ (fun j => k j * (x j - z j))) as PS.
  assert (E : user_l2 u k x = user_l2 u k z + rsum (u_p u) (fun i => rsum (u_p u) (fun j => (x i - z i) * (k i * p2_entry (u_P2 u) i j * (k j * z j)) + (x j - z j) * (k i * z i * p2_entry (u_P2 u) i j * k j)))
      + rsum (u_p u) (fun i => rsum (u_p u) (fun j => k i * (x i - z i) * p2_entry (u_P2 u) i j * (k j * (x j - z j))))).
  { unfold user_l2. rewrite <- !rsum_plus. apply rsum_ext. intros i _. rewrite <- !rsum_plus. apply rsum_ext. intros j _. ring. }
  rewrite E. match goal with |- _ <= _ + ?a + ?b + _ => assert (- (K2 * d) <= a); [|assert (0 <= b) by exact PS; lra] end.
  unfold K2. rewrite Rmult_comm, <- rsum_scal, <- rsum_opp. apply rsum_le. intros i Hi. rewrite <- rsum_scal, <- rsum_opp. apply rsum_le. intros j Hj.
  cbv beta. pose proof (HX i Hi) as Xi. pose proof (HX j Hj) as Xj. set (p := k i * p2_entry (u_P2 u) i j * (k j * z j)). set (q := k i * z i * p2_entry (u_P2 u) i j * k j).
  assert (P1 : Rabs ((x i - z i) * p) <= d * Rabs p) by (rewrite Rabs_mult; apply Rmult_le_compat_r; [apply Rabs_pos|exact Xi]).
  assert (P2 : Rabs ((x j - z j) * q) <= d * Rabs q) by (rewrite Rabs_mult; apply Rmult_le_compat_r; [apply Rabs_pos|exact Xj]).
  pose proof (Rle_abs (- ((x i - z i) * p))). pose proof (Rle_abs (- ((x j - z j) * q))). rewrite Rabs_Ropp in * |-. rewrite Rmult_plus_distr_l. lra.
Qed.
Lemma l2_scale u k r d : user_l2 u k (fun j => r * d j) = r ^ 2 * user_l2 u k d.
Proof. unfold user_l2. rewrite <- rsum_scal. apply rsum_ext. intros i _. rewrite <- rsum_scal. apply rsum_ext. intros; ring. Qed.
Lemma l2_ge0 u k d : user_ok u -> 0 <= user_l2 u k d.
Proof. intros (_ & _ & _ & _ & _ & HQ). exact (HQ (fun j => k j * d j)). Qed.
Lemma l1_ge0 u k b : user_ok u -> 0 <= rsum (u_p u) (fun j => u_P1 u j * Rabs (k j * b j)).
Proof. intros (_ & _ & _ & HP & _). apply rsum_nonneg. intros; apply Rmult_le_pos; [apply HP | apply Rabs_pos]. Qed.

(** The sublevel sets are bounded unless something drifts. *)
Lemma bounded_or_drift u M : user_ok u -> convex_pair (u_fam u) (u_link u) -> (forall c0 c, drift u c0 c -> null u c0 c) ->
  exists B, forall x : nat -> R, allowed u (x 0%nat) (fun j => x (S j)) -> user_obj u (pen_scale u) (x 0%nat) (fun j => x (S j)) <= M ->
    forall k, (k < S (u_p u))%nat -> Rabs (x k) <= B.
Proof.
  intros Hok Hc HD. apply NNPP. intros N.
  destruct (direction (S (u_p u)) (fun x => allowed u (x 0%nat) (fun j => x (S j)) /\ user_obj u (pen_scale u) (x 0%nat) (fun j => x (S j)) <= M)) as [c [[k [Hk Nk]] Hdir]].
  { intros B. apply NNPP. intros Q. apply N. exists B. intros x Ax Fx k Hk. apply Rnot_lt_le. intros L. apply Q. exists x. split; [split; assumption|]. exists k; split; assumption. }
  set (K := pen_scale u) in *. pose proof Hok as (Hf & Hy & Hw & HP1 & _).
  assert (PARTS : forall x : nat -> R, user_obj u K (x 0%nat) (fun j => x (S j)) <= M ->
    user_l2 u K (fun j => x (S j)) <= 2 * M /\ rsum (u_p u) (fun j => u_P1 u j * Rabs (K j * x (S j))) <= M /\
    (forall i, (i < u_n u)%nat -> u_w u i * row_half_dev u (x 0%nat) (fun j => x (S j)) i <= M) /\ 0 <= M).
  { intros x Fx. unfold K in *. rewrite obj_split in Fx. unfold user_pen in Fx. fold K in Fx |- *.
    pose proof (half_dev_nonneg u (x 0%nat) (fun j => x (S j)) Hok Hc) as D. pose proof (l2_ge0 u K (fun j => x (S j)) Hok) as L2. pose proof (l1_ge0 u K (fun j => x (S j)) Hok) as L1.
    repeat split; try lra. intros i Hi. rewrite half_dev_rows in Fx by assumption.
    pose proof (rsum_ge_one (u_n u) (fun i => u_w u i * row_half_dev u (x 0%nat) (fun j => x (S j)) i) i
      ltac:(intros j Hj; apply Rmult_le_pos; [apply Hw, Hj | apply row_nonneg; assumption]) Hi) as G. cbv beta in G. lra. }
  assert (POS : forall e r, 0 < e -> / e <= r -> 0 < r /\ / r <= e).
  { intros e r He Hr. pose proof (Rinv_0_lt_compat e He). split; [lra|]. rewrite <- (Rinv_inv e). apply Rinv_le_contravar; assumption. }
  assert (DR : drift u (c 0%nat) (fun j => c (S j))).
  { repeat split.
    - intros E. apply Rabs_eq_0. apply (small_zero _ 1); [apply Rabs_pos | lra|]. intros e He _. destruct (Hdir e He) as (x & r & [[A0 _] _] & _ & A3).
      specialize (A3 0%nat ltac:(lia)). rewrite (A0 E) in A3. unfold Rdiv in A3. rewrite Rmult_0_l, Rabs_minus_sym, Rminus_0_r in A3. lra.
    - (* lower bounds *)
      intros E. destruct (u_lb u j) as [l|] eqn:EL; [|contradiction]. apply Rnot_lt_le. intros L.
      assert (Z : - c (S j) = 0); [|lra]. apply (small_zero _ (1 + Rabs l)); [lra | pose proof (Rabs_pos l); lra|]. intros e He _.
      destruct (Hdir e He) as (x & r & [[_ A1] _] & A2 & A3). destruct (POS e r He A2) as [Pr Ir]. specialize (A3 (S j) ltac:(lia)).
      destruct (A1 j H) as [B1 _]. specialize (B1 l EL). apply Rabs_le_between in A3.
      assert (- Rabs l * e <= x (S j) / r); [|lra].
      assert (Q : - Rabs l <= x (S j)) by (pose proof (Rle_abs (- l)); rewrite Rabs_Ropp in H0; lra).
      unfold Rdiv. apply Rle_trans with (- Rabs l * / r); [pose proof (Rabs_pos l); nra|]. apply Rmult_le_compat_r; [left; apply Rinv_0_lt_compat, Pr | exact Q].
    - intros E. destruct (u_ub u j) as [l|] eqn:EL; [|contradiction]. apply Rnot_lt_le. intros L.
      assert (Z : c (S j) = 0); [|lra]. apply (small_zero _ (1 + Rabs l)); [lra | pose proof (Rabs_pos l); lra|]. intros e He _.
      destruct (Hdir e He) as (x & r & [[_ A1] _] & A2 & A3). destruct (POS e r He A2) as [Pr Ir]. specialize (A3 (S j) ltac:(lia)).
      destruct (A1 j H) as [_ B1]. specialize (B1 l EL). apply Rabs_le_between in A3.
      assert (x (S j) / r <= Rabs l * e); [|lra].
      assert (Q : x (S j) <= Rabs l) by (pose proof (Rle_abs l); lra).
      unfold Rdiv. apply Rle_trans with (Rabs l * / r); [apply Rmult_le_compat_r; [left; apply Rinv_0_lt_compat, Pr | exact Q] | pose proof (Rabs_pos l); nra].
    - (* L2 *)
      destruct (l2_lsc u K (fun j => c (S j)) Hok) as [K2 [HK2 HL]].
      destruct (Hdir 1 Rlt_0_1) as (x1 & _ & [_ F1] & _). destruct (PARTS x1 F1) as (_ & _ & _ & M0).
      apply (small_zero _ (2 * M + K2)); [apply l2_ge0; exact Hok | lra|]. intros e He He1.
      destruct (Hdir e He) as (x & r & [_ Fx] & A2 & A3). destruct (POS e r He A2) as [Pr Ir]. destruct (PARTS x Fx) as (P2 & _ & _ & _).
      specialize (HL e (fun j => / r * x (S j)) ltac:(lra)). rewrite l2_scale in HL.
      eapply Rle_trans; [apply HL|].
      { intros j Hj. specialize (A3 (S j) ltac:(lia)). unfold Rdiv in A3. rewrite Rmult_comm. exact A3. }
      pose proof (Rinv_0_lt_compat r Pr) as Ip. pose proof (l2_ge0 u K (fun j => x (S j)) Hok).
      assert ((/ r) ^ 2 * user_l2 u K (fun j => x (S j)) <= e * (2 * M)); [|lra].
      assert ((/ r) ^ 2 <= e) by nra. apply Rmult_le_compat; try assumption. apply pow2_ge_0.
    - (* L1 *)
      intros j Hj. destruct (Hdir 1 Rlt_0_1) as (x1 & _ & [_ F1] & _). destruct (PARTS x1 F1) as (_ & _ & _ & M0).
      apply (small_zero _ (M + u_P1 u j * Rabs (K j))); [apply Rmult_le_pos; [apply HP1 | apply Rabs_pos] | pose proof (HP1 j); pose proof (Rabs_pos (K j)); nra|]. intros e He He1.
      destruct (Hdir e He) as (x & r & [_ Fx] & A2 & A3). destruct (POS e r He A2) as [Pr Ir]. destruct (PARTS x Fx) as (_ & P1 & _ & _).
      pose proof (rsum_ge_one (u_p u) (fun j => u_P1 u j * Rabs (K j * x (S j))) j ltac:(intros; apply Rmult_le_pos; [apply HP1 | apply Rabs_pos]) Hj) as G. cbv beta in G.
      specialize (A3 (S j) ltac:(lia)). pose proof (Rinv_0_lt_compat r Pr) as Ip.
      assert (T : Rabs (K j * c (S j)) <= / r * Rabs (K j * x (S j)) + Rabs (K j) * e).
      { replace (K j * c (S j)) with (/ r * (K j * x (S j)) + - (K j * (x (S j) / r - c (S j)))) by (field; lra).
        eapply Rle_trans; [apply Rabs_triang|]. rewrite Rabs_Ropp, Rabs_mult, (Rabs_pos_eq (/ r)) by lra. rewrite (Rabs_mult (K j) (_ - _)).
        apply Rplus_le_compat_l. apply Rmult_le_compat_l; [apply Rabs_pos | exact A3]. }
      specialize (HP1 j). eapply Rle_trans; [apply Rmult_le_compat_l; [exact HP1 | exact T]|].
      replace (u_P1 u j * (/ r * Rabs (K j * x (S j)) + Rabs (K j) * e)) with (/ r * (u_P1 u j * Rabs (K j * x (S j))) + u_P1 u j * Rabs (K j) * e) by ring.
      rewrite Rmult_plus_distr_r. apply Rplus_le_compat_r. rewrite (Rmult_comm M). apply Rmult_le_compat; try lra. apply Rmult_le_pos; [exact HP1 | apply Rabs_pos].
    - (* rows *)
      intros i Hi Wi. set (d := tilt u (c 0%nat) (fun j => c (S j)) i).
      assert (ALT : d = 0 \/ ~ (d <> 0 /\ (u_link u = IdentityL \/ ~ unopposed (u_fam u) (u_y u i) d))).
      2:{ destruct (u_link u) eqn:EL; (destruct ALT as [A|A]; [first [exact A | left; exact A] |]; apply NNPP; intros Q; apply A;
          first [split; [exact Q | left; reflexivity] | split; [intros Z; apply Q; left; exact Z | right; exact Q]]). }
      right. intros [Nd HO]. destruct (opposed_residual (u_fam u) (u_link u) (u_y u i) d Hf (Hy i Hi) Hc Nd HO) as [e0 HR].
      set (r0 := residual (u_fam u) (u_link u) (u_y u i) e0) in *.
      set (S0 := 1 + rsum (u_p u) (fun j => Rabs (u_X u i j))).
      assert (HS0 : 1 <= S0) by (unfold S0; pose proof (rsum_nonneg (u_p u) (fun j => Rabs (u_X u i j)) ltac:(intros; apply Rabs_pos)); lra).
      destruct (Hdir 1 Rlt_0_1) as (x1 & _ & [_ F1] & _). destruct (PARTS x1 F1) as (_ & _ & _ & M0).
      assert (Z : - (r0 * d) = 0); [|lra].
      apply (small_zero _ (Rabs r0 * S0 + (M / u_w u i + Rabs (r0 * (u_off u i - e0))))).
      { lra. }
      { pose proof (Rabs_pos r0). pose proof (Rabs_pos (r0 * (u_off u i - e0))). assert (0 <= M / u_w u i) by (apply Rmult_le_pos; [exact M0 | left; apply Rinv_0_lt_compat, Wi]).
        nra. }
      intros e He He1. destruct (Hdir e He) as (x & r & [_ Fx] & A2 & A3). destruct (POS e r He A2) as [Pr Ir]. destruct (PARTS x Fx) as (_ & _ & PR & _). specialize (PR i Hi).
      pose proof (row_tangent u (x 0%nat) (fun j => x (S j)) i e0 Hok Hc Hi) as RT. fold r0 in RT. pose proof (Rinv_0_lt_compat r Pr) as Ip.
      assert (RM : - (r0 * (user_eta u (x 0%nat) (fun j => x (S j)) i - e0)) <= M / u_w u i).
      { eapply Rle_trans; [exact RT|]. apply Rmult_le_reg_l with (u_w u i); [exact Wi|]. replace (u_w u i * (M / u_w u i)) with M by (field; lra). exact PR. }
      set (td := tilt u (x 0%nat / r) (fun j => x (S j) / r) i).
      assert (ET : user_eta u (x 0%nat) (fun j => x (S j)) i = r * td + u_off u i).
      { unfold user_eta, td, tilt. rewrite Rmult_plus_distr_l, <- rsum_scal. f_equal. f_equal; [field; lra|]. apply rsum_ext. intros j _. field. lra. }
      assert (TD : Rabs (td - d) <= S0 * e).
      { unfold td, d, tilt. replace (x 0%nat / r + rsum (u_p u) (fun j => u_X u i j * (x (S j) / r)) - (c 0%nat + rsum (u_p u) (fun j => u_X u i j * c (S j))))
          with ((x 0%nat / r - c 0%nat) + (rsum (u_p u) (fun j => u_X u i j * (x (S j) / r)) - rsum (u_p u) (fun j => u_X u i j * c (S j)))) by ring.
        rewrite <- rsum_minus. eapply Rle_trans; [apply Rabs_triang|]. unfold S0. rewrite Rmult_plus_distr_r, Rmult_1_l. apply Rplus_le_compat; [apply A3; lia|].
        eapply Rle_trans; [apply Rabs_rsum_le|]. rewrite Rmult_comm, <- rsum_scal. apply rsum_le. intros j Hj.
        replace (u_X u i j * (x (S j) / r) - u_X u i j * c (S j)) with (u_X u i j * (x (S j) / r - c (S j))) by ring. rewrite Rabs_mult, Rmult_comm.
        apply Rmult_le_compat_r; [apply Rabs_pos | apply A3; lia]. }
      rewrite ET in RM.
      (* - r0 td <= (M/w + |r0 (off - e0)|) / r *)
      assert (Q1 : - (r0 * td) <= (M / u_w u i + Rabs (r0 * (u_off u i - e0))) * / r).
      { apply Rmult_le_reg_l with r; [exact Pr|]. replace (r * ((M / u_w u i + Rabs (r0 * (u_off u i - e0))) * / r)) with (M / u_w u i + Rabs (r0 * (u_off u i - e0))) by (field; lra).
        pose proof (Rle_abs (r0 * (u_off u i - e0))). replace (r * - (r0 * td)) with (- (r0 * (r * td + u_off u i - e0)) + r0 * (u_off u i - e0)) by ring. lra. }
      assert (Q2 : - (r0 * d) <= - (r0 * td) + Rabs r0 * (S0 * e)).
      { assert (T : r0 * (td - d) <= Rabs r0 * (S0 * e)).
        { eapply Rle_trans; [apply Rle_abs|]. rewrite Rabs_mult. apply Rmult_le_compat_l; [apply Rabs_pos | exact TD]. }
        lra. }
      assert (Q3 : (M / u_w u i + Rabs (r0 * (u_off u i - e0))) * / r <= (M / u_w u i + Rabs (r0 * (u_off u i - e0))) * e).
      { apply Rmult_le_compat_l; [|exact Ir]. pose proof (Rabs_pos (r0 * (u_off u i - e0))). assert (0 <= M / u_w u i) by (apply Rmult_le_pos; [exact M0 | left; apply Rinv_0_lt_compat, Wi]). lra. }
      lra. }
  destruct (HD _ _ DR) as [Z0 Z1]. destruct k as [|j]; [contradiction|]. apply Nk, Z1. lia.
Qed.

(** C112: if only the zero direction drifts, the objective has a minimum. *)
Theorem C112_exists u : user_ok u -> convex_pair (u_fam u) (u_link u) -> (exists b0 b, allowed u b0 b) ->
  (forall c0 c, drift u c0 c -> null u c0 c) -> exists b0 b, optimum u b0 b.
Proof.
  intros Hok Hc [a0 [a Ha]] HD.
  pose (adm := fun x : nat -> R => allowed u (x 0%nat) (fun j => x (S j))).
  pose (f := fun x : nat -> R => user_obj u (pen_scale u) (x 0%nat) (fun j => x (S j))).
  destruct (attained (S (u_p u)) adm f) as [z [Az Oz]].
  - exists (fun k => match k with O => a0 | S j => a j end). exact Ha.
  - intros x _. unfold f. rewrite obj_split. pose proof (half_dev_nonneg u (x 0%nat) (fun j => x (S j)) Hok Hc).
    pose proof (pen_nonneg u (fun j => x (S j)) Hok). lra.
  - intros z Hz. split.
    + intros E. apply Rabs_eq_0. apply (small_zero _ 1); [apply Rabs_pos | lra|]. intros e He _. destruct (Hz e He) as [x [[A0 _] A]].
      specialize (A 0%nat ltac:(lia)). rewrite (A0 E), Rabs_minus_sym, Rminus_0_r in A. lra.
    + intros j Hj. split; intros v E; apply Rnot_lt_le; intros L.
      * destruct (Hz ((v - z (S j)) / 2)) as [x [[_ A1] A]]; [lra|]. destruct (A1 j Hj) as [B _]. specialize (B v E). specialize (A (S j) ltac:(lia)). apply Rabs_le_between in A. lra.
      * destruct (Hz ((z (S j) - v) / 2)) as [x [[_ A1] A]]; [lra|]. destruct (A1 j Hj) as [_ B]. specialize (B v E). specialize (A (S j) ltac:(lia)). apply Rabs_le_between in A. lra.
  - intros z. destruct (obj_lsc u (z 0%nat) (fun j => z (S j)) Hok Hc) as [K [HK HL]]. exists K. split; [exact HK|].
    intros d x Hd HX. apply (HL d (x 0%nat) (fun j => x (S j)) Hd); [apply HX; lia|]. intros j Hj. apply (HX (S j)). lia.
  - intros M. destruct (bounded_or_drift u M Hok Hc HD) as [B HB]. exists B. intros x A F. exact (HB x A F).
  - exists (z 0%nat), (fun j => z (S j)). split; [exact Az|]. intros b0 b A. exact (Oz (fun k => match k with O => b0 | S j => b j end) A).
Qed.
Print Assumptions C112_exists.

(** every row is strictly convex in its linear predictor *)
Lemma mean_inj f lk a b : convex_pair f lk -> mean_at lk a = mean_at lk b -> a = b.
Proof.
  intros Hc H. destruct f as [p| | | | | | |th]; destruct lk; simpl in Hc; try (exfalso; exact Hc); cbn [mean_at] in H; try exact H; try (apply exp_inv; exact H).
  apply (f_equal Rinv) in H. rewrite !Rinv_inv in H. assert (E : exp (- a) = exp (- b)) by lra. apply exp_inv in E. lra.
Qed.
Lemma unit_min_strict f lk a b : family_ok f -> convex_pair f lk -> a <> b ->
  unit_deviance f (mean_at lk a) (mean_at lk a) < unit_deviance f (mean_at lk a) (mean_at lk b).
Proof.
  intros Hf Hc N. destruct (unit_min f lk a b Hf Hc) as [L|E]; [exact L|exfalso]. apply N, (mean_inj f lk _ _ Hc).
  pose proof (mean_at_pos f lk a Hc) as P. pose proof (mean_at_pos f lk b Hc) as Q.
  destruct f as [p| | | | | | |th]; try (apply (unit_deviance_nonneg _ _ _ Hf ltac:(discriminate) (mean_support _ _ _ Hc) Q); rewrite <- E;
    apply (unit_deviance_nonneg _ _ _ Hf ltac:(discriminate) (mean_support _ _ _ Hc) P); reflexivity).
  destruct (C04_binomial_minimal_at_y (mean_at lk a) (mean_at lk b) P Q) as [_ H]. apply H. symmetry. exact E.
Qed.
Lemma strict_tangent f lk y a b : family_ok f -> support f y -> convex_pair f lk -> a <> b ->
  0 < half_at f lk y b - half_at f lk y a + residual f lk y a * (b - a).
Proof.
  intros Hf Hy Hc N.
  assert (CASE : 0 < pred_weight f y (mean_at lk a) \/ exists p, f = TweedieF p /\ lk = LogL /\ y = 0 /\ 1 < p < 2).
  { destruct f as [p| | | | | | |th]; destruct lk; simpl in Hc; try (exfalso; exact Hc); cbn [pred_weight mean_at]; try (left; lra).
    - left. destruct (Req_EM_T p 0); lra.
    - cbn in Hy. destruct (Req_EM_T p 0); [left; lra|]. destruct (Req_EM_T p 1); [left; lra|].
      destruct (Req_EM_T p 2); [left; apply Rmult_lt_0_compat; [apply Hy; lra | apply Rinv_0_lt_compat, exp_pos]|].
      destruct Hy as [Hy _]. destruct (Hy ltac:(lra)) as [Y|Y].
      + left. apply Rmin_glb_lt; [lra|]. apply Rmult_lt_0_compat; [exact Y | apply Rinv_0_lt_compat, exp_pos].
      + right. exists p. repeat split; lra.
    - left. cbn in Hy. apply Rmult_lt_0_compat; [exact Hy | apply Rinv_0_lt_compat, exp_pos].
    - left. cbn in Hf, Hy. assert (0 < th * exp a) by (apply Rmult_lt_0_compat; [exact Hf|apply exp_pos]).
      assert (0 <= th * y) by (apply Rmult_le_pos; lra). apply Rmult_lt_0_compat; [lra | apply Rinv_0_lt_compat; lra]. }
  destruct CASE as [W | (p & -> & -> & -> & Hp)].
  - pose proof (half_gap f lk y a b Hf Hy Hc) as G. eapply Rlt_le_trans; [|exact G]. apply Rmult_lt_0_compat; [exact W|].
    rewrite <- (unit_half _ _ _ _ _ Hf (mean_support _ _ _ Hc) Hc). pose proof (unit_min_strict f lk a b Hf Hc N). lra.
  - cbn [half_at residual]. destruct (Req_EM_T p 1); [lra|]. destruct (Req_EM_T p 2); [lra|].
    assert (E : (0 - exp a) * exp ((1 - p) * a) = - exp ((2 - p) * a)) by (replace ((2 - p) * a) with (a + (1 - p) * a) by ring; rewrite exp_plus; ring).
    rewrite E. set (q := 2 - p) in *. assert (Q : 0 < q) by (unfold q; lra).
    assert (X : exp (q * b) = exp (q * a) * exp (q * (b - a))) by (rewrite <- exp_plus; f_equal; ring). rewrite X.
    assert (I : 1 + q * (b - a) < exp (q * (b - a))) by (apply exp_ineq1; apply Rmult_integral_contrapositive_currified; lra).
    pose proof (exp_pos (q * a)) as P. assert (J : exp (q * a) * (1 + q * (b - a)) < exp (q * a) * exp (q * (b - a))) by (apply Rmult_lt_compat_l; assumption).
    apply Rmult_lt_reg_l with q; [exact Q|].
    replace (q * (0 * exp ((1 - p) * b) / (p - 1) + exp (q * a) * exp (q * (b - a)) / q - (0 * exp ((1 - p) * a) / (p - 1) + exp (q * a) / q) + - exp (q * a) * (b - a)))
      with (exp (q * a) * exp (q * (b - a)) - exp (q * a) * (1 + q * (b - a))) by (field; split; lra). lra.
Qed.
(** a strict minimum in between unless the linear predictors agree *)
Lemma obj_mid_strict u b0 b b0' b' k : user_ok u -> convex_pair (u_fam u) (u_link u) -> (k < u_n u)%nat -> 0 < u_w u k ->
  user_eta u b0 b k <> user_eta u b0' b' k ->
  user_obj u (pen_scale u) (/ 2 * (b0 + b0')) (fun j => / 2 * (b j + b' j)) < / 2 * (user_obj u (pen_scale u) b0 b + user_obj u (pen_scale u) b0' b').
Proof.
  intros Hok Hc Hk Wk Nk. rewrite !obj_split. unfold user_pen.
  pose proof (user_l2_mid u (pen_scale u) b b') as Q. pose proof (l1_mid u (pen_scale u) b b' Hok) as L.
  pose proof (l2_ge0 u (pen_scale u) (fun j => b j - b' j) Hok) as QN.
  set (c0 := / 2 * (b0 + b0')). set (c := fun j => / 2 * (b j + b' j)) in *.
  assert (E : forall i, user_eta u c0 c i = / 2 * (user_eta u b0 b i + user_eta u b0' b' i)).
  { intros i. unfold user_eta, c0, c. rewrite (rsum_ext _ _ (fun j => / 2 * (u_X u i j * b j + u_X u i j * b' j))) by (intros; field).
    rewrite rsum_scal, rsum_plus. field. }
  assert (H : 0 < / 2 * (user_half_dev u b0 b + user_half_dev u b0' b') - user_half_dev u c0 c); [|lra].
  rewrite !half_dev_rows by assumption. rewrite <- rsum_plus, <- !rsum_scal, <- rsum_minus.
  pose proof Hok as (Hf & Hy & Hw & _).
  assert (ROW : forall i, (i < u_n u)%nat -> let g := / 2 * (u_w u i * row_half_dev u b0 b i + u_w u i * row_half_dev u b0' b' i) - u_w u i * row_half_dev u c0 c i in
     0 <= g /\ (0 < u_w u i -> user_eta u b0 b i <> user_eta u b0' b' i -> 0 < g)).
  { intros i Hi. cbv zeta. unfold row_half_dev. rewrite E. set (x := user_eta u b0 b i). set (y := user_eta u b0' b' i). set (z := / 2 * (x + y)). specialize (Hw i Hi).
    pose proof (unit_half (u_fam u) (u_link u) (u_y u i) z x Hf (Hy i Hi) Hc) as U1.
    pose proof (unit_half (u_fam u) (u_link u) (u_y u i) z y Hf (Hy i Hi) Hc) as U2.
    set (r := residual (u_fam u) (u_link u) (u_y u i) z). assert (Z : r * (x - z) + r * (y - z) = 0) by (unfold z; field).
    assert (T : forall e, z <> e -> 0 < half_at (u_fam u) (u_link u) (u_y u i) e - half_at (u_fam u) (u_link u) (u_y u i) z + r * (e - z)).
    { intros e Ne. apply strict_tangent; auto. }
    match goal with |- 0 <= ?g /\ _ => assert (EG : g = u_w u i * (/ 2 * ((half_at (u_fam u) (u_link u) (u_y u i) x - half_at (u_fam u) (u_link u) (u_y u i) z + r * (x - z))
      + (half_at (u_fam u) (u_link u) (u_y u i) y - half_at (u_fam u) (u_link u) (u_y u i) z + r * (y - z))))) end.
    { rewrite <- U1, <- U2. replace (r * (y - z)) with (- (r * (x - z))) by lra. field. }
    rewrite EG. destruct (Req_dec x y) as [Exy|Nxy].
    - assert (Ez : z = x) by (unfold z; lra). rewrite <- Exy, Ez. split; [right; field | intros _ NN; contradiction].
    - assert (Nx : z <> x) by (unfold z; lra). assert (Ny : z <> y) by (unfold z; lra). pose proof (T x Nx). pose proof (T y Ny).
      split; [apply Rmult_le_pos; lra | intros W _; apply Rmult_lt_0_compat; lra]. }
  eapply Rlt_le_trans; [apply (proj2 (ROW k Hk) Wk Nk)|].
  apply (rsum_ge_one (u_n u) (fun i => / 2 * (u_w u i * row_half_dev u b0 b i + u_w u i * row_half_dev u b0' b' i) - u_w u i * row_half_dev u c0 c i)); [|exact Hk].
  intros i Hi. apply (ROW i Hi).
Qed.
Lemma allowed_mid u b0 b b0' b' : allowed u b0 b -> allowed u b0' b' -> allowed u (/ 2 * (b0 + b0')) (fun j => / 2 * (b j + b' j)).
Proof.
  intros [A0 A1] [B0 B1]. split; [intros E; rewrite (A0 E), (B0 E); ring|]. intros j Hj. destruct (A1 j Hj) as [L1 U1]. destruct (B1 j Hj) as [L2 U2].
  split; intros x E; [specialize (L1 x E); specialize (L2 x E)|specialize (U1 x E); specialize (U2 x E)]; lra.
Qed.

(** C112: all optima agree in the linear predictor, hence in the prediction, of every row of positive weight. *)
Theorem C112_same_predictions : forall u b0 b b0' b', user_ok u -> convex_pair (u_fam u) (u_link u) ->
  optimum u b0 b -> optimum u b0' b' -> forall i, (i < u_n u)%nat -> 0 < u_w u i -> user_eta u b0 b i = user_eta u b0' b' i.
Proof.
  intros u b0 b b0' b' Hok Hc O1 O2 i Hi Wi. apply NNPP. intros N.
  pose proof (obj_mid_strict u b0 b b0' b' i Hok Hc Hi Wi N) as M.
  pose proof (proj2 O1 _ _ (allowed_mid _ _ _ _ _ (proj1 O1) (proj1 O2))) as M1.
  pose proof (proj2 O2 _ _ (allowed_mid _ _ _ _ _ (proj1 O1) (proj1 O2))) as M2. lra.
Qed.
Print Assumptions C112_same_predictions.

(** C112: and there is at most one if the columns determine the coefficients. *)
Theorem C112_unique : forall u b0 b b0' b', user_ok u -> convex_pair (u_fam u) (u_link u) -> determined u ->
  optimum u b0 b -> optimum u b0' b' -> b0 = b0' /\ forall j, (j < u_p u)%nat -> b j = b' j.
Proof.
  intros u b0 b b0' b' Hok Hc HD O1 O2.
  destruct (HD (b0 - b0') (fun j => b j - b' j)) as [Z0 Z1].
  - intros E. rewrite (proj1 (proj1 O1) E), (proj1 (proj1 O2) E). ring.
  - pose proof (optimum_gap u b0 b b0' b' Hok Hc O1 (proj1 O2)) as G. pose proof (proj2 O2 b0 b (proj1 O1)) as L.
    pose proof (l2_ge0 u (pen_scale u) (fun j => b j - b' j) Hok) as N.
    assert (user_l2 u (pen_scale u) (fun j => b j - b' j) <= curvature u (b0 - b0') (fun j => b j - b' j)); [|lra].
    unfold curvature. assert (W : 0 <= rsum (u_n u) (fun i => u_w u i * tilt u (b0 - b0') (fun j => b j - b' j) i ^ 2)).
    { apply rsum_nonneg. intros i Hi. apply Rmult_le_pos; [apply Hok; exact Hi | apply pow2_ge_0]. }
    destruct (u_fam u), (u_link u); lra.
  - intros i Hi Wi. pose proof (C112_same_predictions u b0 b b0' b' Hok Hc O1 O2 i Hi Wi) as E. unfold user_eta in E. unfold tilt.
    rewrite (rsum_ext _ _ (fun j => u_X u i j * b j - u_X u i j * b' j)) by (intros; ring). rewrite rsum_minus. lra.
  - split; [lra|]. intros j Hj. specialize (Z1 j Hj). lra.
Qed.
Print Assumptions C112_unique.

(** along a drift the penalty does not change *)
Lemma l2_drift u k b c t : user_ok u -> user_l2 u k c = 0 -> user_l2 u k (fun j => b j + t * c j) = user_l2 u k b.
Proof.
  intros Hok Z.
  set (X := rsum (u_p u) (fun i => rsum (u_p u) (fun j => k i * b i * p2_entry (u_P2 u) i j * (k j * c j) + k i * c i * p2_entry (u_P2 u) i j * (k j * b j)))).
  assert (E : forall s, user_l2 u k (fun j => b j + s * c j) = user_l2 u k b + s * X).
  { intros s. replace (user_l2 u k b + s * X) with (user_l2 u k b + s * X + s ^ 2 * user_l2 u k c) by (rewrite Z; ring).
    unfold user_l2, X. rewrite <- !rsum_scal, <- !rsum_plus. apply rsum_ext. intros i _. rewrite <- !rsum_scal, <- !rsum_plus. apply rsum_ext. intros j _. ring. }
  assert (X0 : X = 0).
  { apply NNPP. intros N. pose proof (l2_ge0 u k (fun j => b j + (- (user_l2 u k b + 1) / X) * c j) Hok) as G. rewrite E in G.
    replace (- (user_l2 u k b + 1) / X * X) with (- (user_l2 u k b + 1)) in G by (field; exact N). lra. }
  rewrite E, X0. ring.
Qed.
Lemma drift_allowed u b0 b c0 c t : drift u c0 c -> allowed u b0 b -> 0 <= t -> allowed u (b0 + t * c0) (fun j => b j + t * c j).
Proof.
  intros (D0 & D1 & _) [A0 A1] Ht. split; [intros E; rewrite (A0 E), (D0 E); ring|]. intros j Hj. destruct (A1 j Hj) as [L U]. destruct (D1 j Hj) as [P Q].
  split; intros x E; [specialize (L x E); specialize (P ltac:(rewrite E; discriminate)) | specialize (U x E); specialize (Q ltac:(rewrite E; discriminate))]; nra.
Qed.
Lemma drift_pen u b c0 c t : user_ok u -> drift u c0 c -> user_pen u (pen_scale u) (fun j => b j + t * c j) = user_pen u (pen_scale u) b.
Proof.
  intros Hok (_ & _ & Z2 & Z1 & _). unfold user_pen. rewrite l2_drift by assumption. f_equal. apply rsum_ext. intros j Hj.
  specialize (Z1 j Hj). apply Rmult_integral in Z1. destruct Z1 as [-> | Z1]; [ring|]. apply Rabs_eq_0 in Z1.
  replace (pen_scale u j * (b j + t * c j)) with (pen_scale u j * b j + t * (pen_scale u j * c j)) by ring. rewrite Z1. do 2 f_equal. ring.
Qed.

(** C112: along a drift that changes the linear predictor of a row of positive weight the objective falls for ever. *)
Theorem C112_falls : forall u b0 b c0 c k t, user_ok u -> convex_pair (u_fam u) (u_link u) -> drift u c0 c ->
  (k < u_n u)%nat -> 0 < u_w u k -> tilt u c0 c k <> 0 -> 0 < t ->
  user_obj u (pen_scale u) (b0 + t * c0) (fun j => b j + t * c j) < user_obj u (pen_scale u) b0 b.
Proof.
  intros u b0 b c0 c k t Hok Hc HD Hk Hw Ht T. rewrite !obj_split, (drift_pen u b c0 c t Hok HD). pose proof (dev_slope u b0 b c0 c t Hok Hc T) as D.
  pose proof HD as (_ & _ & _ & _ & HO).
  assert (NI : u_link u <> IdentityL). { intros EL. specialize (HO k Hk Hw). rewrite EL in HO. contradiction. }
  assert (HU : forall i, (i < u_n u)%nat -> 0 < u_w u i -> unopposed (u_fam u) (u_y u i) (tilt u c0 c i)).
  { intros i Hi Wi. specialize (HO i Hi Wi). destruct (u_link u); try exact HO. congruence. }
  set (g := rsum (u_n u) _) in D. assert (G : 0 < g); [|assert (0 < t * g) by (apply Rmult_lt_0_compat; assumption); lra].
  assert (W : forall i, (i < u_n u)%nat -> 0 <= u_w u i) by apply Hok.
  unfold g. eapply Rlt_le_trans; [|apply rsum_ge_one; [|exact Hk]]; cbv beta.
  - apply Rmult_lt_0_compat; [exact Hw|]. apply unopposed_sign; auto. apply Hok.
  - intros i Hi. destruct (W i Hi) as [Wi | <-]; [|lra]. apply Rmult_le_pos; [lra|].
    destruct (Req_dec (tilt u c0 c i) 0) as [-> | N]; [lra|]. left. apply unopposed_sign; auto. apply Hok.
Qed.
Print Assumptions C112_falls.
Theorem C112_none : forall u c0 c k, user_ok u -> convex_pair (u_fam u) (u_link u) -> drift u c0 c ->
  (k < u_n u)%nat -> 0 < u_w u k -> tilt u c0 c k <> 0 -> ~ exists b0 b, optimum u b0 b.
Proof.
  intros u c0 c k Hok Hc HD Hk Hw Ht [b0 [b O]]. pose proof (C112_falls u b0 b c0 c k 1 Hok Hc HD Hk Hw Ht Rlt_0_1) as F.
  pose proof (proj2 O _ _ (drift_allowed u b0 b c0 c 1 HD (proj1 O) Rle_0_1)). lra.
Qed.
Print Assumptions C112_none.

(** C112: the two together. *)
Theorem C112_iff : forall u, user_ok u -> convex_pair (u_fam u) (u_link u) -> determined u -> (exists b0 b, allowed u b0 b) ->
  ((exists b0 b, optimum u b0 b) <-> forall c0 c, drift u c0 c -> null u c0 c).
Proof.
  intros u Hok Hc HD HA. split; [|apply C112_exists; assumption].
  intros HO c0 c D. apply HD; [apply D | apply D|]. intros i Hi Wi. apply NNPP. intros N. exact (C112_none u c0 c i Hok Hc D Hi Wi N HO).
Qed.
Print Assumptions C112_iff.

(** C112: with an intercept and every slope penalised (ridge, lasso, elastic net), only the intercept can drift. *)
Theorem C112_penalised : forall u, user_ok u -> convex_pair (u_fam u) (u_link u) -> u_ic u = true -> all_penalised u ->
  (exists i, (i < u_n u)%nat /\ 0 < u_w u i) -> (exists b0 b, allowed u b0 b) ->
  ((exists b0 b, optimum u b0 b) <-> (u_link u = IdentityL \/ mixed u)).
Proof.
  intros u Hok Hc IC AP [k [Hk Wk]] HA.
  assert (T0 : forall c0 i, tilt u c0 (fun _ => 0) i = c0) by (intros; unfold tilt; rewrite rsum_zero by (intros; ring); ring).
  split.
  - intros HO. apply NNPP. intros N.
    assert (NI : u_link u <> IdentityL) by (intros Q; apply N; left; exact Q).
    assert (DR : forall s, (forall i, (i < u_n u)%nat -> 0 < u_w u i -> unopposed (u_fam u) (u_y u i) s) -> s <> 0 -> False).
    { intros s HS Ns. refine (C112_none u s (fun _ => 0) k Hok Hc _ Hk Wk _ HO); [|rewrite T0; exact Ns].
      split; [congruence|]. split; [intros; split; intros; lra|]. split; [unfold user_l2; apply rsum_zero; intros; apply rsum_zero; intros; ring|].
      split; [intros; rewrite Rmult_0_r, Rabs_R0; ring|]. intros i Hi Wi. rewrite T0. specialize (HS i Hi Wi). destruct (u_link u); try exact HS. congruence. }
    apply N. right. split; apply NNPP; intros Q; [apply (DR (- 1)) | apply (DR 1)]; try lra; intros i Hi Wi; apply NNPP; intros V; apply Q; exists i; auto.
  - intros H. apply C112_exists; try assumption. intros c0 c (D0 & D1 & D2 & D3 & D4). pose proof (AP c D2 D3) as Z.
    assert (T : forall i, tilt u c0 c i = c0) by (intros i; unfold tilt; rewrite rsum_zero; [ring | intros j Hj; rewrite (Z j Hj); ring]).
    split; [|exact Z]. destruct H as [EL | [[i [Hi [Wi N1]]] [j [Hj [Wj N2]]]]].
    + specialize (D4 k Hk Wk). rewrite EL, T in D4. exact D4.
    + pose proof (D4 i Hi Wi) as D5. pose proof (D4 j Hj Wj) as D6. rewrite T in D5, D6.
      destruct (u_link u) eqn:EL; try exact D5; (destruct (Rtotal_order c0 0) as [L | [L | L]]; [|exact L|]; exfalso;
        [apply N1; unfold unopposed in *; destruct D5 as [D5 | [[D5 D5'] | (D5 & D5' & D5'')]]; [lra | right; left; split; [exact D5 | lra] | lra]
        |apply N2; unfold unopposed in *; destruct D6 as [D6 | [[D6 D6'] | (D6 & D6' & D6'')]]; [lra | lra | right; right; repeat split; [exact D6 | exact D6' | lra]]]).
Qed.
Print Assumptions C112_penalised.
Theorem C112_no_intercept : forall u, user_ok u -> convex_pair (u_fam u) (u_link u) -> u_ic u = false -> all_penalised u ->
  (exists b0 b, allowed u b0 b) -> exists b0 b, optimum u b0 b.
Proof.
  intros u Hok Hc IC AP HA. apply C112_exists; try assumption. intros c0 c (D0 & D1 & D2 & D3 & D4). split; [exact (D0 IC) | exact (AP c D2 D3)].
Qed.
Print Assumptions C112_no_intercept.

(** Non-vacuity.  An unpenalised logistic regression with intercept whose classes overlap has exactly one optimum ... *)
Definition ex112_u : user := mkUser 4 1 (fun i _ => match i with 0 | 1 => 0 | _ => 1 end) (fun i => match i with 0 | 2 => 0 | _ => 1 end) (fun _ => / 4) (fun _ => 0)
  true BinomialF LogitL (fun _ => 0) (P2diag (fun _ => 0)) (fun _ => None) (fun _ => None) false.
Lemma ex112_ok : user_ok ex112_u.
Proof.
  split; [exact I|]. split; [intros [|[|[|i]]] Hi; cbn; lra|]. split; [intros; cbn; lra|]. split; [intros; cbn; lra|]. split.
  - intros i j Hi Hj. cbn in Hi, Hj. replace i with j by lia. reflexivity.
  - intros v. cbn. lra.
Qed.
Example ex112_overlap : determined ex112_u /\ (forall c0 c, drift ex112_u c0 c -> null ex112_u c0 c) /\ (exists b0 b, optimum ex112_u b0 b) /\ ~ (exists m, curved ex112_u m).
Proof.
  assert (D : determined ex112_u).
  { intros c0 c _ _ H. pose proof (H 0%nat ltac:(cbn; lia) ltac:(cbn; lra)) as A. pose proof (H 2%nat ltac:(cbn; lia) ltac:(cbn; lra)) as B.
    unfold tilt in A, B. cbn in A, B. split; [lra|]. intros j Hj. cbn in Hj. replace j with 0%nat by lia. lra. }
  assert (N : forall c0 c, drift ex112_u c0 c -> null ex112_u c0 c).
  { intros c0 c (_ & _ & _ & _ & H). apply D; [discriminate | unfold user_l2; cbn; ring|].
    pose proof (H 0%nat ltac:(cbn; lia) ltac:(cbn; lra)) as A0. pose proof (H 1%nat ltac:(cbn; lia) ltac:(cbn; lra)) as A1.
    pose proof (H 2%nat ltac:(cbn; lia) ltac:(cbn; lra)) as A2. pose proof (H 3%nat ltac:(cbn; lia) ltac:(cbn; lra)) as A3.
    cbn in A0, A1, A2, A3. unfold unopposed, tilt in A0, A1, A2, A3. cbn in A0, A1, A2, A3.
    assert (Z0 : c0 + (0 + 0 * c 0%nat) = 0) by (destruct A0 as [A0|[A0|(_ & A0 & _)]]; destruct A1 as [A1|[[A1 _]|A1]]; lra).
    assert (Z1 : c0 + (0 + 1 * c 0%nat) = 0) by (destruct A2 as [A2|[A2|(_ & A2 & _)]]; destruct A3 as [A3|[[A3 _]|A3]]; lra).
    intros [|[|[|i]]] _ _; unfold tilt; cbn; lra. }
  split; [exact D|]. split; [exact N|]. split.
  - apply (C112_iff ex112_u ex112_ok I D); [|exact N]. exists 0, (fun _ => 0). split; [reflexivity|]. intros j _. split; discriminate.
  - intros [m [Hm H]]. specialize (H 1 (fun _ => 0) ltac:(discriminate)). unfold curvature, user_l2 in H. cbn in H. lra.
Qed.
(** ... and a penalised Poisson regression with intercept has one unless all counts are zero. *)
Definition ex112_counts (y : nat -> R) (l1 l2 : R) : user := mkUser 2 1 (fun i _ => INR i) y (fun _ => / 2) (fun _ => 0)
  true PoissonF LogL (fun _ => l1) (P2diag (fun _ => l2)) (fun _ => None) (fun _ => None) false.
Lemma ex112_counts_ok y l1 l2 : (forall i, (i < 2)%nat -> 0 <= y i) -> 0 <= l1 -> 0 <= l2 -> user_ok (ex112_counts y l1 l2).
Proof.
  intros HY H1 H2. split; [exact I|]. split; [exact HY|]. split; [intros; cbn; lra|]. split; [intros; exact H1|]. split.
  - intros i j Hi Hj. cbn in Hi, Hj. replace i with j by lia. reflexivity.
  - intros v. cbn. pose proof (pow2_ge_0 (v 0%nat)). nra.
Qed.
Example ex112_poisson y l1 l2 : (forall i, (i < 2)%nat -> 0 <= y i) -> 0 <= l1 -> 0 <= l2 -> 0 < l1 + l2 ->
  (exists b0 b, optimum (ex112_counts y l1 l2) b0 b) <-> (exists i, (i < 2)%nat /\ 0 < y i).
Proof.
  intros HY H1 H2 HL. pose proof (C112_penalised (ex112_counts y l1 l2) (ex112_counts_ok y l1 l2 HY H1 H2) I eq_refl) as T.
  assert (AP : all_penalised (ex112_counts y l1 l2)).
  { intros c Q1 Q2 j Hj. unfold user_l2 in Q1. cbn in Q1, Hj. replace j with 0%nat by lia. specialize (Q2 0%nat ltac:(cbn; lia)). cbn in Q2. rewrite Rmult_1_l in Q2.
    apply NNPP. intros N. pose proof (Rabs_pos_lt _ N). assert (0 < c 0%nat * c 0%nat) by (apply Rsqr_pos_lt in N; exact N). destruct H1 as [H1 | <-]; [|assert (0 < l2) by lra]; nra. }
  specialize (T AP). destruct T as [T1 T2].
  { exists 0%nat. cbn. split; [lia | lra]. }
  { exists 0, (fun _ => 0). split; [reflexivity|]. intros j _. split; discriminate. }
  split; [intros O; specialize (T1 O); revert T1 | intros O; apply T2; revert O].
  - intros [E | [(i & Hi & _ & N) _]]; [discriminate|]. exists i. split; [exact Hi|]. destruct (HY i Hi) as [P | E]; [exact P|]. exfalso. apply N. right; left. cbn. split; [symmetry; exact E | lra].
  - intros [i [Hi P]]. right. split; exists i; (split; [exact Hi|]; split; [cbn; lra|]); unfold unopposed; cbn; intros [Q|[[Q Q']|[Q Q']]]; try lra; discriminate.
Qed.
