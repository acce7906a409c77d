(** C104: how fits respond to the responses. *)
From Coq Require Import List Lia Lra Arith. Import ListNotations.
From Verif Require Import Base M_Link M_Dist M_Std M_Valid M_Fit L_KKT L_Std L_Solver3 S_Dist S_Std S_Fit S_FitAll L_Dist L_Dist4 L_Score L_FitAll L_Gap L_Obj L_Fit P_Dist P_Score P_FitAll P_Train P_Order.
From Verif Require Import M_Solver S_Solver S_Response.
Local Open Scope R_scope.

Lemma search_mean_at f lk e : convex_pair f lk -> search_mean f lk e = mean_at lk e.
Proof.
  intros Hc. destruct f as [p| | | | | | |th]; destruct lk; simpl in Hc; try (exfalso; exact Hc); try reflexivity.
  cbn. unfold expit, Rdiv. ring.
Qed.
Lemma half_dev_rows u b0 b : user_ok u -> convex_pair (u_fam u) (u_link u) ->
  user_half_dev u b0 b = rsum (u_n u) (fun i => u_w u i * row_half_dev u b0 b i).
Proof.
  intros (Hf & Hy & Hw & _) Hc. unfold user_half_dev. rewrite deviance_rows, lsumf_map, lsumf_seq, <- rsum_scal. apply rsum_ext. intros i Hi.
  cbn [oy ow omu]. rewrite search_mean_at by exact Hc.
  rewrite devrow_eq; [unfold row_half_dev; ring|exact Hf|apply Hy, Hi|eapply convex_pair_dev_ok; eauto|apply (mean_at_pos _ _ _ Hc)].
Qed.
Lemma half_linear f lk y y' a b : family_ok f -> convex_pair f lk ->
  half_at f lk y b - half_at f lk y a - (half_at f lk y' b - half_at f lk y' a) = (y' - y) * (natural f lk b - natural f lk a).
Proof.
  intros Hf Hc. destruct f as [p| | | | | | |th]; destruct lk; simpl in Hc; try (exfalso; exact Hc); cbn [half_at natural].
  - field.
  - destruct (Req_EM_T p 1) as [->|N1]; [ring|]. destruct (Req_EM_T p 2) as [->|N2].
    + replace ((1 - 2) * b) with (- b) by ring. replace ((1 - 2) * a) with (- a) by ring. field.
    + field. lra.
  - field.
  - ring.
  - ring.
  - ring.
  - cbn in Hf. assert (T : 0 < / th) by (apply Rinv_0_lt_compat, Hf).
    assert (L : forall e, ln (exp e / (exp e + / th)) = e - ln (exp e + / th)).
    { intros e. pose proof (exp_pos e). unfold Rdiv. rewrite ln_mult, ln_Rinv, ln_exp by (try apply Rinv_0_lt_compat; lra). ring. }
    rewrite !L. ring.
Qed.
Lemma natural_increasing f lk a b : family_ok f -> convex_pair f lk -> a < b -> natural f lk a < natural f lk b.
Proof.
  intros Hf Hc H. destruct f as [p| | | | | | |th]; destruct lk; simpl in Hc; try (exfalso; exact Hc); cbn [natural]; try exact H.
  - destruct (Req_EM_T p 1) as [_|N1]; [exact H|].
    assert (E : exp ((1 - p) * b) < exp ((1 - p) * a)) by (apply exp_increasing; assert (0 < (p - 1) * (b - a)) by (apply Rmult_lt_0_compat; lra); lra).
    unfold Rdiv. assert (I : / (1 - p) < 0) by (apply Rinv_lt_0_compat; lra). nra.
  - assert (exp (- b) < exp (- a)) by (apply exp_increasing; lra). lra.
  - cbn in Hf. assert (T : 0 < / th) by (apply Rinv_0_lt_compat, Hf). pose proof (exp_pos a) as Pa. pose proof (exp_increasing a b H) as I. set (t := / th) in *. clearbody t.
    apply ln_increasing; [apply Rmult_lt_0_compat; [exact Pa|apply Rinv_0_lt_compat; lra]|].
    apply Rmult_lt_reg_r with ((exp a + t) * (exp b + t)); [apply Rmult_lt_0_compat; lra|].
    replace (exp a / (exp a + t) * ((exp a + t) * (exp b + t))) with (exp a * (exp b + t)) by (field; lra).
    replace (exp b / (exp b + t) * ((exp a + t) * (exp b + t))) with (exp b * (exp a + t)) by (field; lra). nra.
Qed.
Lemma silent_near s u se b0 b : user_ok u -> convex_pair (u_fam u) (u_link u) -> silent s u se b0 b ->
  near_optimal u (fit_tol s u se) 0 (admissible u None) b0 b /\ user_feasible u b.
Proof.
  intros Hok Hc (l & guess & a & sl & H1 & H2 & H3 & H4 & H5 & H6 & H7 & H8 & H9).
  destruct (C70_silent_near_optimal s u se None l guess a b0 b sl Hok H1 H2 Hc H4 H5 H6 H7 (fun _ => H8) H9) as [N [F _]].
  split; [|exact F]. destruct s; exact N.
Qed.
Lemma ok_with_y u y : user_ok u -> (forall i, (i < u_n u)%nat -> support (u_fam u) (y i)) -> user_ok (with_y u y).
Proof. intros (F & _ & W & P & S1 & S2) Hy. repeat split; try assumption. Qed.

(** Two fits without warnings, of the same model to responses y and y': the L2 form of the difference of the
    coefficients and the distance of the predictions are bounded by the weighted sum of the changes of the responses
    times the changes of the natural parameters, up to the tolerances. *)
Theorem C104_response : forall u y' s s' se se' b0 b b0' b' D,
  user_ok u -> (forall i, (i < u_n u)%nat -> support (u_fam u) (y' i)) -> convex_pair (u_fam u) (u_link u) ->
  silent s u se b0 b -> silent s' (with_y u y') se' b0' b' -> 0 <= D -> std_close u D b0 b b0' b' ->
  user_l2 u (pen_scale u) (fun j => b' j - b j)
  + / 2 * (pred_dev u b0 b b0' b' + pred_dev (with_y u y') b0' b' b0 b)
  <= rsum (u_n u) (fun i => u_w u i * (y' i - u_y u i)
       * (natural (u_fam u) (u_link u) (user_eta u b0' b' i) - natural (u_fam u) (u_link u) (user_eta u b0 b i)))
     + (fit_tol s u se + fit_tol s' u se') * D.
Proof.
  intros u y' s s' se se' b0 b b0' b' D Hok Hy' Hc S1 S2 HD HX. pose proof (ok_with_y u y' Hok Hy') as Hok'. set (v := with_y u y') in *.
  destruct (silent_near s u se b0 b Hok Hc S1) as [[I1 N1] F1]. destruct (silent_near s' v se' b0' b' Hok' Hc S2) as [[I2 N2] F2].
  specialize (N1 b0' b' D (conj F2 I) I2 HD HX). specialize (N2 b0 b D (conj F1 I) I1 HD (std_close_sym _ _ _ _ _ _ HX)).
  rewrite !obj_split in N1, N2. rewrite !half_dev_rows in N1, N2 by assumption.
  rewrite (user_l2_sym v (pen_scale v) (fun j => b' j - b j) (fun j => b j - b' j)) in N2 by (intros; ring).
  change (user_l2 v (pen_scale v) (fun j => b' j - b j)) with (user_l2 u (pen_scale u) (fun j => b' j - b j)) in N2.
  change (user_pen v (pen_scale v) b') with (user_pen u (pen_scale u) b') in N2. change (user_pen v (pen_scale v) b) with (user_pen u (pen_scale u) b) in N2.
  change (fit_tol s' v se') with (fit_tol s' u se') in N2. change (u_n v) with (u_n u) in N2. change (u_w v) with (u_w u) in N2.
  set (R := rsum (u_n u) (fun i => u_w u i * (y' i - u_y u i) * _)).
  assert (E : R = rsum (u_n u) (fun i => u_w u i * row_half_dev u b0' b' i) - rsum (u_n u) (fun i => u_w u i * row_half_dev u b0 b i)
     - (rsum (u_n u) (fun i => u_w u i * row_half_dev v b0' b' i) - rsum (u_n u) (fun i => u_w u i * row_half_dev v b0 b i))).
  { rewrite <- !rsum_minus. apply rsum_ext. intros i Hi. pose proof Hok as (Hf & Hy & _).
    pose proof (unit_half (u_fam u) (u_link u) (u_y u i) (user_eta u b0 b i) (user_eta u b0' b' i) Hf (Hy i Hi) Hc) as U1.
    pose proof (unit_half (u_fam u) (u_link u) (y' i) (user_eta u b0 b i) (user_eta u b0' b' i) Hf (Hy' i Hi) Hc) as U2.
    pose proof (half_linear (u_fam u) (u_link u) (u_y u i) (y' i) (user_eta u b0 b i) (user_eta u b0' b' i) Hf Hc) as L.
    unfold row_half_dev. change (user_eta v) with (user_eta u). cbn [v with_y u_fam u_link u_y].
    rewrite <- U1, <- U2 in L. rewrite Rmult_assoc, <- L. ring. }
  lra.
Qed.
Print Assumptions C104_response.

(** Raising the response of one row, and nothing else, does not lower its own prediction: the natural parameter falls by at
    most the tolerance divided by the weighted change; without tolerance the prediction does not fall at all. *)
Theorem C104_own_row : forall u y' s s' se se' b0 b b0' b' D i,
  user_ok u -> (forall i, (i < u_n u)%nat -> support (u_fam u) (y' i)) -> convex_pair (u_fam u) (u_link u) ->
  silent s u se b0 b -> silent s' (with_y u y') se' b0' b' -> 0 <= D -> std_close u D b0 b b0' b' ->
  (i < u_n u)%nat -> (forall k, (k < u_n u)%nat -> k <> i -> y' k = u_y u k) -> u_y u i < y' i -> 0 < u_w u i ->
  let theta b0 b := natural (u_fam u) (u_link u) (user_eta u b0 b i) in
  let mu b0 b := mean_at (u_link u) (user_eta u b0 b i) in
  theta b0 b <= theta b0' b' + (fit_tol s u se + fit_tol s' u se') * D / (u_w u i * (y' i - u_y u i)) /\
  (s = SClosed -> s' = SClosed -> mu b0 b <= mu b0' b').
Proof.
  intros u y' s s' se se' b0 b b0' b' D i Hok Hy' Hc S1 S2 HD HX Hi He Hlt Hw theta mu.
  pose proof (C104_response u y' s s' se se' b0 b b0' b' D Hok Hy' Hc S1 S2 HD HX) as H.
  rewrite (rsum_single (u_n u) i) in H; [|exact Hi|intros k Hk Nk; rewrite (He k Hk Nk); ring].
  pose proof (pred_dev_nonneg u b0 b b0' b' Hok Hc) as P1.
  pose proof (pred_dev_nonneg (with_y u y') b0' b' b0 b (ok_with_y u y' Hok Hy') Hc) as P2.
  assert (P3 : 0 <= user_l2 u (pen_scale u) (fun j => b' j - b j)).
  { destruct Hok as [_ [_ [_ [_ [_ HP]]]]]. apply (HP (fun j => pen_scale u j * (b' j - b j))). }
  fold (theta b0 b) in H. fold (theta b0' b') in H.
  assert (Q : 0 < u_w u i * (y' i - u_y u i)) by (apply Rmult_lt_0_compat; lra).
  assert (T : theta b0 b <= theta b0' b' + (fit_tol s u se + fit_tol s' u se') * D / (u_w u i * (y' i - u_y u i))).
  { apply Rmult_le_reg_r with (u_w u i * (y' i - u_y u i)); [exact Q|]. unfold Rdiv.
    rewrite Rmult_plus_distr_r, (Rmult_assoc _ (/ _)), Rinv_l by lra. lra. }
  split; [exact T|]. intros -> ->. cbn [fit_tol] in T. unfold Rdiv in T. rewrite Rplus_0_r, !Rmult_0_l, Rplus_0_r in T.
  assert (E : user_eta u b0 b i <= user_eta u b0' b' i).
  { destruct (Rle_lt_dec (user_eta u b0 b i) (user_eta u b0' b' i)) as [L|L]; [exact L|].
    apply (natural_increasing (u_fam u) (u_link u)) in L; [|apply Hok|exact Hc]. unfold theta in T. lra. }
  unfold mu. destruct E as [E|E]; [|rewrite E; lra].
  destruct (u_fam u), (u_link u); simpl in Hc; try (exfalso; exact Hc); cbn [mean_at]; try lra; try (left; apply exp_increasing, E).
  left. pose proof (exp_increasing (- user_eta u b0' b' i) (- user_eta u b0 b i) ltac:(lra)). pose proof (exp_pos (- user_eta u b0' b' i)).
  apply Rinv_lt_contravar; [apply Rmult_lt_0_compat; lra|lra].
Qed.
Print Assumptions C104_own_row.

(** Gaussian models, whatever the penalty: predictions differ by no more than the responses do. *)
Theorem C104_gaussian : forall u y' s s' se se' b0 b b0' b' D,
  user_ok u -> u_fam u = NormalF -> u_link u = IdentityL ->
  silent s u se b0 b -> silent s' (with_y u y') se' b0' b' -> 0 <= D -> std_close u D b0 b b0' b' ->
  rsum (u_n u) (fun i => u_w u i * (user_eta u b0' b' i - user_eta u b0 b i) ^ 2) + 2 * user_l2 u (pen_scale u) (fun j => b' j - b j)
  <= rsum (u_n u) (fun i => u_w u i * (y' i - u_y u i) ^ 2) + 2 * (fit_tol s u se + fit_tol s' u se') * D.
Proof.
  intros u y' s s' se se' b0 b b0' b' D Hok Ef El S1 S2 HD HX.
  assert (Hc : convex_pair (u_fam u) (u_link u)) by (rewrite Ef, El; exact I).
  assert (Hy' : forall i, (i < u_n u)%nat -> support (u_fam u) (y' i)) by (intros; rewrite Ef; exact I).
  pose proof (C104_response u y' s s' se se' b0 b b0' b' D Hok Hy' Hc S1 S2 HD HX) as H.
  rewrite !pred_dev_eq in H; [|apply ok_with_y; assumption|exact Hc|assumption|exact Hc].
  change (user_eta (with_y u y')) with (user_eta u) in H. cbn [with_y u_fam u_link u_n u_w u_y] in H. rewrite Ef, El in H. cbn [pred_weight mean_at natural unit_deviance] in H.
  set (Q := rsum (u_n u) (fun i => u_w u i * (user_eta u b0' b' i - user_eta u b0 b i) ^ 2)).
  set (Y := rsum (u_n u) (fun i => u_w u i * (y' i - u_y u i) ^ 2)).
  assert (E1 : rsum (u_n u) (fun i => u_w u i * 1 * ((user_eta u b0 b i - user_eta u b0' b' i) ^ 2 - (user_eta u b0 b i - user_eta u b0 b i) ^ 2)) = Q)
    by (apply rsum_ext; intros; ring).
  assert (E2 : rsum (u_n u) (fun i => u_w u i * 1 * ((user_eta u b0' b' i - user_eta u b0 b i) ^ 2 - (user_eta u b0' b' i - user_eta u b0' b' i) ^ 2)) = Q)
    by (apply rsum_ext; intros; ring).
  rewrite E1, E2 in H. clear E1 E2.
  assert (C : rsum (u_n u) (fun i => u_w u i * (y' i - u_y u i) * (user_eta u b0' b' i - user_eta u b0 b i)) <= / 2 * Q + / 2 * Y).
  { unfold Q, Y. rewrite <- !rsum_scal, <- rsum_plus. apply rsum_le. intros i Hi. pose proof Hok as (_ & _ & W & _). specialize (W i Hi).
    set (e := user_eta u b0' b' i - user_eta u b0 b i). pose proof (pow2_ge_0 (y' i - u_y u i - e)).
    assert (0 <= u_w u i * (y' i - u_y u i - e) ^ 2) by (apply Rmult_le_pos; assumption). nra. }
  lra.
Qed.
Print Assumptions C104_gaussian.

(** Normal, Poisson and logistic models without intercept whose L2 form is at least m times the sum of squares: the
    coefficients are Lipschitz in the responses. *)
Theorem C104_coefficients : forall u y' s s' se se' b0 b b0' b' m S0,
  user_ok u -> (forall i, (i < u_n u)%nat -> support (u_fam u) (y' i)) -> convex_pair (u_fam u) (u_link u) -> balanced_pair (u_fam u) (u_link u) ->
  silent s u se b0 b -> silent s' (with_y u y') se' b0' b' -> u_ic u = false -> 0 < m ->
  (forall d, m * rsum (u_p u) (fun j => d j ^ 2) <= user_l2 u (pen_scale u) d) ->
  (forall j, (j < u_p u)%nat -> col_scale u j <= S0) ->
  forall j, (j < u_p u)%nat ->
  Rabs (b' j - b j) <= (rsum (u_p u) (fun l => Rabs (rsum (u_n u) (fun i => u_w u i * (y' i - u_y u i) * u_X u i l)))
                        + (fit_tol s u se + fit_tol s' u se') * S0) / m.
Proof.
  intros u y' s s' se se' b0 b b0' b' m S0 Hok Hy' Hc Hb S1 S2 Hic Hm HL HS j Hj.
  destruct (argmax (u_p u) (fun j => Rabs (b' j - b j)) ltac:(lia)) as [k [Hk HK]]. set (dk := Rabs (b' k - b k)) in *.
  assert (D0 : 0 <= dk) by apply Rabs_pos.
  assert (SP : forall j, 0 < col_scale u j) by (intros i; rewrite col_scale_inv; apply Rinv_0_lt_compat, inv_pos).
  assert (S00 : 0 <= S0) by (specialize (HS j Hj); specialize (SP j); lra).
  assert (HX : std_close u (S0 * dk) b0 b b0' b').
  { split; [congruence|]. intros i Hi. apply Rmult_le_compat; [left; apply SP|apply Rabs_pos|apply HS, Hi|apply HK, Hi]. }
  pose proof (C104_response u y' s s' se se' b0 b b0' b' (S0 * dk) Hok Hy' Hc S1 S2 ltac:(apply Rmult_le_pos; assumption) HX) as H.
  pose proof (pred_dev_nonneg u b0 b b0' b' Hok Hc) as P1.
  pose proof (pred_dev_nonneg (with_y u y') b0' b' b0 b (ok_with_y u y' Hok Hy') Hc) as P2.
  assert (Z : b0 = 0 /\ b0' = 0).
  { split; [apply (silent_near s u se b0 b Hok Hc S1), Hic|apply (silent_near s' (with_y u y') se' b0' b' (ok_with_y u y' Hok Hy') Hc S2), Hic]. }
  destruct Z as [-> ->].
  set (g := fun l => rsum (u_n u) (fun i => u_w u i * (y' i - u_y u i) * u_X u i l)).
  change (Rabs (b' j - b j) <= (rsum (u_p u) (fun l => Rabs (g l)) + (fit_tol s u se + fit_tol s' u se') * S0) / m).
  assert (NE : forall e, natural (u_fam u) (u_link u) e = e).
  { intros e. destruct (u_fam u), (u_link u); simpl in Hb; try (exfalso; exact Hb); cbn [natural]; try reflexivity. destruct (Req_EM_T p 1); [reflexivity|contradiction]. }
  assert (E : rsum (u_n u) (fun i => u_w u i * (y' i - u_y u i)
       * (natural (u_fam u) (u_link u) (user_eta u 0 b' i) - natural (u_fam u) (u_link u) (user_eta u 0 b i))) = rsum (u_p u) (fun l => g l * (b' l - b l))).
  { unfold g. rewrite (rsum_ext (u_p u) _ (fun l => rsum (u_n u) (fun i => u_w u i * (y' i - u_y u i) * u_X u i l * (b' l - b l)))).
    2: { intros l _. rewrite Rmult_comm, <- rsum_scal. apply rsum_ext. intros; ring. }
    rewrite rsum_swap. apply rsum_ext. intros i _. rewrite !NE. unfold user_eta.
    replace (0 + rsum (u_p u) (fun j => u_X u i j * b' j) + u_off u i - (0 + rsum (u_p u) (fun j => u_X u i j * b j) + u_off u i))
      with (rsum (u_p u) (fun j => u_X u i j * b' j) - rsum (u_p u) (fun j => u_X u i j * b j)) by ring.
    rewrite <- rsum_minus, <- rsum_scal. apply rsum_ext. intros; ring. }
  rewrite E in H. clear E.
  assert (G : rsum (u_p u) (fun l => g l * (b' l - b l)) <= dk * rsum (u_p u) (fun l => Rabs (g l))).
  { rewrite <- rsum_scal. apply rsum_le. intros l Hl. eapply Rle_trans; [apply Rle_abs|]. rewrite Rabs_mult, Rmult_comm.
    apply Rmult_le_compat_r; [apply Rabs_pos|apply HK, Hl]. }
  specialize (HL (fun j => b' j - b j)).
  assert (Q : dk ^ 2 <= rsum (u_p u) (fun j => (b' j - b j) ^ 2)).
  { unfold dk. rewrite pow2_abs. apply (rsum_ge_one (u_p u) (fun j => (b' j - b j) ^ 2) k); [intros; apply pow2_ge_0|exact Hk]. }
  eapply Rle_trans; [apply HK, Hj|]. fold dk.
  apply Rmult_le_reg_r with m; [exact Hm|]. unfold Rdiv. rewrite Rmult_assoc, Rinv_l, Rmult_1_r by lra.
  set (T := fit_tol s u se + fit_tol s' u se') in *. set (GG := rsum (u_p u) (fun l => Rabs (g l))) in *.
  assert (M : m * dk ^ 2 <= dk * GG + T * (S0 * dk)) by nra.
  destruct (Req_dec dk 0) as [Zk|Zk].
  - rewrite Zk, Rmult_0_l. apply Rplus_le_le_0_compat; [apply rsum_nonneg; intros; apply Rabs_pos|]. apply Rmult_le_pos; [|exact S00].
    assert (T0 : forall s u se b0 b, silent s u se b0 b -> 0 <= fit_tol s u se).
    { intros s1 u1 se1 c0 c (l & gu & a & sl & _ & _ & G0 & _). destruct s1; cbn [fit_tol]; try lra; apply Rmult_le_pos; try exact G0; apply pos_INR. }
    apply T0 in S1. apply T0 in S2. change (fit_tol s' (with_y u y') se') with (fit_tol s' u se') in S2. unfold T. lra.
  - apply Rmult_le_reg_r with dk; [lra|]. nra.
Qed.
Print Assumptions C104_coefficients.
