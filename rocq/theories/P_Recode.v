(** Theorems C81: the predictions of silent fits. *)
From Coq Require Import String List. Import ListNotations.
From Verif Require Import Base M_Std S_Std S_Fit M_Valid M_Fit S_FitAll S_Recode.
From Verif Require Import L_Link L_Dist L_Dist2 L_Dist4 L_CD L_KKT L_Solver L_Solver2 L_Obj L_Std L_Fit L_Rows L_Score L_Gap L_FitAll P_Solver P_Obj P_Std P_Fit P_Score P_FitAll.
From Verif Require Import M_Solver S_Solver.
Local Open Scope R_scope.

(** C81: the predictions of a silent fit are close, in deviance, to those of every admissible model whose
    objective is not larger, in particular of an exact optimum, however many of them there are. *)
Theorem C81_close_to_optimum : forall s u se q l guess a b0 b sl b0' b' D, user_ok u -> 0 <= se_approx se -> se_stol se = None ->
  convex_pair (u_fam u) (u_link u) -> libs_sound sl l -> start_ok u a -> accepts s u q -> s <> SMono ->
  (s = SLbfgs \/ s = STrust -> unclipped u b0 b) ->
  fit_with s u se q l guess a = Some (b0, b, false, false) ->
  admissible u q b' -> (u_ic u = false -> b0' = 0) -> user_obj u (pen_scale u) b0' b' <= user_obj u (pen_scale u) b0 b ->
  0 <= D -> std_close u D b0 b b0' b' ->
  0 <= pred_dev u b0 b b0' b' <= 2 * (fit_tol s u se * D + match s, q with STrust, Some _ => sl | _, _ => 0 end).
Proof.
  intros s u se q l guess a b0 b sl b0' b' D Hok HC Hst Hc Hl Ha Hq Hs Hu E F0 I0 Ob HD HX.
  destruct (C70_silent_near_optimal s u se q l guess a b0 b sl Hok HC Hst Hc Hl Ha Hq Hs Hu E) as [[_ N] _].
  specialize (N b0' b' D F0 I0 HD HX).
  assert (P2 : 0 <= user_l2 u (pen_scale u) (fun j => b' j - b j)).
  { destruct Hok as [_ [_ [_ [_ [_ HP]]]]]. apply (HP (fun j => pen_scale u j * (b' j - b j))). }
  split; [apply pred_dev_nonneg; assumption|lra].
Qed.
Print Assumptions C81_close_to_optimum.

(** what the distance means: it is non-negative, for Gaussian models it is the weighted squared distance, and
    when it is zero all predictions on rows with positive weight are equal (for Gamma and Tweedie models: on
    rows with a positive response) *)
Lemma pred_gap_rows f lk n y w eta eta' : family_ok f -> convex_pair f lk ->
  pred_gap f lk n y w eta eta' = rsum n (fun i => w i * pred_weight f (y i) (mean_at lk (eta i))
     * (unit_deviance f (mean_at lk (eta i)) (mean_at lk (eta' i)) - unit_deviance f (mean_at lk (eta i)) (mean_at lk (eta i)))).
Proof.
  intros Hf Hc. unfold pred_gap. cbv zeta. unfold saturate. rewrite map_map, !deviance_rows, !lsumf_map, !lsumf_seq, <- rsum_minus.
  apply rsum_ext. intros i Hi. cbn [oy ow omu].
  rewrite !devrow_eq; try (apply (mean_at_pos _ _ _ Hc)); try exact Hf; try (apply (mean_support _ _ _ Hc)); try (eapply convex_pair_dev_ok; eauto).
  ring.
Qed.
Lemma unit_min_eq f lk a b : family_ok f -> convex_pair f lk ->
  unit_deviance f (mean_at lk a) (mean_at lk b) = unit_deviance f (mean_at lk a) (mean_at lk a) -> mean_at lk b = mean_at lk a.
Proof.
  intros Hf Hc E. pose proof (mean_at_pos f lk a Hc) as P.
  assert (WA : wavg ((mean_at lk a, 1) :: nil) = mean_at lk a) by (unfold wavg; rewrite !lsumf_cons, !lsumf_nil; cbn; field).
  destruct (weighted_mean_min f ((mean_at lk a, 1) :: nil) (mean_at lk b) Hf) as [_ M].
  - intros yw [<-|[]]. cbn. split; [apply mean_support, Hc|lra].
  - rewrite lsumf_cons, lsumf_nil. cbn. lra.
  - rewrite WA. exact P.
  - apply mean_at_pos, Hc.
  - rewrite WA in M. symmetry. apply M. unfold udsum. rewrite !lsumf_cons, !lsumf_nil. cbn. rewrite E. reflexivity.
Qed.
Theorem C81_distance : forall f lk n y w eta eta', family_ok f -> convex_pair f lk ->
  (forall i, (i < n)%nat -> support f (y i) /\ 0 <= w i) ->
  0 <= pred_gap f lk n y w eta eta' /\
  (f = NormalF -> pred_gap f lk n y w eta eta' = rsum n (fun i => w i * (eta i - eta' i) ^ 2)) /\
  (pred_gap f lk n y w eta eta' = 0 -> forall i, (i < n)%nat -> 0 < w i ->
     (match f with TweedieF p => 1 < p < 2 -> 0 < y i | _ => True end) -> mean_at lk (eta' i) = mean_at lk (eta i)).
Proof.
  intros f lk n y w eta eta' Hf Hc Hy.
  assert (NN : forall i, (i < n)%nat -> 0 <= w i * pred_weight f (y i) (mean_at lk (eta i))
     * (unit_deviance f (mean_at lk (eta i)) (mean_at lk (eta' i)) - unit_deviance f (mean_at lk (eta i)) (mean_at lk (eta i)))).
  { intros i Hi. destruct (Hy i Hi) as [Sy Wy]. apply Rmult_le_pos; [apply Rmult_le_pos; [exact Wy|apply pred_weight_nonneg; auto]|].
    pose proof (unit_min f lk (eta i) (eta' i) Hf Hc). lra. }
  split; [rewrite pred_gap_rows by assumption; apply rsum_nonneg, NN|]. split.
  - intros ->. destruct lk; simpl in Hc; try (exfalso; exact Hc). rewrite pred_gap_rows by assumption.
    apply rsum_ext. intros i _. cbn. ring.
  - intros Z i Hi Wi Yi. rewrite pred_gap_rows in Z by assumption.
    apply (unit_min_eq f lk (eta i) (eta' i) Hf Hc).
    pose proof (rsum_ge_one n _ i NN Hi) as G. rewrite Z in G. specialize (NN i Hi).
    assert (K : 0 < pred_weight f (y i) (mean_at lk (eta i))).
    { destruct (Hy i Hi) as [Sy _]. clear - Yi Hc Sy Hf. destruct f as [p| | | | | | |th]; destruct lk; simpl in Hc; try (exfalso; exact Hc); cbn [pred_weight mean_at]; try lra.
      - destruct (Req_EM_T p 0); lra.
      - destruct (Req_EM_T p 0); [lra|]. destruct (Req_EM_T p 1); [lra|].
        assert (0 < y i) by (destruct (Req_EM_T p 2) as [->|]; [destruct Sy as [_ S2]; apply S2; lra|apply Yi; lra]).
        assert (0 < y i / exp (eta i)) by (apply Rmult_lt_0_compat; [lra|apply Rinv_0_lt_compat, exp_pos]).
        destruct (Req_EM_T p 2); [lra|]. apply Rmin_glb_lt; lra.
      - cbn in Sy. apply Rmult_lt_0_compat; [lra|apply Rinv_0_lt_compat, exp_pos].
      - cbn in Hf, Sy. assert (0 < th * exp (eta i)) by (apply Rmult_lt_0_compat; [exact Hf|apply exp_pos]).
        assert (0 <= th * y i) by (apply Rmult_le_pos; lra). apply Rmult_lt_0_compat; [lra|apply Rinv_0_lt_compat; lra]. }
    assert (WK : 0 < w i * pred_weight f (y i) (mean_at lk (eta i))) by (apply Rmult_lt_0_compat; assumption).
    set (d := unit_deviance f (mean_at lk (eta i)) (mean_at lk (eta' i)) - _) in *.
    assert (Dz : d = 0) by nra. unfold d in Dz. lra.
Qed.
Print Assumptions C81_distance.

(** Silent fits of the same unpenalised model, with the columns written in two ways that span the same space
    (another reference level, with or without dropping a level, other units, redundant columns), predict the
    same on the training rows up to the tolerances. *)
Lemma recode_eta u u' A t b0' b' i : rows_agree u u' -> columns_from u u' A t -> (i < u_n u)%nat ->
  user_eta u (back_intercept u u' t b0' b') (back_coef u' A b') i = user_eta u' b0' b' i.
Proof.
  intros [_ [_ [_ [_ R]]]] C Hi. destruct (R i Hi) as [_ [_ Ho]]. unfold user_eta, back_intercept, back_coef. rewrite Ho. f_equal.
  rewrite (rsum_ext (u_p u') (fun k => u_X u' i k * b' k) (fun k => (if u_ic u then t k * b' k else 0) + rsum (u_p u) (fun j => A j k * u_X u i j * b' k))).
  2:{ intros k Hk. rewrite (C i k Hi Hk), rsum_scal_r. destruct (u_ic u); ring. }
  rewrite rsum_plus, rsum_swap.
  rewrite (rsum_ext (u_p u) (fun j => u_X u i j * _) (fun j => rsum (u_p u') (fun k => A j k * u_X u i j * b' k))).
  2:{ intros j _. rewrite <- rsum_scal. apply rsum_ext. intros; ring. }
  destruct (u_ic u).
  - ring.
  - rewrite (rsum_zero (u_p u') (fun _ => 0)) by reflexivity. ring.
Qed.
Lemma unpenalised_obj u k b0 b : unpenalised u -> user_obj u k b0 b = user_half_dev u b0 b.
Proof.
  intros [P1 P2]. unfold user_obj, user_half_dev.
  rewrite (rsum_zero (u_p u)), (rsum_zero (u_p u)); [ring| |].
  - intros j Hj. rewrite P1 by exact Hj. ring.
  - intros i Hi. apply rsum_zero. intros j Hj. rewrite P2 by assumption. ring.
Qed.
Lemma half_dev_ext u u' b0 b b0' b' : rows_agree u u' -> (forall i, (i < u_n u)%nat -> user_eta u b0 b i = user_eta u' b0' b' i) ->
  user_half_dev u b0 b = user_half_dev u' b0' b'.
Proof.
  intros [N [F [L [_ R]]]] H. unfold user_half_dev. rewrite <- N, F, L. do 2 f_equal. apply map_ext_in. intros i Hi. apply in_seq in Hi.
  destruct (R i ltac:(lia)) as [-> [-> _]]. rewrite H by lia. reflexivity.
Qed.
Lemma pred_gap_ext f lk n y w eta eta' y2 w2 eta2 eta2' :
  (forall i, (i < n)%nat -> y i = y2 i /\ w i = w2 i /\ eta i = eta2 i /\ eta' i = eta2' i) ->
  pred_gap f lk n y w eta eta' = pred_gap f lk n y2 w2 eta2 eta2'.
Proof.
  intros H. unfold pred_gap. cbv zeta.
  assert (E : map (fun i => mkobs (mean_at lk (eta i)) (w i * pred_weight f (y i) (mean_at lk (eta i))) (mean_at lk (eta' i))) (seq 0 n)
   = map (fun i => mkobs (mean_at lk (eta2 i)) (w2 i * pred_weight f (y2 i) (mean_at lk (eta2 i))) (mean_at lk (eta2' i))) (seq 0 n)).
  { apply map_ext_in. intros i Hi. apply in_seq in Hi. destruct (H i ltac:(lia)) as [-> [-> [-> ->]]]. reflexivity. }
  rewrite E. reflexivity.
Qed.
Theorem C81_recoding : forall u u' A A' t t' s1 s2 se1 se2 l1 l2 g1 g2 a1 a2 sl1 sl2 b0 b b0' b' D D',
  user_ok u -> user_ok u' -> rows_agree u u' -> columns_from u u' A t -> columns_from u' u A' t' ->
  unpenalised u -> unpenalised u' -> no_bounds u -> no_bounds u' ->
  0 <= se_approx se1 -> 0 <= se_approx se2 -> se_stol se1 = None -> se_stol se2 = None ->
  convex_pair (u_fam u) (u_link u) -> libs_sound sl1 l1 -> libs_sound sl2 l2 -> s1 <> SMono -> s2 <> SMono ->
  (s1 = SLbfgs \/ s1 = STrust -> unclipped u b0 b) -> (s2 = SLbfgs \/ s2 = STrust -> unclipped u' b0' b') ->
  fit_with s1 u se1 None l1 g1 a1 = Some (b0, b, false, false) ->
  fit_with s2 u' se2 None l2 g2 a2 = Some (b0', b', false, false) ->
  0 <= D -> std_close u D b0 b (back_intercept u u' t b0' b') (back_coef u' A b') ->
  0 <= D' -> std_close u' D' b0' b' (back_intercept u' u t' b0 b) (back_coef u A' b) ->
  let gap := pred_gap (u_fam u) (u_link u) (u_n u) (u_y u) (u_w u) in
  let eta := user_eta u b0 b in let eta' := user_eta u' b0' b' in
  gap eta eta' + gap eta' eta <= 2 * (fit_tol s1 u se1 * D + fit_tol s2 u' se2 * D') /\
  - (fit_tol s2 u' se2 * D') <= user_half_dev u b0 b - user_half_dev u' b0' b' <= fit_tol s1 u se1 * D.
Proof.
  intros u u' A A' t t' s1 s2 se1 se2 l1 l2 g1 g2 a1 a2 sl1 sl2 b0 b b0' b' D D' Ok Ok' SR CF CF' UP UP' NB NB' C1 C2 T1 T2 Hc L1 L2 M1 M2 U1 U2 E1 E2 HD HX HD' HX' gap eta eta'.
  assert (SR' : rows_agree u' u).
  { destruct SR as [N [F [L [I R]]]]. split; [auto|]. split; [auto|]. split; [auto|]. split; [auto|]. intros i Hi. destruct (R i ltac:(lia)) as [Q1 [Q2 Q3]]. auto. }
  assert (ACC : forall s u, unpenalised u -> no_bounds u -> accepts s u None).
  { intros s v H1 H2. split; [intros _; split; [exact (proj1 H1)|exact H2]|congruence]. }
  assert (ST : forall u a, no_bounds u -> start_ok u a).
  { intros v a H. right. intros j x Hj [K|K]; destruct (H j Hj) as [Z1 Z2]; congruence. }
  assert (FE : forall u b, no_bounds u -> admissible u None b).
  { intros v c H. split; [|exact I]. intros j Hj. destruct (H j Hj) as [Z1 Z2]. rewrite Z1, Z2. split; discriminate. }
  assert (Hc' : convex_pair (u_fam u') (u_link u')) by (destruct SR as [_ [<- [<- _]]]; exact Hc).
  destruct (C70_silent_near_optimal s1 u se1 None l1 g1 a1 b0 b sl1 Ok C1 T1 Hc L1 (ST u a1 NB) (ACC s1 u UP NB) M1 U1 E1) as [[I1 N1] _].
  destruct (C70_silent_near_optimal s2 u' se2 None l2 g2 a2 b0' b' sl2 Ok' C2 T2 Hc' L2 (ST u' a2 NB') (ACC s2 u' UP' NB') M2 U2 E2) as [[I2 N2] _].
  assert (IC : u_ic u = u_ic u') by apply SR.
  specialize (N1 (back_intercept u u' t b0' b') (back_coef u' A b') D (FE u (back_coef u' A b') NB) ltac:(intros H; unfold back_intercept; rewrite H, Rplus_0_r; apply I2; congruence) HD HX).
  specialize (N2 (back_intercept u' u t' b0 b) (back_coef u A' b) D' (FE u' (back_coef u A' b) NB') ltac:(intros H; unfold back_intercept; rewrite H, Rplus_0_r; apply I1; congruence) HD' HX').
  assert (Z1 : match s1, @None ineq with STrust, Some _ => sl1 | _, _ => 0 end = 0) by (destruct s1; reflexivity).
  assert (Z2 : match s2, @None ineq with STrust, Some _ => sl2 | _, _ => 0 end = 0) by (destruct s2; reflexivity).
  rewrite Z1 in N1. rewrite Z2 in N2. rewrite !unpenalised_obj in N1, N2 by assumption.
  assert (Q1 : forall d, 0 <= user_l2 u (pen_scale u) d).
  { intros d. destruct Ok as [_ [_ [_ [_ [_ HP]]]]]. apply (HP (fun j => pen_scale u j * d j)). }
  assert (Q2 : forall d, 0 <= user_l2 u' (pen_scale u') d).
  { intros d. destruct Ok' as [_ [_ [_ [_ [_ HP]]]]]. apply (HP (fun j => pen_scale u' j * d j)). }
  pose proof (Q1 (fun j => back_coef u' A b' j - b j)) as P1. pose proof (Q2 (fun j => back_coef u A' b j - b' j)) as P2.
  assert (NN : u_n u = u_n u') by apply SR.
  assert (H1 : user_half_dev u (back_intercept u u' t b0' b') (back_coef u' A b') = user_half_dev u' b0' b').
  { apply half_dev_ext; [exact SR|]. intros i Hi. apply recode_eta; assumption. }
  assert (H2 : user_half_dev u' (back_intercept u' u t' b0 b) (back_coef u A' b) = user_half_dev u b0 b).
  { apply half_dev_ext; [exact SR'|]. intros i Hi. apply recode_eta; assumption. }
  assert (G1 : pred_dev u b0 b (back_intercept u u' t b0' b') (back_coef u' A b') = gap eta eta').
  { apply pred_gap_ext. intros i Hi. repeat split. apply recode_eta; assumption. }
  assert (G2 : pred_dev u' b0' b' (back_intercept u' u t' b0 b) (back_coef u A' b) = gap eta' eta).
  { unfold pred_dev, gap. destruct SR as [_ [<- [<- [_ RR]]]]. rewrite <- NN. apply pred_gap_ext. intros i Hi. destruct (RR i Hi) as [-> [-> _]].
    repeat split. apply recode_eta; try assumption. lia. }
  rewrite H1 in N1. rewrite H2 in N2. rewrite G1 in N1. rewrite G2 in N2.
  assert (0 <= gap eta eta') by (rewrite <- G1; apply pred_dev_nonneg; assumption).
  assert (0 <= gap eta' eta) by (rewrite <- G2; apply pred_dev_nonneg; assumption). lra.
Qed.
Print Assumptions C81_recoding.

(** Removing one column of a group that sums to one on every row (one level of a categorical feature) when
    there is an intercept: the two column sets come from each other. *)
Definition keep (c k : nat) : nat := if Nat.ltb k c then k else S k.
Definition place (c k : nat) : nat := if Nat.ltb k c then k else (k - 1)%nat.
Lemma pick_one n (f : nat -> R) k : (k < n)%nat -> rsum n (fun j => (if Nat.eqb j k then 1 else 0) * f j) = f k.
Proof.
  intros Hk. rewrite (rsum_single n k _ Hk); [rewrite Nat.eqb_refl; ring|].
  intros j Hj N. apply Nat.eqb_neq in N. rewrite N. ring.
Qed.
Lemma skip_one n c (f : nat -> R) : (c < S n)%nat -> rsum (S n) f = f c + rsum n (fun k => f (keep c k)).
Proof.
  revert c. induction n as [|n IH]; intros c Hc.
  - assert (c = 0)%nat by lia. subst. cbn [rsum]. ring.
  - destruct (Nat.eq_dec c (S n)) as [->|N].
    + cbn [rsum]. assert (K : keep (S n) n = n) by (unfold keep; rewrite (proj2 (Nat.ltb_lt _ _)) by lia; reflexivity).
      rewrite K. rewrite (rsum_ext n (fun k => f (keep (S n) k)) f).
      * ring.
      * intros k Hk. unfold keep. rewrite (proj2 (Nat.ltb_lt _ _)) by lia. reflexivity.
    + change (rsum (S (S n)) f) with (rsum (S n) f + f (S n)). rewrite (IH c) by lia.
      change (rsum (S n) (fun k => f (keep c k))) with (rsum n (fun k => f (keep c k)) + f (keep c n)).
      assert (K : keep c n = S n) by (unfold keep; rewrite (proj2 (Nat.ltb_ge _ _)) by lia; reflexivity). rewrite K. ring.
Qed.
Theorem C81_drop_level : forall u u' c (G : nat -> bool), u_ic u = true -> u_ic u' = true -> u_n u = u_n u' ->
  u_p u = S (u_p u') -> (c < u_p u)%nat -> G c = true ->
  (forall i, (i < u_n u)%nat -> rsum (u_p u) (fun j => if G j then u_X u i j else 0) = 1) ->
  (forall i k, (i < u_n u)%nat -> (k < u_p u')%nat -> u_X u' i k = u_X u i (if Nat.ltb k c then k else S k)) ->
  exists A t A' t', columns_from u u' A t /\ columns_from u' u A' t'.
Proof.
  intros u u' c G I1 I2 N P Hc Gc Sum Col. fold (keep c) in Col.
  exists (fun j k => if Nat.eqb j (keep c k) then 1 else 0), (fun _ => 0),
    (fun j k => if Nat.eqb k c then (if G (keep c j) then -1 else 0) else (if Nat.eqb (keep c j) k then 1 else 0)),
    (fun k => if Nat.eqb k c then 1 else 0).
  split; intros i k Hi Hk; rewrite ?I1, ?I2.
  - rewrite (Col i k Hi Hk), Rplus_0_l. fold (keep c k). rewrite (pick_one (u_p u) (fun j => u_X u i j)); [reflexivity|].
    unfold keep. destruct (Nat.ltb k c); lia.
  - rewrite <- N in Hi. destruct (Nat.eqb k c) eqn:E.
    + apply Nat.eqb_eq in E. subst k. specialize (Sum i Hi). rewrite P in Sum. rewrite (skip_one (u_p u') c) in Sum by lia. rewrite Gc in Sum.
      rewrite (rsum_ext (u_p u') (fun j => (if G (keep c j) then -1 else 0) * u_X u' i j) (fun j => - (if G (keep c j) then u_X u i (keep c j) else 0))).
      2:{ intros j Hj. rewrite (Col i j Hi Hj). fold (keep c j). destruct (G (keep c j)); ring. }
      rewrite rsum_opp. lra.
    + apply Nat.eqb_neq in E. rewrite Rplus_0_l. set (r := place c k).
      assert (Kr : keep c r = k /\ (r < u_p u')%nat).
      { unfold r, place, keep. destruct (Nat.ltb k c) eqn:L.
        - rewrite L. apply Nat.ltb_lt in L. split; lia.
        - apply Nat.ltb_ge in L. rewrite (proj2 (Nat.ltb_ge _ _)) by lia. split; lia. }
      destruct Kr as [Kr Hr].
      rewrite (rsum_ext (u_p u') _ (fun j => (if Nat.eqb j r then 1 else 0) * u_X u' i j)).
      * rewrite (pick_one (u_p u') (fun j => u_X u' i j) r Hr). rewrite (Col i r Hi Hr). fold (keep c r). rewrite Kr. reflexivity.
      * intros j Hj. f_equal. destruct (Nat.eqb j r) eqn:J.
        -- apply Nat.eqb_eq in J. subst j. rewrite Kr, Nat.eqb_refl. reflexivity.
        -- apply Nat.eqb_neq in J. destruct (Nat.eqb (keep c j) k) eqn:J2; [|reflexivity]. apply Nat.eqb_eq in J2. exfalso. apply J. clear J. clearbody r.
           rewrite <- Kr in J2. unfold keep in J2. destruct (Nat.ltb j c) eqn:L1, (Nat.ltb r c) eqn:L2;
             rewrite ?Nat.ltb_lt, ?Nat.ltb_ge in L1; rewrite ?Nat.ltb_lt, ?Nat.ltb_ge in L2; lia.
Qed.
Print Assumptions C81_drop_level.

Lemma close_somewhere u b0 b b0' b' : exists D, 0 <= D /\ std_close u D b0 b b0' b'.
Proof.
  set (x := Rabs (b0' - b0 + rsum (u_p u) (fun j => u_means u j * (b' j - b j)))).
  set (y := fun j => Rabs (col_scale u j * Rabs (b' j - b j))).
  assert (Y : forall j, (j < u_p u)%nat -> 0 <= y j) by (intros; apply Rabs_pos).
  assert (X0 : 0 <= x) by apply Rabs_pos. pose proof (rsum_nonneg (u_p u) y Y) as S0.
  exists (x + rsum (u_p u) y). split; [lra|]. split.
  - intros _. fold x. lra.
  - intros j Hj. pose proof (rsum_ge_one (u_p u) y j Y Hj). pose proof (Rle_abs (col_scale u j * Rabs (b' j - b j))). unfold y in *. lra.
Qed.
(** Least squares by the closed form, which is what the default solver runs: the predictions of two codings of
    the same columns are equal on every row with positive weight, also when some columns are redundant. *)
Theorem C81_least_squares : forall u u' A A' t t' se1 se2 l1 l2 g1 g2 a1 a2 sl1 sl2,
  user_ok u -> user_ok u' -> rows_agree u u' -> columns_from u u' A t -> columns_from u' u A' t' ->
  u_fam u = NormalF -> u_link u = IdentityL -> unpenalised u -> unpenalised u' -> no_bounds u -> no_bounds u' ->
  se_has_bounds se1 = false -> se_has_bounds se2 = false -> se_stol se1 = None -> se_stol se2 = None ->
  0 <= se_approx se1 -> 0 <= se_approx se2 -> libs_sound sl1 l1 -> libs_sound sl2 l2 ->
  exists b0 b b0' b',
    fit_with SClosed u se1 None l1 g1 a1 = Some (b0, b, false, false) /\
    fit_with SClosed u' se2 None l2 g2 a2 = Some (b0', b', false, false) /\
    forall i, (i < u_n u)%nat -> 0 < u_w u i -> user_eta u b0 b i = user_eta u' b0' b' i.
Proof.
  intros u u' A A' t t' se1 se2 l1 l2 g1 g2 a1 a2 sl1 sl2 Ok Ok' SR CF CF' HF HL UP UP' NB NB' B1 B2 T1 T2 C1 C2 L1 L2.
  assert (RUN : forall v se l g a, u_fam v = NormalF -> u_link v = IdentityL -> unpenalised v -> se_has_bounds se = false ->
     exists b0 b, fit_with SClosed v se None l g a = Some (b0, b, false, false)).
  { intros v se l g a F L [P1 _] B. unfold fit_with, solve. cbv zeta. rewrite B.
    assert (X : (normal_identity v && forallb (fun j => Reqb (pb_P1 (std_problem v (solve_settings SClosed v se)) j) 0) (seq 0 (u_p v)) && negb false && true)%bool = true).
    { unfold normal_identity. rewrite F, L. cbn [andb negb]. rewrite !Bool.andb_true_r. apply forallb_forall. intros j Hj. apply in_seq in Hj.
      apply Reqb_true. change (std_P1 (u_scale v) (u_P1 v) (u_stds v) j = 0). unfold std_P1. destruct (u_scale v); rewrite P1 by lia; ring. }
    rewrite X. destruct (user_result v _) as [b0 b]. exists b0, b. reflexivity. }
  assert (HF' : u_fam u' = NormalF) by (destruct SR as [_ [<- _]]; exact HF).
  assert (HL' : u_link u' = IdentityL) by (destruct SR as [_ [_ [<- _]]]; exact HL).
  destruct (RUN u se1 l1 g1 a1 HF HL UP B1) as [b0 [b E1]]. destruct (RUN u' se2 l2 g2 a2 HF' HL' UP' B2) as [b0' [b' E2]].
  exists b0, b, b0', b'. split; [exact E1|]. split; [exact E2|]. intros i Hi Wi.
  assert (Hc : convex_pair (u_fam u) (u_link u)) by (rewrite HF, HL; exact I).
  destruct (close_somewhere u b0 b (back_intercept u u' t b0' b') (back_coef u' A b')) as [D [D0 HD]].
  destruct (close_somewhere u' b0' b' (back_intercept u' u t' b0 b) (back_coef u A' b)) as [D' [D0' HD']].
  assert (V : forall s, s = SClosed -> s <> SMono) by (intros; congruence).
  destruct (C81_recoding u u' A A' t t' SClosed SClosed se1 se2 l1 l2 g1 g2 a1 a2 sl1 sl2 b0 b b0' b' D D'
    Ok Ok' SR CF CF' UP UP' NB NB' C1 C2 T1 T2 Hc L1 L2 ltac:(discriminate) ltac:(discriminate)
    ltac:(intros [H|H]; discriminate) ltac:(intros [H|H]; discriminate) E1 E2 D0 HD D0' HD') as [G _].
  cbn [fit_tol] in G. rewrite !Rmult_0_l, Rplus_0_l, Rmult_0_r in G.
  assert (FO : family_ok (u_fam u)) by apply Ok.
  assert (ROWS : forall i, (i < u_n u)%nat -> support (u_fam u) (u_y u i) /\ 0 <= u_w u i).
  { destruct Ok as [_ [Sy [Wy _]]]. intros k Hk. split; [apply Sy, Hk|]. apply Wy, Hk. }
  destruct (C81_distance (u_fam u) (u_link u) (u_n u) (u_y u) (u_w u) (user_eta u b0 b) (user_eta u' b0' b') FO Hc ROWS) as [N1 [_ Z1]].
  destruct (C81_distance (u_fam u) (u_link u) (u_n u) (u_y u) (u_w u) (user_eta u' b0' b') (user_eta u b0 b) FO Hc ROWS) as [N2 _].
  assert (G0 : pred_gap (u_fam u) (u_link u) (u_n u) (u_y u) (u_w u) (user_eta u b0 b) (user_eta u' b0' b') = 0) by lra.
  pose proof (Z1 G0 i Hi Wi) as E. rewrite HF, HL in E. symmetry. apply E. exact I.
Qed.
Print Assumptions C81_least_squares.

(** Three rows, a factor with two levels and an intercept, with and without dropping the first level: the
    hypotheses of C81 hold and the two fits, one of them rank deficient, predict the same. *)
Definition ex81_u : user :=
  mkUser 3 2 (fun i j => match i, j with 0%nat, 0%nat | 1%nat, 0%nat | 2%nat, 1%nat => 1 | _, _ => 0 end)
    (fun i => match i with 0%nat => 1 | 1%nat => 2 | _ => 5 end) (fun _ => / 3) (fun _ => 0) true NormalF IdentityL
    (fun _ => 0) (P2diag (fun _ => 0)) (fun _ => None) (fun _ => None) false.
Definition ex81_u' : user :=
  mkUser 3 1 (fun i j => match i, j with 2%nat, 0%nat => 1 | _, _ => 0 end)
    (fun i => match i with 0%nat => 1 | 1%nat => 2 | _ => 5 end) (fun _ => / 3) (fun _ => 0) true NormalF IdentityL
    (fun _ => 0) (P2diag (fun _ => 0)) (fun _ => None) (fun _ => None) false.
Example C81_nonvacuous : exists b0 b b0' b',
  fit_with SClosed ex81_u ex70_se None exact_libs 0 StartNone = Some (b0, b, false, false) /\
  fit_with SClosed ex81_u' ex70_se None exact_libs 0 StartNone = Some (b0', b', false, false) /\
  forall i, (i < 3)%nat -> user_eta ex81_u b0 b i = user_eta ex81_u' b0' b' i.
Proof.
  assert (OK : user_ok ex81_u).
  { split; [exact I|]. split; [intros; exact I|]. split; [intros; simpl; lra|]. split; [intros; simpl; lra|]. split.
    - intros i j _ _. cbn. rewrite (Nat.eqb_sym j i). destruct (Nat.eqb i j); reflexivity.
    - intros v. simpl. lra. }
  assert (OK' : user_ok ex81_u').
  { split; [exact I|]. split; [intros; exact I|]. split; [intros; simpl; lra|]. split; [intros; simpl; lra|]. split.
    - intros i j _ _. cbn. rewrite (Nat.eqb_sym j i). destruct (Nat.eqb i j); reflexivity.
    - intros v. simpl. lra. }
  destruct (C81_drop_level ex81_u ex81_u' 0 (fun _ => true) eq_refl eq_refl eq_refl eq_refl ltac:(cbn; lia) eq_refl) as [A [t [A' [t' [CF CF']]]]].
  - intros i Hi. cbn in Hi. destruct i as [|[|[|i]]]; [| | |lia]; cbn; ring.
  - intros i k Hi Hk. cbn in Hi, Hk. assert (k = 0)%nat by lia. subst k. destruct i as [|[|[|i]]]; [| | |lia]; reflexivity.
  - assert (UP : unpenalised ex81_u /\ unpenalised ex81_u').
    { split; (split; [intros; reflexivity|]); intros i j _ _; cbn; destruct (Nat.eqb i j); reflexivity. }
    destruct (C81_least_squares ex81_u ex81_u' A A' t t' ex70_se ex70_se exact_libs exact_libs 0 0 StartNone StartNone 0 0
      OK OK' ltac:(repeat split) CF CF' eq_refl eq_refl (proj1 UP) (proj2 UP) ltac:(intros j _; split; reflexivity) ltac:(intros j _; split; reflexivity)
      eq_refl eq_refl eq_refl eq_refl (Rle_refl 0) (Rle_refl 0) (exact_libs_sound 0 (Rle_refl 0)) (exact_libs_sound 0 (Rle_refl 0)))
      as [b0 [b [b0' [b' [E1 [E2 P]]]]]].
    exists b0, b, b0', b'. split; [exact E1|]. split; [exact E2|]. intros i Hi. apply P; [exact Hi|cbn; lra].
Qed.
