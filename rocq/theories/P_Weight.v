(** C105: how fits respond to the weight of one row. *)
From Coq Require Import List Lia Lra Arith. Import ListNotations.
From Verif Require Import Base M_Link M_Dist M_Std M_Valid M_Fit L_KKT L_Std L_Solver3 S_Dist S_Std S_Fit S_FitAll L_Dist L_Dist4 L_Score L_FitAll L_Gap L_Obj L_Fit L_Rows P_Dist P_Score P_FitAll P_Train P_Order P_Recode P_Ones P_Response.
From Verif Require Import M_Solver S_Solver S_Response.
Local Open Scope R_scope.

Lemma rows_half_dev u rows b0 b : user_ok (with_rows u rows) -> convex_pair (u_fam u) (u_link u) ->
  user_half_dev (with_rows u rows) b0 b = mean_half_dev u b0 b rows.
Proof.
  intros Hok Hc. rewrite half_dev_rows by assumption.
  rewrite <- (rsum_ext (length rows) (fun i => u_w (with_rows u rows) i * (fun x y off => half_dev_of u b0 b (mkRow x y 0 off)) (r_x (nth i rows row0)) (r_y (nth i rows row0)) (r_off (nth i rows row0)))).
  - rewrite (sum_rows u rows (fun x y off => half_dev_of u b0 b (mkRow x y 0 off))). reflexivity.
  - intros i _. reflexivity.
Qed.
Lemma mid_sum (f : row -> R) pre r post : lsumf f (pre ++ r :: post) = lsumf f (pre ++ post) + f r.
Proof. induction pre as [|x pre IH]; cbn [app]; rewrite !lsumf_cons; [ring|]. rewrite IH. ring. Qed.
Lemma pen_rows u rows rows' b : u_scale u = false -> user_pen (with_rows u rows) (pen_scale (with_rows u rows)) b = user_pen (with_rows u rows') (pen_scale (with_rows u rows')) b.
Proof. intros HS. unfold user_pen, user_l2, pen_scale. cbn [with_rows u_scale]. rewrite HS. reflexivity. Qed.
Lemma l2_nonneg u d : user_ok u -> 0 <= user_l2 u (pen_scale u) d.
Proof. intros [_ [_ [_ [_ [_ HP]]]]]. apply (HP (fun j => pen_scale u j * d j)). Qed.

Section Heavier.
Variables (u : user) (rows rows' : list row) (r : row) (t : R).
Hypothesis HE : forall f, (forall x t, f (heavier x t) = f x) -> lsumf (fun x => r_w x * f x) rows' = lsumf (fun x => r_w x * f x) rows + t * f r.
Variables (s s' : solver) (se se' : settings) (b0 : R) (b : nat -> R) (b0' : R) (b' : nat -> R) (D D' : R).
Hypothesis Hok : user_ok (with_rows u rows).
Hypothesis Hok' : user_ok (with_rows u rows').
Hypothesis HW : 0 < lsumf r_w rows.
Hypothesis Ht : 0 < t.
Hypothesis Hc : convex_pair (u_fam u) (u_link u).
Hypothesis HS : u_scale u = false.
Hypothesis S1 : silent s (with_rows u rows) se b0 b.
Hypothesis S2 : silent s' (with_rows u rows') se' b0' b'.
Hypothesis HD : 0 <= D.
Hypothesis HD' : 0 <= D'.
Hypothesis HX : std_close (with_rows u rows) D b0 b b0' b'.
Hypothesis HX' : std_close (with_rows u rows') D' b0' b' b0 b.
Lemma heavier_pair : let P b := user_pen (with_rows u rows) (pen_scale (with_rows u rows)) b in
  mean_half_dev u b0 b rows + P b <= mean_half_dev u b0' b' rows + P b' + fit_tol s u se * D /\
  (lsumf r_w rows * mean_half_dev u b0' b' rows + t * half_dev_of u b0' b' r) / (lsumf r_w rows + t) + P b'
  <= (lsumf r_w rows * mean_half_dev u b0 b rows + t * half_dev_of u b0 b r) / (lsumf r_w rows + t) + P b + fit_tol s' u se' * D'.
Proof.
  intros P. destruct (silent_near s (with_rows u rows) se b0 b Hok Hc S1) as [[I1 N1] F1]. destruct (silent_near s' (with_rows u rows') se' b0' b' Hok' Hc S2) as [[I2 N2] F2].
  specialize (N1 b0' b' D (conj F2 I) I2 HD HX). specialize (N2 b0 b D' (conj F1 I) I1 HD' HX').
  pose proof (pred_dev_nonneg (with_rows u rows) b0 b b0' b' Hok Hc). pose proof (pred_dev_nonneg (with_rows u rows') b0' b' b0 b Hok' Hc).
  pose proof (l2_nonneg (with_rows u rows) (fun j => b' j - b j) Hok). pose proof (l2_nonneg (with_rows u rows') (fun j => b j - b' j) Hok').
  rewrite !obj_split, !rows_half_dev in N1, N2 by assumption. change (fit_tol s (with_rows u rows) se) with (fit_tol s u se) in N1.
  change (fit_tol s' (with_rows u rows') se') with (fit_tol s' u se') in N2.
  rewrite (pen_rows u rows' rows b HS), (pen_rows u rows' rows b' HS) in N2. fold (P b) in N1, N2. fold (P b') in N1, N2.
  assert (E : forall c0 c, mean_half_dev u c0 c rows' = (lsumf r_w rows * mean_half_dev u c0 c rows + t * half_dev_of u c0 c r) / (lsumf r_w rows + t)).
  { intros c0 c. unfold mean_half_dev. rewrite HE by reflexivity.
    assert (WE : lsumf r_w rows' = lsumf r_w rows + t).
    { pose proof (HE (fun _ => 1) (fun _ _ => eq_refl)) as K. rewrite !(lsumf_ext _ (fun x : row => r_w x * 1) r_w) in K by (intros; ring). lra. }
    rewrite WE. field. lra. }
  rewrite !E in N2. lra.
Qed.

(** Raising the weight of a row: its deviance, relative to the (old) weighted mean deviance of all rows, does not rise. *)
Lemma heavier_relative :
  half_dev_of u b0' b' r - mean_half_dev u b0' b' rows
  <= half_dev_of u b0 b r - mean_half_dev u b0 b rows + (fit_tol s u se * D + fit_tol s' u se' * D') * (lsumf r_w rows + t) / t.
Proof.
  destruct heavier_pair as [A B]. set (P := user_pen _ _) in *. set (W := lsumf r_w rows) in *. set (H := mean_half_dev u b0 b rows) in *.
  set (H' := mean_half_dev u b0' b' rows) in *. set (h := half_dev_of u b0 b r) in *. set (h' := half_dev_of u b0' b' r) in *.
  set (e := fit_tol s u se * D) in *. set (e' := fit_tol s' u se' * D') in *.
  assert (C : H + (W * H' + t * h') / (W + t) <= H' + (W * H + t * h) / (W + t) + e + e') by lra.
  apply Rmult_le_reg_r with (t / (W + t)). { apply Rmult_lt_0_compat; [exact Ht|apply Rinv_0_lt_compat; lra]. }
  replace ((h' - H') * (t / (W + t))) with ((W * H' + t * h') / (W + t) - H') by (field; lra).
  replace ((h - H + (e + e') * (W + t) / t) * (t / (W + t))) with ((W * H + t * h) / (W + t) - H + e + e') by (field; split; lra). lra.
Qed.
(** Without penalties: its deviance does not rise. *)
Lemma heavier_unpenalised : no_l1 u -> (forall i j, (i < u_p u)%nat -> (j < u_p u)%nat -> p2_entry (u_P2 u) i j = 0) ->
  half_dev_of u b0' b' r <= half_dev_of u b0 b r + (fit_tol s u se * D * lsumf r_w rows + fit_tol s' u se' * D' * (lsumf r_w rows + t)) / t.
Proof.
  intros L1 L2. destruct heavier_pair as [A B].
  assert (Z : forall c, user_pen (with_rows u rows) (pen_scale (with_rows u rows)) c = 0).
  { intros c. unfold user_pen, user_l2. cbn [with_rows u_p u_P1 u_P2].
    rewrite (rsum_zero (u_p u)) by (intros i Hi; apply rsum_zero; intros j Hj; rewrite L2 by assumption; ring).
    rewrite (rsum_zero (u_p u)) by (intros j Hj; rewrite L1 by exact Hj; ring). ring. }
  rewrite !Z in A, B. clear Z. set (W := lsumf r_w rows) in *. set (H := mean_half_dev u b0 b rows) in *.
  set (H' := mean_half_dev u b0' b' rows) in *. set (h := half_dev_of u b0 b r) in *. set (h' := half_dev_of u b0' b' r) in *.
  set (e := fit_tol s u se * D) in *. set (e' := fit_tol s' u se' * D') in *. rewrite !Rplus_0_r in A, B.
  apply (Rmult_le_compat_r (W + t)) in B; [|lra].
  replace ((W * H' + t * h') / (W + t) * (W + t)) with (W * H' + t * h') in B by (field; lra).
  replace (((W * H + t * h) / (W + t) + e') * (W + t)) with (W * H + t * h + e' * (W + t)) in B by (field; lra).
  apply Rmult_le_reg_r with t; [exact Ht|].
  replace ((h + (e * W + e' * (W + t)) / t) * t) with (t * h + (e * W + e' * (W + t))) by (field; lra).
  assert (W * H <= W * (H' + e)) by (apply Rmult_le_compat_l; lra). lra.
Qed.
End Heavier.

Lemma heavier_sum pre r post t f : (forall x t, f (heavier x t) = f x) ->
  lsumf (fun x => r_w x * f x) (pre ++ heavier r t :: post) = lsumf (fun x => r_w x * f x) (pre ++ r :: post) + t * f r.
Proof. intros H. rewrite !mid_sum, H. cbn [heavier r_w]. ring. Qed.
Lemma left_out_sum pre r post f : lsumf (fun x => r_w x * f x) (pre ++ r :: post) = lsumf (fun x => r_w x * f x) (pre ++ post) + r_w r * f r.
Proof. apply mid_sum. Qed.

Theorem C105_heavier_row : forall u pre r post t s s' se se' b0 b b0' b' D D',
  let rows := (pre ++ r :: post)%list in let rows' := (pre ++ heavier r t :: post)%list in
  user_ok (with_rows u rows) -> user_ok (with_rows u rows') -> 0 < lsumf r_w rows -> 0 < t ->
  convex_pair (u_fam u) (u_link u) -> u_scale u = false ->
  silent s (with_rows u rows) se b0 b -> silent s' (with_rows u rows') se' b0' b' ->
  0 <= D -> 0 <= D' -> std_close (with_rows u rows) D b0 b b0' b' -> std_close (with_rows u rows') D' b0' b' b0 b ->
  half_dev_of u b0' b' r - mean_half_dev u b0' b' rows
  <= half_dev_of u b0 b r - mean_half_dev u b0 b rows + (fit_tol s u se * D + fit_tol s' u se' * D') * (lsumf r_w rows + t) / t.
Proof. intros. eapply heavier_relative; try eassumption. intros f Hf. apply heavier_sum, Hf. Qed.
Print Assumptions C105_heavier_row.

Theorem C105_heavier_row_unpenalised : forall u pre r post t s s' se se' b0 b b0' b' D D',
  let rows := (pre ++ r :: post)%list in let rows' := (pre ++ heavier r t :: post)%list in
  user_ok (with_rows u rows) -> user_ok (with_rows u rows') -> 0 < lsumf r_w rows -> 0 < t ->
  convex_pair (u_fam u) (u_link u) -> u_scale u = false ->
  no_l1 u -> (forall i j, (i < u_p u)%nat -> (j < u_p u)%nat -> p2_entry (u_P2 u) i j = 0) ->
  silent s (with_rows u rows) se b0 b -> silent s' (with_rows u rows') se' b0' b' ->
  0 <= D -> 0 <= D' -> std_close (with_rows u rows) D b0 b b0' b' -> std_close (with_rows u rows') D' b0' b' b0 b ->
  half_dev_of u b0' b' r <= half_dev_of u b0 b r + (fit_tol s u se * D * lsumf r_w rows + fit_tol s' u se' * D' * (lsumf r_w rows + t)) / t.
Proof. intros. eapply heavier_unpenalised; try eassumption. intros f Hf. apply heavier_sum, Hf. Qed.
Print Assumptions C105_heavier_row_unpenalised.

(** Leaving a row out: the fit with the row does no worse on it than the fit without it, relative to the mean deviance of
    the other rows, and without penalties in absolute terms. *)
Theorem C105_left_out : forall u pre r post s s' se se' b0 b b0' b' D D',
  let rows := (pre ++ post)%list in let rows' := (pre ++ r :: post)%list in
  user_ok (with_rows u rows) -> user_ok (with_rows u rows') -> 0 < lsumf r_w rows -> 0 < r_w r ->
  convex_pair (u_fam u) (u_link u) -> u_scale u = false ->
  silent s (with_rows u rows) se b0 b -> silent s' (with_rows u rows') se' b0' b' ->
  0 <= D -> 0 <= D' -> std_close (with_rows u rows) D b0 b b0' b' -> std_close (with_rows u rows') D' b0' b' b0 b ->
  let W := lsumf r_w rows in let e := fit_tol s u se * D in let e' := fit_tol s' u se' * D' in
  half_dev_of u b0' b' r - mean_half_dev u b0' b' rows <= half_dev_of u b0 b r - mean_half_dev u b0 b rows + (e + e') * (W + r_w r) / r_w r /\
  (no_l1 u -> (forall i j, (i < u_p u)%nat -> (j < u_p u)%nat -> p2_entry (u_P2 u) i j = 0) ->
   half_dev_of u b0' b' r <= half_dev_of u b0 b r + (e * W + e' * (W + r_w r)) / r_w r).
Proof.
  intros u pre r post s s' se se' b0 b b0' b' D D' rows rows' H1 H2 H3 H4 H5 H6 H7 H8 H9 H10 H11 H12 W e e'. split.
  - eapply heavier_relative; try eassumption. intros f _. apply left_out_sum.
  - intros L1 L2. eapply heavier_unpenalised; try eassumption. intros f _. apply left_out_sum.
Qed.
Print Assumptions C105_left_out.

(** Non-vacuity: three rows, a ridge penalty, the closed-form solver; the response of the first row is raised, the weight of
    the last one doubled, the last one left out. *)
Lemma closed_silent v : user_ok v -> u_fam v = NormalF -> u_link v = IdentityL -> (forall j, (j < u_p v)%nat -> u_P1 v j = 0) ->
  (forall j, u_lb v j = None /\ u_ub v j = None) -> exists b0 b, silent SClosed v ex70_se b0 b.
Proof.
  intros Hok F L P1 B. destruct (ex100_run v ex70_se exact_libs 0 StartNone F L P1 eq_refl) as [b0 [b E]]. exists b0, b, exact_libs, 0, StartNone, 0.
  split; [cbn; lra|]. split; [reflexivity|]. split; [cbn; lra|]. split; [apply exact_libs_sound; lra|].
  split. { left. split; [reflexivity|]. intros j _. destruct (B j) as [-> ->]. split; discriminate. }
  split. { split; [intros _; split; [exact P1|intros j _; apply B]|congruence]. }
  split; [discriminate|]. split; [intros C; rewrite L in C; discriminate|exact E].
Qed.
Definition ex104_y (i : nat) : R := match i with 0%nat => 3 | 1%nat => 2 | _ => 5 end.
Example ex104_nonvacuous : exists b0 b b0' b' D,
  user_ok ex100_u /\ (forall i, (i < u_n ex100_u)%nat -> support (u_fam ex100_u) (ex104_y i)) /\
  convex_pair (u_fam ex100_u) (u_link ex100_u) /\ silent SClosed ex100_u ex70_se b0 b /\ silent SClosed (with_y ex100_u ex104_y) ex70_se b0' b' /\
  0 <= D /\ std_close ex100_u D b0 b b0' b' /\ u_y ex100_u 0%nat < ex104_y 0 /\ 0 < u_w ex100_u 0%nat /\
  (forall k, (k < u_n ex100_u)%nat -> k <> 0%nat -> ex104_y k = u_y ex100_u k).
Proof.
  destruct (closed_silent ex100_u ex100_ok eq_refl eq_refl (fun _ _ => eq_refl) (fun _ => conj eq_refl eq_refl)) as [b0 [b E1]].
  assert (K : user_ok (with_y ex100_u ex104_y)) by (apply ok_with_y; [exact ex100_ok|intros; exact I]).
  destruct (closed_silent (with_y ex100_u ex104_y) K eq_refl eq_refl (fun _ _ => eq_refl) (fun _ => conj eq_refl eq_refl)) as [b0' [b' E2]].
  destruct (close_somewhere ex100_u b0 b b0' b') as [D [HD C]].
  exists b0, b, b0', b', D. split; [exact ex100_ok|]. split; [intros; exact I|]. split; [exact I|]. split; [exact E1|]. split; [exact E2|].
  split; [exact HD|]. split; [exact C|]. split; [cbn; lra|]. split; [cbn; lra|].
  intros k Hk Nk. cbn in Hk. assert (k = 1 \/ k = 2)%nat as [ -> | -> ] by lia; reflexivity.
Qed.
Definition ex105_pre : list row := mkRow (fun _ => 0) 1 1 0 :: mkRow (fun _ => 1) 2 1 0 :: nil.
Definition ex105_r : row := mkRow (fun _ => 2) 5 1 0.
Lemma ex105_ok rows : (forall r, In r rows -> 0 <= r_w r) -> 0 < lsumf r_w rows -> user_ok (with_rows ex100_u rows).
Proof.
  intros H W. destruct ex100_ok as (F & _ & _ & P & Q1 & Q2). split; [exact F|]. split; [intros; exact I|]. split; [|split; [exact P|split; [exact Q1|exact Q2]]].
  intros i Hi. cbn [with_rows u_w]. rewrite w_nth. apply Rmult_le_pos; [apply H, nth_In, Hi|left; apply Rinv_0_lt_compat, W].
Qed.
Example ex105_nonvacuous : exists b0 b b0' b' c0 c D1 D2 D3 D4,
  let rows := (ex105_pre ++ ex105_r :: nil)%list in let heavy := (ex105_pre ++ heavier ex105_r 1 :: nil)%list in
  let less := (ex105_pre ++ nil)%list in
  user_ok (with_rows ex100_u rows) /\ user_ok (with_rows ex100_u heavy) /\ user_ok (with_rows ex100_u less) /\
  0 < lsumf r_w rows /\ 0 < lsumf r_w less /\ 0 < r_w ex105_r /\ u_scale ex100_u = false /\
  silent SClosed (with_rows ex100_u rows) ex70_se b0 b /\ silent SClosed (with_rows ex100_u heavy) ex70_se b0' b' /\
  silent SClosed (with_rows ex100_u less) ex70_se c0 c /\
  0 <= D1 /\ std_close (with_rows ex100_u rows) D1 b0 b b0' b' /\ 0 <= D2 /\ std_close (with_rows ex100_u heavy) D2 b0' b' b0 b /\
  0 <= D3 /\ std_close (with_rows ex100_u less) D3 c0 c b0 b /\ 0 <= D4 /\ std_close (with_rows ex100_u rows) D4 b0 b c0 c.
Proof.
  assert (K : forall rows, user_ok (with_rows ex100_u rows) -> exists b0 b, silent SClosed (with_rows ex100_u rows) ex70_se b0 b).
  { intros rows Hok. exact (closed_silent (with_rows ex100_u rows) Hok eq_refl eq_refl (fun _ _ => eq_refl) (fun _ => conj eq_refl eq_refl)). }
  assert (O1 : user_ok (with_rows ex100_u (ex105_pre ++ ex105_r :: nil))).
  { apply ex105_ok; [cbn; intros r [<-|[<-|[<-|[]]]]; cbn; lra|unfold lsumf; cbn; lra]. }
  assert (O2 : user_ok (with_rows ex100_u (ex105_pre ++ heavier ex105_r 1 :: nil))).
  { apply ex105_ok; [cbn; intros r [<-|[<-|[<-|[]]]]; cbn; lra|unfold lsumf; cbn; lra]. }
  assert (O3 : user_ok (with_rows ex100_u (ex105_pre ++ nil))).
  { apply ex105_ok; [cbn; intros r [<-|[<-|[]]]; cbn; lra|unfold lsumf; cbn; lra]. }
  destruct (K _ O1) as [b0 [b E1]]. destruct (K _ O2) as [b0' [b' E2]]. destruct (K _ O3) as [c0 [c E3]].
  destruct (close_somewhere (with_rows ex100_u (ex105_pre ++ ex105_r :: nil)) b0 b b0' b') as [D1 [G1 C1]].
  destruct (close_somewhere (with_rows ex100_u (ex105_pre ++ heavier ex105_r 1 :: nil)) b0' b' b0 b) as [D2 [G2 C2]].
  destruct (close_somewhere (with_rows ex100_u (ex105_pre ++ nil)) c0 c b0 b) as [D3 [G3 C3]].
  destruct (close_somewhere (with_rows ex100_u (ex105_pre ++ ex105_r :: nil)) b0 b c0 c) as [D4 [G4 C4]].
  exists b0, b, b0', b', c0, c, D1, D2, D3, D4. cbv zeta.
  split; [exact O1|]. split; [exact O2|]. split; [exact O3|]. split; [unfold lsumf; cbn; lra|]. split; [unfold lsumf; cbn; lra|]. split; [cbn; lra|].
  split; [reflexivity|]. split; [exact E1|]. split; [exact E2|]. split; [exact E3|]. split; [exact G1|]. split; [exact C1|]. split; [exact G2|].
  split; [exact C2|]. split; [exact G3|]. split; [exact C3|]. split; [exact G4|exact C4].
Qed.
Print Assumptions ex104_nonvacuous.
Print Assumptions ex105_nonvacuous.
