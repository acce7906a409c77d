(** The monotonic solver: penalty, weights, feasibility, near-optimality. *)
From Verif Require Import M_Solver S_Solver L_Link L_Dist L_Dist2 L_Dist3 L_Dist4 L_CD L_KKT L_Hess L_Solver L_Solver2 L_Solver3 L_Obj L_LS.
From Verif Require Import M_Solver S_Solver.
Local Open Scope R_scope.

Lemma any_gt_false pb q c t : any_gt pb q c t = false -> forall r, (r < iq_m q)%nat -> iq_val pb q c r <= t.
Proof.
  intros H r Hr. destruct (Rltb t (iq_val pb q c r)) eqn:E; [|apply Rltb_false in E; exact E].
  assert (T : any_gt pb q c t = true); [|congruence]. apply existsb_exists. exists r. rewrite in_seq. split; [lia|exact E].
Qed.
Lemma any_gt_true pb q c t : any_gt pb q c t = true -> exists r, (r < iq_m q)%nat /\ t < iq_val pb q c r.
Proof. intros H. apply existsb_exists in H. destruct H as [r [Hr H]]. apply in_seq in Hr. apply Rltb_true in H. exists r. split; [lia|exact H]. Qed.

Lemma violated_val pb q c : filter (fun r => Rltb 0 (iq_val pb q c r)) (seq 0 (iq_m q)) = violated pb q c.
Proof.
  unfold violated. apply filter_ext. intros r. unfold iq_val. fold (row_dot pb q r c).
  destruct (Rltb 0 (row_dot pb q r c - iq_b q r)) eqn:E; symmetry; [apply Rltb_true in E; apply Rltb_true|apply Rltb_false in E; apply Rltb_false]; lra.
Qed.
Lemma violated_nil pb q c : any_gt pb q c 0 = false -> violated pb q c = [].
Proof.
  intros H. rewrite <- violated_val. destruct (filter _ _) as [|r l] eqn:E; [reflexivity|].
  assert (I : In r (r :: l)) by (left; reflexivity). rewrite <- E in I. apply filter_In in I. destruct I as [I1 I2].
  apply in_seq in I1. apply Rltb_true in I2. pose proof (any_gt_false _ _ _ _ H r). lra || (assert (iq_val pb q c r <= 0) by (apply any_gt_false; auto; lia); lra).
Qed.
Lemma penalty_entry pb q P2b base c lam P2 b ch : update_constraint_penalty pb q P2b base c lam = (P2, b, ch) ->
  forall i j, p2_entry P2 i j = p2_entry P2b i j + lam * lsumf (fun r => iq_A q r i * iq_A q r j) (violated pb q c).
Proof.
  intros E i j. unfold update_constraint_penalty, build_monotonic_penalty in E. destruct (any_gt pb q c 0) eqn:EG.
  - injection E as <- _ _. simpl. rewrite violated_val. reflexivity.
  - injection E as <- _ _. rewrite violated_nil by exact EG. unfold lsumf. simpl. lra.
Qed.

Record mono_facts (pb : problem) (q : ineq) (P2b : P2t) (lf lm : R) (m m' : mstate) : Prop := mkMF {
  mf_lam : ms_lam m' = if any_gt pb q (st_coef (ms_st m)) 0 then Rmin (ms_lam m * lf) lm else ms_lam m;
  mf_P2 : forall i j, p2_entry (st_P2 (ms_st m')) i j = p2_entry P2b i j
            + ms_lam m' * lsumf (fun r => iq_A q r i * iq_A q r j) (violated pb q (st_coef (ms_st m)));
  mf_conv : st_conv (ms_st m') = true <-> (conv_test pb (ms_st m') /\ any_gt pb q (st_coef (ms_st m')) (1 / 1000000) = false);
  mf_norm : st_norm (ms_st m') = fst (norm_min_subgrad (seq 0 (nc pb)) (st_coef (ms_st m')) (fun k => - st_score (ms_st m') k)
              (pb_P1 pb) (pb_ic pb) (pb_lb pb) (pb_ub pb));
  mf_niter : st_niter (ms_st m') = (st_niter (ms_st m) + 1)%Z }.

Lemma mono_step_facts pb inner q P2b lf lm m m' : mono_step pb inner q P2b lf lm m = Some m' -> mono_facts pb q P2b lf lm m m'.
Proof.
  intros E. unfold mono_step in E.
  set (lam := if any_gt pb q (st_coef (ms_st m)) 0 then _ else _) in *.
  destruct (update_constraint_penalty _ _ _ _ _ _) as [[P2 base] changed] eqn:EP.
  set (s0 := set_P2 _ _ _) in *.
  destruct (irls_step pb inner s0) as [s'|] eqn:ES; [|discriminate].
  destruct (irls_step_facts _ _ _ _ ES) as [d [cyc [_ F]]].
  pose proof (check_conv_iff pb s' (sf_conv _ _ _ _ _ _ F)) as CV.
  assert (EP2 : st_P2 s' = P2) by (rewrite (sf_P2 _ _ _ _ _ _ F); reflexivity).
  assert (EN : st_niter s' = (st_niter (ms_st m) + 1)%Z) by (rewrite (sf_niter _ _ _ _ _ _ F); reflexivity).
  injection E as <-. constructor; cbn [ms_st ms_lam].
  - reflexivity.
  - intros i j. rewrite <- (penalty_entry _ _ _ _ _ _ _ _ _ EP i j). destruct (_ && _)%bool; simpl; rewrite EP2; reflexivity.
  - destruct (any_gt pb q (st_coef s') (1 / 1000000)) eqn:EG.
    + rewrite andb_true_r. destruct (st_conv s') eqn:EC; simpl.
      * split; [discriminate|]. intros [_ H]. congruence.
      * rewrite EC. split; [discriminate|]. intros [_ H]. congruence.
    + rewrite andb_false_r. rewrite CV. tauto.
  - assert (Q : st_norm s' = fst (norm_min_subgrad (seq 0 (nc pb)) (st_coef s') (fun k => - st_score s' k)
              (pb_P1 pb) (pb_ic pb) (pb_lb pb) (pb_ub pb))).
    { pose proof (sf_conv _ _ _ _ _ _ F) as Q. unfold check_convergence in Q. destruct (norm_min_subgrad _ _ _ _ _ _ _) as [nm mx].
      injection Q as _ Q _ _. exact Q. }
    destruct (_ && _)%bool; exact Q.
  - destruct (_ && _)%bool; simpl; exact EN.
Qed.

Lemma mono_loop_reach pb inner q P2b lf lm ls c fuel m mf : mreach pb inner q P2b lf lm ls c m ->
  mono_loop pb inner q P2b lf lm fuel m = Some mf -> mreach pb inner q P2b lf lm ls c mf /\
  (st_conv (ms_st m) = false -> st_conv (ms_st mf) = true ->
   exists m0, mreach pb inner q P2b lf lm ls c m0 /\ mono_step pb inner q P2b lf lm m0 = Some mf).
Proof.
  revert m. induction fuel as [|f IH]; simpl; intros m R E.
  - injection E as <-. split; [exact R|congruence].
  - destruct (Z.ltb _ _ && negb _)%bool.
    + destruct (mono_step pb inner q P2b lf lm m) as [m'|] eqn:ES; [|discriminate].
      assert (R' : mreach pb inner q P2b lf lm ls c m') by (eapply mreach_step; eauto).
      destruct (IH m' R' E) as [A B]. split; [exact A|]. intros C1 C2.
      destruct (st_conv (ms_st m')) eqn:EC.
      * assert (mf = m').
        { destruct f; simpl in E; [injection E as <-; reflexivity|]. rewrite EC in E. rewrite andb_false_r in E. injection E as <-. reflexivity. }
        subst. exists m. auto.
      * apply B; auto.
    + injection E as <-. split; [exact R|congruence].
Qed.

(** the penalty is lam times the sum of squares of the violated rows *)
Lemma l2_form_penalty pb q P2b P2 lam V : (forall i j, p2_entry P2 i j = p2_entry P2b i j + lam * lsumf (fun r => iq_A q r i * iq_A q r j) V) ->
  forall u, l2_form pb P2 u = l2_form pb P2b u + lam * lsumf (fun r => (row_dot pb q r u) ^ 2) V.
Proof.
  intros H u. rewrite !l2_form_p. set (o := ioff (pb_ic pb)).
  rewrite (rsum_ext (pb_p pb) _ (fun i => rsum (pb_p pb) (fun j => u (o + i)%nat * p2_entry P2b i j * u (o + j)%nat)
     + lam * lsumf (fun r => rsum (pb_p pb) (fun j => (iq_A q r i * u (o + i)%nat) * (iq_A q r j * u (o + j)%nat))) V)).
  - rewrite rsum_plus, rsum_scal, rsum_lsumf_swap. f_equal. f_equal. apply lsumf_ext. intros r _.
    rewrite (rsum_ext (pb_p pb) _ (fun i => iq_A q r i * u (o + i)%nat * row_dot pb q r u)).
    + rewrite rsum_scal_r. unfold row_dot. fold o. ring.
    + intros i _. rewrite rsum_scal. reflexivity.
  - intros i Hi. rewrite <- rsum_lsumf_swap, <- rsum_scal, <- rsum_plus. apply rsum_ext. intros j Hj. rewrite H.
    rewrite (lsumf_ext _ (fun a => iq_A q a i * u (o + i)%nat * (iq_A q a j * u (o + j)%nat))
       (fun a => (u (o + i)%nat * u (o + j)%nat) * (iq_A q a i * iq_A q a j))) by (intros; ring).
    rewrite lsumf_scal. ring.
Qed.
