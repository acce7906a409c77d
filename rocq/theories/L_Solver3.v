(** Accounting, bounds and descent of the IRLS loop. *)
From Verif Require Import M_Solver S_Solver L_Link L_Dist L_Dist2 L_Dist3 L_CD L_CDb L_KKT L_Hess L_Solver L_Solver2.
From Verif Require Import M_Solver S_Solver.
Local Open Scope R_scope.

(** ** accounting *)
Definition diag_of (s : state) : Z * R * R := (st_niter s, st_norm s, st_obj s).

Lemma loop_history pb inner : forall fuel s sf, irls_loop pb inner fuel s = Some sf ->
  (Z.to_nat (pb_max_iter pb - st_niter s) < fuel)%nat ->
  exists (n : nat) (hist : nat -> state),
    hist 0%nat = s /\ hist n = sf /\
    (forall k, (k < n)%nat -> irls_step pb inner (hist k) = Some (hist (S k)) /\ st_conv (hist k) = false /\
                              (st_niter (hist k) < pb_max_iter pb)%Z) /\
    (forall k, (k <= n)%nat -> st_niter (hist k) = (st_niter s + Z.of_nat k)%Z) /\
    st_diag sf = st_diag s ++ map (fun k => diag_of (hist k)) (seq 1 n) /\
    (st_conv sf = true \/ (pb_max_iter pb <= st_niter sf)%Z).
Proof.
  induction fuel as [|f IH]; intros s sf E Hf; [lia|]. cbn [irls_loop] in E.
  destruct (Z.ltb (st_niter s) (pb_max_iter pb) && negb (st_conv s))%bool eqn:B.
  - apply Bool.andb_true_iff in B. destruct B as [B1 B2]. apply Z.ltb_lt in B1. apply Bool.negb_true_iff in B2.
    destruct (irls_step pb inner s) as [s'|] eqn:ES; [|discriminate].
    destruct (irls_step_facts _ _ _ _ ES) as [d [cyc [_ F]]]. pose proof (sf_niter _ _ _ _ _ _ F) as EN.
    pose proof (sf_diag _ _ _ _ _ _ F) as ED.
    destruct (IH s' sf E ltac:(rewrite EN; lia)) as [n [hist [H0 [Hn [Hs [Hk [Hd Hc]]]]]]].
    exists (S n), (fun k => match k with O => s | S k' => hist k' end).
    split; [reflexivity|]. split; [exact Hn|]. split.
    + intros [|k] Hk'; [rewrite H0; auto|apply Hs; lia].
    + split; [intros [|k] Hk'; [lia|rewrite Hk by lia; lia]|].
      split; [|exact Hc]. rewrite Hd, ED. cbn [seq map]. rewrite <- app_assoc. cbn [app]. f_equal.
      f_equal; [rewrite H0; reflexivity|]. rewrite <- (seq_shift n 1), map_map. reflexivity.
  - injection E as <-. exists 0%nat, (fun _ => s). split; [reflexivity|]. split; [reflexivity|].
    split; [intros; lia|]. split; [intros k Hk; replace k with 0%nat by lia; lia|].
    split; [simpl; rewrite app_nil_r; reflexivity|].
    apply Bool.andb_false_iff in B. destruct B as [B|B]; [right; apply Z.ltb_ge in B; exact B|left].
    apply Bool.negb_false_iff in B. exact B.
Qed.

Lemma init_count pb P2 b c : st_niter (init_state pb P2 b c) = 0%Z /\
  st_diag (init_state pb P2 b c) = [diag_of (init_state pb P2 b c)].
Proof.
  unfold init_state. destruct (eta_mu_objective _ _ _ _ _ _) as [[[eta mu] obj] cP2].
  destruct (update_quadratic _ _ _ _) as [[g score] h]. destruct (check_convergence _ _ _ _) as [[[conv nm] mx] itol].
  split; reflexivity.
Qed.

Lemma hist_reach pb inner P2 c (hist : nat -> state) n :
  hist 0%nat = init_state pb P2 false c ->
  (forall k, (k < n)%nat -> irls_step pb inner (hist k) = Some (hist (S k))) ->
  forall k, (k <= n)%nat -> reach pb inner P2 c (hist k).
Proof.
  intros H0 Hs. induction k as [|k IH]; intros Hk; [rewrite H0; constructor|].
  apply reach_step with (hist k); [apply IH; lia|apply Hs; lia].
Qed.

Lemma solver_none pb inner : forall fuel s, irls_loop pb inner fuel s = None ->
  exists (n : nat) (hist : nat -> state), hist 0%nat = s /\
    (forall k, (k < n)%nat -> irls_step pb inner (hist k) = Some (hist (S k))) /\
    inner (fst (prepare pb (hist n))) (snd (prepare pb (hist n))) = None.
Proof.
  induction fuel as [|f IH]; intros s E; [discriminate|]. cbn [irls_loop] in E.
  destruct (_ && _)%bool; [|discriminate].
  destruct (irls_step pb inner s) as [s'|] eqn:ES.
  - destruct (IH s' E) as [n [hist [H0 [Hs Hn]]]].
    exists (S n), (fun k => match k with O => s | S k' => hist k' end). split; [reflexivity|]. split; [|exact Hn].
    intros [|k] Hk; [rewrite H0; exact ES|apply Hs; lia].
  - exists 0%nat, (fun _ => s). split; [reflexivity|]. split; [intros; lia|].
    unfold irls_step in ES. destruct (prepare pb s) as [s1 H]. cbn [fst snd].
    destruct (inner s1 H) as [[d cyc]|]; [|reflexivity].
    destruct (update_quadratic _ _ _ _) as [[g sc] h]. destruct (check_convergence _ _ _ _) as [[[q1 q2] q3] q4]. discriminate.
Qed.

(** convergence flag and norm of a reachable state *)
Definition conv_test (pb : problem) (s : state) : Prop :=
  st_norm s < pb_gtol pb \/
  exists t, pb_stol pb = Some t /\ sqrt (rsum (nc pb) (fun k => st_step s k * st_step s k)) < t.
Lemma check_conv_iff pb s : (st_conv s, st_norm s, st_max s, st_itol s) =
   check_convergence pb (st_coef s) (st_step s) (st_score s) -> (st_conv s = true <-> conv_test pb s).
Proof.
  unfold check_convergence, conv_test. destruct (norm_min_subgrad _ _ _ _ _ _ _) as [nm mx].
  intros E. injection E as E1 E2 E3 E4. rewrite E1, E2. rewrite Bool.orb_true_iff, Rltb_true.
  destruct (pb_stol pb) as [t|].
  - rewrite Rltb_true. split; intros [H|H]; auto; [right; exists t; auto|].
    right. destruct H as [t' [E H]]. injection E as ->. exact H.
  - split; intros [H|H]; auto; try discriminate. destruct H as [t' [E _]]. discriminate.
Qed.
Lemma init_conv pb P2 c : let s := init_state pb P2 false c in
  (st_conv s, st_norm s, st_max s, st_itol s) = check_convergence pb (st_coef s) (st_step s) (st_score s).
Proof.
  unfold init_state. destruct (eta_mu_objective _ _ _ _ _ _) as [[[eta mu] obj] cP2].
  destruct (update_quadratic _ _ _ _) as [[g score] h]. destruct (check_convergence _ _ _ _) as [[[conv nm] mx] itol] eqn:E.
  simpl. rewrite E. reflexivity.
Qed.
Lemma reach_conv pb inner P2 c s : reach pb inner P2 c s -> (st_conv s = true <-> conv_test pb s).
Proof.
  intros R. apply check_conv_iff. destruct R as [|s s' R E]; [apply init_conv|].
  destruct (irls_step_facts _ _ _ _ E) as [d [cyc [_ F]]]. exact (sf_conv _ _ _ _ _ _ F).
Qed.

(** ** sums over the active set *)
Lemma lsumf_sub act m f : NoDup act -> (forall k, In k act -> (k < m)%nat) ->
  (forall k, (k < m)%nat -> ~ In k act -> f k = 0) -> lsumf f act = rsum m f.
Proof.
  intros ND Hlt Hz. rewrite <- lsumf_seq.
  assert (P : Permutation act (filter (fun k => mem k act) (seq 0 m))).
  { apply NoDup_Permutation; [exact ND|apply NoDup_filter, seq_NoDup|]. intros k. rewrite filter_In, in_seq, mem_in.
    split; [intros H; split; [specialize (Hlt k H); lia|exact H]|tauto]. }
  rewrite (lsumf_perm _ f _ _ P). 
  assert (G : forall l, (forall k, In k l -> ~ In k act -> f k = 0) -> lsumf f (filter (fun k => mem k act) l) = lsumf f l).
  { induction l as [|k l IH]; intros H; [reflexivity|]. cbn [filter]. destruct (mem k act) eqn:M.
    - rewrite !lsumf_cons, IH by auto with datatypes. reflexivity.
    - rewrite lsumf_cons, IH by auto with datatypes. rewrite (H k); auto with datatypes; [lra|].
      intros Hin. apply mem_in in Hin. congruence. }
  apply G. intros k Hk. apply Hz. apply in_seq in Hk. lia.
Qed.
Lemma rsum_nth act f : rsum (length act) (fun a => f (nth a act 0%nat)) = lsumf f act.
Proof.
  induction act as [|x act IH]; [reflexivity|]. cbn [length]. rewrite rsum_S_l, lsumf_cons. f_equal.
  rewrite <- IH. reflexivity.
Qed.
Lemma rsum_act act m f : NoDup act -> (forall k, In k act -> (k < m)%nat) ->
  (forall k, (k < m)%nat -> ~ In k act -> f k = 0) -> rsum (length act) (fun a => f (nth a act 0%nat)) = rsum m f.
Proof. intros. rewrite rsum_nth. apply lsumf_sub; auto. Qed.

(** ** the exact Hessian is symmetric and positive semi-definite *)
Lemma exact_hessian_sym pb h P2 k l : p2_sym (pb_p pb) P2 -> (k < nc pb)%nat -> (l < nc pb)%nat ->
  exact_hessian pb h P2 k l = exact_hessian pb h P2 l k.
Proof.
  intros HS Hk Hl. unfold exact_hessian. f_equal.
  - apply rsum_ext. intros. ring.
  - unfold p2_full, nc in *. destruct (pb_ic pb); simpl in *.
    + destruct k as [|k], l as [|l]; auto. apply HS; lia.
    + apply HS; lia.
Qed.
Lemma quad_exact pb h P2 v :
  rsum (nc pb) (fun k => rsum (nc pb) (fun l => v k * exact_hessian pb h P2 k l * v l))
  = rsum (pb_n pb) (fun i => h i * (rsum (nc pb) (fun k => xt pb i k * v k)) ^ 2) + l2_form pb P2 v.
Proof.
  unfold exact_hessian, l2_form.
  rewrite (rsum_ext (nc pb) _ (fun k => rsum (nc pb) (fun l => rsum (pb_n pb) (fun i => h i * (xt pb i k * v k) * (xt pb i l * v l)))
      + rsum (nc pb) (fun l => v k * p2_full (pb_ic pb) P2 k l * v l))).
  - rewrite rsum_plus. f_equal.
    rewrite (rsum_ext (nc pb) _ (fun k => rsum (pb_n pb) (fun i => h i * (xt pb i k * v k) * rsum (nc pb) (fun l => xt pb i l * v l)))).
    + rewrite rsum_swap. apply rsum_ext. intros i _.
      rewrite rsum_scal_r. rewrite rsum_scal. ring.
    + intros k _. rewrite rsum_swap. apply rsum_ext. intros i _. rewrite rsum_scal. reflexivity.
  - intros k _. rewrite <- rsum_plus. apply rsum_ext. intros l _.
    rewrite Rmult_plus_distr_l, Rmult_plus_distr_r. f_equal.
    rewrite <- rsum_scal, <- rsum_scal_r. apply rsum_ext. intros. ring.
Qed.
Lemma l2_form_p pb P2 v : l2_form pb P2 v =
  rsum (pb_p pb) (fun i => rsum (pb_p pb) (fun j => v (ioff (pb_ic pb) + i)%nat * p2_entry P2 i j * v (ioff (pb_ic pb) + j)%nat)).
Proof.
  unfold l2_form. rewrite rsum_nc.
  rewrite (rsum_ext (pb_p pb) (fun j => rsum (nc pb) _)
    (fun i => rsum (pb_p pb) (fun j => v (ioff (pb_ic pb) + i)%nat * p2_entry P2 i j * v (ioff (pb_ic pb) + j)%nat))).
  - unfold p2_full. destruct (pb_ic pb); [|lra].
    rewrite (rsum_zero (nc pb)); [lra|]. intros; ring.
  - intros i _. rewrite rsum_nc. unfold p2_full, ioff. destruct (pb_ic pb); simpl; lra.
Qed.
Lemma l2_form_nonneg pb P2 v : p2_psd (pb_p pb) P2 -> 0 <= l2_form pb P2 v.
Proof. intros H. rewrite l2_form_p. apply (H (fun i => v (ioff (pb_ic pb) + i)%nat)). Qed.
Lemma exact_psd pb h P2 v : (forall i, (i < pb_n pb)%nat -> 0 <= h i) -> p2_psd (pb_p pb) P2 ->
  0 <= rsum (nc pb) (fun k => rsum (nc pb) (fun l => v k * exact_hessian pb h P2 k l * v l)).
Proof.
  intros Hh HP. rewrite quad_exact. pose proof (l2_form_nonneg pb P2 v HP).
  assert (0 <= rsum (pb_n pb) (fun i => h i * (rsum (nc pb) (fun k => xt pb i k * v k)) ^ 2)).
  { apply rsum_nonneg. intros i Hi. apply Rmult_le_pos; [auto|apply pow2_ge_0]. }
  lra.
Qed.

(** ** coordinate-descent direction *)
Lemma cd_direction pb P2 h s1 H d cyc seed : (forall j, 0 <= pb_P1 pb j) -> p2_sym (pb_p pb) P2 -> act_ok pb (st_act s1) ->
  (forall a b, (a < length (st_act s1))%nat -> (b < length (st_act s1))%nat ->
     H a b = exact_hessian pb h P2 (nth a (st_act s1) 0%nat) (nth b (st_act s1) 0%nat)) ->
  seeds_ok seed -> in_box pb (st_coef s1) -> cd_solver pb seed s1 H = Some (d, cyc) ->
  (forall k, ~ In k (st_act s1) -> d k = 0) /\ (cyc <= pb_max_inner pb)%nat /\
  - dot (nc pb) (st_score s1) d
  + / 2 * rsum (nc pb) (fun k => rsum (nc pb) (fun l => d k * exact_hessian pb h P2 k l * d l))
  + l1_form pb (vadd (st_coef s1) d) - l1_form pb (st_coef s1) <= 0.
Proof.
  intros HP HS HA HH Hseed Hbox E. unfold cd_solver in E. injection E as <- <-.
  set (a := cd_args_of pb s1 H). set (r := enet_coordinate_descent_gram _ _ _ _).
  destruct HA as [ND [Hlt Hic]].
  assert (WF : wf_args a).
  { split; [exact ND|]. split; [|split; [unfold a, cd_args_of; simpl; unfold eps64; lra|exact HP]].
    intros i j Hi Hj. unfold a, cd_args_of in *. simpl in *. rewrite !HH by auto.
    apply exact_hessian_sym; auto; apply Hlt, nth_In; assumption. }
  destruct (cd_total a (seed (st_niter s1)) (st_coef s1) (fun k => - st_score s1 k) WF (Hseed _)) as [I [Hc _]].
  fold r in I, Hc.
  assert (Fe : feas a (st_coef s1)) by (intros i Hi; apply Hbox, Hlt; exact Hi).
  pose proof (inv_desc _ _ _ _ _ I Fe) as D. pose proof (inv_out _ _ _ _ _ I) as O.
  split; [intros k Hk; rewrite (O k Hk); ring|]. split; [exact Hc|].
  set (d := fun k => cr_w r k - st_coef s1 k).
  assert (dz : forall k, ~ In k (st_act s1) -> d k = 0) by (intros k Hk; unfold d; rewrite (O k Hk); ring).
  unfold quad_model in D. cbv zeta in D. change (cd_act a) with (st_act s1) in D. change (cd_Q a) with H in D.
  set (act := st_act s1) in *.
  assert (E1 : rsum (length act) (fun k => - st_score s1 (nth k act 0%nat) * (cr_w r (nth k act 0%nat) - st_coef s1 (nth k act 0%nat)))
     = - dot (nc pb) (st_score s1) d).
  { transitivity (rsum (nc pb) (fun k => - st_score s1 k * d k)).
    - apply (rsum_act act (nc pb) (fun k => - st_score s1 k * d k)); auto.
      intros k _ Hk. rewrite dz by exact Hk. ring.
    - unfold dot. rewrite <- rsum_opp. apply rsum_ext. intros; ring. }
  assert (E2 : rsum (length act) (fun k => rsum (length act) (fun l => 
       (cr_w r (nth k act 0%nat) - st_coef s1 (nth k act 0%nat)) * H k l * (cr_w r (nth l act 0%nat) - st_coef s1 (nth l act 0%nat))))
     = rsum (nc pb) (fun k => rsum (nc pb) (fun l => d k * exact_hessian pb h P2 k l * d l))).
  { rewrite <- (rsum_act act (nc pb)); auto.
    - apply rsum_ext. intros k Hk. rewrite <- (rsum_act act (nc pb)); auto.
      + apply rsum_ext. intros l Hl. rewrite HH by auto. reflexivity.
      + intros l _ Hl. rewrite (dz l) by exact Hl. ring.
    - intros k _ Hk. apply rsum_zero. intros. rewrite (dz k) by exact Hk. ring. }
  assert (E3 : rsum (length act) (fun k => pen a (nth k act 0%nat) * Rabs (cr_w r (nth k act 0%nat)))
             - rsum (length act) (fun k => pen a (nth k act 0%nat) * Rabs (st_coef s1 (nth k act 0%nat)))
     = l1_form pb (vadd (st_coef s1) d) - l1_form pb (st_coef s1)).
  { rewrite <- rsum_minus. unfold l1_form. rewrite <- rsum_minus.
    rewrite <- (rsum_act act (nc pb)); auto.
    - apply rsum_ext. intros k Hk. unfold vadd, d. replace (st_coef s1 (nth k act 0%nat) + (cr_w r (nth k act 0%nat) - st_coef s1 (nth k act 0%nat))) with (cr_w r (nth k act 0%nat)) by ring. reflexivity.
    - intros k _ Hk. unfold vadd. rewrite (dz k) by exact Hk. rewrite Rplus_0_r. ring. }
  rewrite E1, E2 in D.
  assert (Z1 : rsum (length act) (fun k => - st_score s1 (nth k act 0%nat) * (st_coef s1 (nth k act 0%nat) - st_coef s1 (nth k act 0%nat))) = 0)
    by (apply rsum_zero; intros; ring).
  assert (Z2 : rsum (length act) (fun k => rsum (length act) (fun l => 
       (st_coef s1 (nth k act 0%nat) - st_coef s1 (nth k act 0%nat)) * H k l * (st_coef s1 (nth l act 0%nat) - st_coef s1 (nth l act 0%nat)))) = 0)
    by (apply rsum_zero; intros; apply rsum_zero; intros; ring).
  rewrite Z1, Z2 in D. change (fun k => rsum (nc pb) (fun l => (cr_w r k - st_coef s1 k) * exact_hessian pb h P2 k l * (cr_w r l - st_coef s1 l))) with (fun k => rsum (nc pb) (fun l => d k * exact_hessian pb h P2 k l * d l)). lra.
Qed.

(** ** bounds *)
Lemma within_combo l u x y t : within l u x -> within l u y -> 0 <= t <= 1 -> within l u (x + t * (y - x)).
Proof.
  intros [A B] [C D] [T0 T1]. split; intros b Hb.
  - specialize (A b Hb). specialize (C b Hb). nra.
  - specialize (B b Hb). specialize (D b Hb). nra.
Qed.
Lemma box_step pb seed s s' : pb_ok pb -> (forall i, (i < pb_n pb)%nat -> st_eta s i = eta_of pb (st_coef s) i) ->
  irls_step pb (cd_solver pb seed) s = Some s' -> in_box pb (st_coef s) -> in_box pb (st_coef s').
Proof.
  intros Hok He E B. destruct (irls_step_facts _ _ _ _ E) as [d [cyc [Ei F]]].
  pose proof (prepare_facts pb s) as PF. set (s1 := fst (prepare pb s)) in *. set (H := snd (prepare pb s)) in *.
  destruct (sf_ls _ _ _ _ _ _ F) as [Ec _].
  destruct (line_search_spec pb (st_P2 s) (st_coef s) (st_score s) (st_eta s) (st_obj s) d Hok He)
    as [[A1 [A2 _]] [_ [A3 _]]].
  set (r := line_search _ _ _ _ _ _ _) in *. rewrite Ec, A2, A1, A3.
  intros k Hk. unfold vadd, vscale.
  pose proof (half_pow_range (ls_k r)) as Ht.
  unfold cd_solver in Ei. injection Ei as Ed _. rewrite <- Ed. rewrite (pf_coef _ _ _ _ PF).
  apply within_combo; [apply B; exact Hk| |lra].
  apply (cd_feas (fun i => (i < nc pb)%nat) (cd_args_of pb s1 H)); [|exact Hk].
  intros i Hi. apply B. exact Hi.
Qed.
Lemma init_coef pb P2 b c : st_coef (init_state pb P2 b c) = c.
Proof.
  unfold init_state. destruct (eta_mu_objective _ _ _ _ _ _) as [[[eta mu] obj] cP2].
  destruct (update_quadratic _ _ _ _) as [[g score] h]. destruct (check_convergence _ _ _ _) as [[[conv nm] mx] itol].
  reflexivity.
Qed.
Lemma box_reach pb seed P2 c s : pb_ok pb -> 0 <= pb_approx pb -> in_box pb c ->
  reach pb (cd_solver pb seed) P2 c s -> in_box pb (st_coef s).
Proof.
  intros Hok HC B R. induction R as [|s s' R IH E]; [rewrite init_coef; exact B|].
  eapply box_step; eauto. apply (coh_eta _ _ _ (inv_coh _ _ _ (reach_inv _ _ _ _ _ Hok HC R))).
Qed.

(** ** non-negative row weights *)
Lemma hessian_row_nonneg_mu f lk y w eta mu : family_ok f -> support f y -> mean_range f mu -> 0 <= w ->
  0 <= hessian_row f lk y w eta mu.
Proof.
  intros Hf Hy Hm Hw.
  assert (G : (match f, lk with BinomialF, LogitL => False | _, _ => True end) -> 0 <= snd (generic_rows f lk y w eta mu)).
  { intros NB. unfold generic_rows. cbv zeta. cbn [snd].
    assert (Hv := unit_variance_pos f mu Hf Hm).
    assert (O : 0 <= one_over_variance f lk mu eta 1 w).
    { assert (0 <= w / (unit_variance f mu * 1)).
      { apply Rmult_le_pos; [exact Hw|]. left. apply Rinv_0_lt_compat. lra. }
      unfold one_over_variance. destruct f, lk; auto; contradiction. }
    replace (inverse_derivative lk eta * (inverse_derivative lk eta * one_over_variance f lk mu eta 1 w))
      with ((inverse_derivative lk eta) ^ 2 * one_over_variance f lk mu eta 1 w) by ring.
    apply Rmult_le_pos; [apply pow2_ge_0|exact O]. }
  assert (POS : forall m, 0 < m -> 0 <= w * m) by (intros; apply Rmult_le_pos; lra).
  assert (DIV : 0 < mu -> 0 <= w * (1 / mu)) by (intros; apply POS; apply Rdiv_lt_0_compat; lra).
  unfold hessian_row, rowwise.
  destruct f as [p| | | | | | |th]; destruct lk as [q| | | |]; try (apply G; exact I).
  - destruct (Req_EM_T p 0); [simpl; exact Hw|apply G; exact I].
  - simpl in Hm, Hy.
    destruct (Req_EM_T p 1) as [->|]; [simpl; apply POS; apply Hm; lra|].
    destruct (Req_EM_T p 2) as [->|].
    { simpl. apply POS. apply Rdiv_lt_0_compat; [apply Hy|apply Hm]; lra. }
    destruct (Rlt_dec 1 p); [|apply G; exact I].
    destruct (Rlt_dec p 2).
    { unfold tweedie_log_rows. cbv zeta. cbn [snd].
      assert (0 < mu) by (apply Hm; lra). assert (0 <= y) by (apply Hy; lra).
      apply Rmult_le_pos; [apply POS; apply Rpower_pos|]. nra. }
    destruct (Req_EM_T p 3) as [->|]; [|apply G; exact I].
    unfold inv_gaussian_log_rows. cbn [snd]. apply DIV. apply Hm. lra.
  - simpl. exact Hw.
  - simpl. apply POS. exact Hm.
  - simpl. apply POS. apply Rdiv_lt_0_compat; [exact Hy|exact Hm].
  - unfold inv_gaussian_log_rows. cbn [snd]. apply DIV. exact Hm.
  - simpl in *. rewrite Rmult_assoc. apply POS. apply Rmult_lt_0_compat; lra.
  - simpl in *. unfold Rdiv. apply Rmult_le_pos; [apply POS; exact Hm|]. left. apply Rinv_0_lt_compat. nra.
Qed.

Definition means_ok (pb : problem) : Prop :=
  forall c i, (i < pb_n pb)%nat -> mean_range (pb_fam pb) (mean_of pb c i).

Lemma old_rows_nonneg pb inner P2 c s : pb_ok pb -> 0 <= pb_approx pb ->
  (forall i, (i < pb_n pb)%nat -> 0 <= pb_w pb i) -> means_ok pb -> reach pb inner P2 c s ->
  (forall i, (i < pb_n pb)%nat -> 0 <= st_hrows s i) /\
  (forall i, (i < pb_n pb)%nat -> 0 <= st_old_hrows s i) /\
  (forall i, (i < pb_n pb)%nat -> 0 <= st_hrows (fst (prepare pb s)) i).
Proof.
  intros Hok HC Hw Hm R.
  assert (HR : forall s, inv pb P2 s -> forall i, (i < pb_n pb)%nat -> 0 <= st_hrows s i).
  { intros s0 I i Hi. rewrite (coh_hrows _ _ _ (inv_coh _ _ _ I)) by exact Hi. unfold hrow_of.
    apply hessian_row_nonneg_mu; [apply Hok|apply Hok; exact Hi|apply Hm; exact Hi|apply Hw; exact Hi]. }
  assert (HO : forall s, inv pb P2 s -> (forall i, (i < pb_n pb)%nat -> 0 <= st_old_hrows s i) ->
     forall i, (i < pb_n pb)%nat -> 0 <= st_hrows (fst (prepare pb s)) i).
  { intros s0 I HO i Hi. destruct I as [C P A H].
    destruct (prepare_spec pb s0 P2 HC P A H) as [_ [_ [_ [RC _]]]].
    destruct (RC i Hi) as [ -> | [ -> _]]; [apply HR; [constructor; assumption|exact Hi]|apply HO; exact Hi]. }
  assert (Q : forall i, (i < pb_n pb)%nat -> 0 <= st_old_hrows s i).
  { induction R as [|s s' R IH E].
    - intros i _. unfold init_state. destruct (eta_mu_objective _ _ _ _ _ _) as [[[eta mu] obj] cP2].
      destruct (update_quadratic _ _ _ _) as [[g score] h]. destruct (check_convergence _ _ _ _) as [[[conv nm] mx] itol].
      simpl. lra.
    - intros i Hi. destruct (irls_step_facts _ _ _ _ E) as [d [cyc [_ F]]].
      rewrite (sf_old _ _ _ _ _ _ F). apply HO; auto. eapply reach_inv; eauto. }
  pose proof (reach_inv _ _ _ _ _ Hok HC R) as I. split; [apply HR; exact I|]. split; [exact Q|apply HO; auto].
Qed.

Lemma inverse1_pos lk eta : lk = LogL \/ lk = LogitL \/ lk = CloglogL -> 0 < inverse1 lk eta.
Proof.
  intros [ -> | [ -> | -> ] ]; unfold inverse1.
  - apply exp_pos.
  - pose proof eps50_bounds. pose proof (clip_range (raw_inverse LogitL eta) eps50 (1 - eps50)). lra.
  - pose proof eps50_bounds. pose proof (clip_range (raw_inverse CloglogL eta) eps50 (1 - eps50)). lra.
Qed.
Lemma safe_mean_range f lk eta : safe_pair f lk -> mean_range f (search_mean f lk eta).
Proof.
  destruct f as [p| | | | | | |th]; simpl; intros H; auto; try (apply inverse1_pos; exact H).
  - intros Hp. apply inverse1_pos. tauto.
  - destruct H as [ -> | -> ].
    + apply (expit_bounds eta).
    + unfold inverse1. pose proof eps50_bounds. pose proof (clip_range (raw_inverse CloglogL eta) eps50 (1 - eps50)). lra.
Qed.
Lemma safe_means_ok pb : safe_pair (pb_fam pb) (pb_link pb) -> means_ok pb.
Proof. intros H c i _. apply safe_mean_range. exact H. Qed.

(** ** descent *)
Lemma cd_bound_nonpos pb seed P2 c s d cyc : pb_ok pb -> 0 <= pb_approx pb ->
  (forall i, (i < pb_n pb)%nat -> 0 <= pb_w pb i) -> means_ok pb -> p2_sym (pb_p pb) P2 -> p2_psd (pb_p pb) P2 ->
  seeds_ok seed -> in_box pb c -> reach pb (cd_solver pb seed) P2 c s ->
  cd_solver pb seed (fst (prepare pb s)) (snd (prepare pb s)) = Some (d, cyc) ->
  ls_bound pb (st_coef s) (st_score s) d <= 0.
Proof.
  intros Hok HC Hw Hm HS HP Hseed HB R E.
  pose proof (reach_inv _ _ _ _ _ Hok HC R) as [C P A H].
  destruct (old_rows_nonneg _ _ _ _ _ Hok HC Hw Hm R) as [_ [_ HR]].
  destruct (prepare_spec pb s P2 HC P A H) as [A1 [_ [HE _]]].
  pose proof (prepare_facts pb s) as PF. set (s1 := fst (prepare pb s)) in *. set (Hm' := snd (prepare pb s)) in *.
  assert (B : in_box pb (st_coef s1)) by (rewrite (pf_coef _ _ _ _ PF); eapply box_reach; eauto).
  destruct (cd_direction pb P2 (st_hrows s1) s1 Hm' d cyc seed (proj2 (proj2 Hok)) HS A1 HE Hseed B E) as [_ [_ D]].
  pose proof (exact_psd pb (st_hrows s1) P2 d HR HP) as Q.
  rewrite (pf_coef _ _ _ _ PF), (pf_score _ _ _ _ PF) in D.
  unfold ls_bound. rewrite !l1_pen_eq by apply Hok. lra.
Qed.

Lemma step_descends pb inner P2 s s' : pb_ok pb -> inv pb P2 s -> irls_step pb inner s = Some s' ->
  (forall d cyc, inner (fst (prepare pb s)) (snd (prepare pb s)) = Some (d, cyc) ->
                 ls_bound pb (st_coef s) (st_score s) d <= 0) ->
  st_lswarn s' = S (st_lswarn s) \/
  (st_lswarn s' = st_lswarn s /\ train_obj pb P2 (st_coef s') <= train_obj pb P2 (st_coef s) + Rabs (st_obj s * pb_eps pb)).
Proof.
  intros Hok [C P A H] E HB. destruct (irls_step_facts _ _ _ _ E) as [d [cyc [Ei F]]].
  specialize (HB d cyc Ei). destruct (sf_ls _ _ _ _ _ _ F) as [E1 [E2 [E3 [E4 [E5 [E6 E7]]]]]].
  destruct (line_search_spec pb (st_P2 s) (st_coef s) (st_score s) (st_eta s) (st_obj s) d Hok (coh_eta _ _ _ C))
    as [[_ [_ [_ [_ [Ho _]]]]] [_ [Hf [_ Hacc]]]].
  set (r := line_search _ _ _ _ _ _ _) in *. rewrite P in Ho.
  destruct (ls_warn r) eqn:W; [left; lia|right]. split; [lia|].
  pose proof (coh_obj _ _ _ C) as Oc. rewrite E1.
  pose proof (half_pow_range (ls_k r)) as Ht. rewrite <- Hf in Ht.
  pose proof (Rabs_pos (st_obj s * pb_eps pb)).
  destruct (proj1 Hacc eq_refl) as [[_ L]|[L _]].
  - assert (ls_factor r * ls_bound pb (st_coef s) (st_score s) d <= 0) by nra. lra.
  - assert (ls_obj r - st_obj s <= Rabs (ls_obj r - st_obj s)) by apply Rle_abs. lra.
Qed.

