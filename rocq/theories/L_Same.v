(** Two problems whose rows carry the same weighted averages give the same run of irls-cd. *)
From Coq Require Import FunctionalExtensionality.
From Verif Require Import M_Std S_Std L_Link L_Dist L_Dist2 L_Dist3 L_Dist4 L_CDrng L_CD L_KKT L_Hess L_Solver L_Solver2 L_Solver3 L_Obj L_Std L_Fit P_Solver.
From Verif Require Import M_Solver S_Solver.
Local Open Scope R_scope.

Definition avg (pb : problem) (G : (nat -> R) -> R -> R -> R) : R :=
  rsum (pb_n pb) (fun i => pb_w pb i * G (pb_X pb i) (pb_y pb i) (pb_off pb i)).

(** a function of a row that is affine in the response *)
Definition affine_y (G : (nat -> R) -> R -> R -> R) : Prop :=
  forall x y off, G x y off = G x 0 off + y * (G x 1 off - G x 0 off).

Definition same_large (pb1 pb2 : problem) : Prop := forall c,
  (forall i, (i < pb_n pb1)%nat -> mean_of pb1 c i < pb_large pb1) <->
  (forall i, (i < pb_n pb2)%nat -> mean_of pb2 c i < pb_large pb2).

Record same_pb (pb1 pb2 : problem) : Prop := mkSame {
  sp_p : pb_p pb1 = pb_p pb2; sp_ic : pb_ic pb1 = pb_ic pb2; sp_fam : pb_fam pb1 = pb_fam pb2;
  sp_link : pb_link pb1 = pb_link pb2; sp_P1 : pb_P1 pb1 = pb_P1 pb2; sp_mi : pb_max_iter pb1 = pb_max_iter pb2;
  sp_mn : pb_max_inner pb1 = pb_max_inner pb2; sp_gt : pb_gtol pb1 = pb_gtol pb2; sp_st : pb_stol pb1 = pb_stol pb2;
  sp_ft : pb_fixed_tol pb1 = pb_fixed_tol pb2; sp_r : pb_random pb1 = pb_random pb2;
  sp_lb : pb_lb pb1 = pb_lb pb2; sp_ub : pb_ub pb1 = pb_ub pb2; sp_eps : pb_eps pb1 = pb_eps pb2;
  sp_avg : forall G, affine_y G -> avg pb1 G = avg pb2 G }.
(** the value the line search compares *)
Definition same_obj (pb1 pb2 : problem) : Prop :=
  forall P2 c, train_obj pb1 P2 c + obj_k pb1 = train_obj pb2 P2 c + obj_k pb2.

(** ** linearity of the row kernels in the weight *)
Lemma gradient_row_lin f lk y w eta mu : gradient_row f lk y w eta mu = w * gradient_row f lk y 1 eta mu.
Proof.
  unfold gradient_row, rowwise, generic_rows, normal_identity_rows, poisson_log_rows, gamma_log_rows, tweedie_log_rows,
    inv_gaussian_log_rows, binomial_logit_rows, negative_binomial_log_rows.
  destruct f as [p| | | | | | |th], lk;
  repeat match goal with
   | |- context [Req_EM_T ?a ?b] => destruct (Req_EM_T a b)
   | |- context [Rlt_dec ?a ?b] => destruct (Rlt_dec a b)
  end; cbn [fst]; unfold one_over_variance, Rdiv; ring.
Qed.
Lemma hessian_row_lin f lk y w eta mu : hessian_row f lk y w eta mu = w * hessian_row f lk y 1 eta mu.
Proof.
  unfold hessian_row, rowwise, generic_rows, normal_identity_rows, poisson_log_rows, gamma_log_rows, tweedie_log_rows,
    inv_gaussian_log_rows, binomial_logit_rows, negative_binomial_log_rows.
  destruct f as [p| | | | | | |th], lk;
  repeat match goal with
   | |- context [Req_EM_T ?a ?b] => destruct (Req_EM_T a b)
   | |- context [Rlt_dec ?a ?b] => destruct (Rlt_dec a b)
  end; cbn [snd]; unfold one_over_variance, Rdiv; ring.
Qed.
Lemma oov_lin f lk mu eta d w : one_over_variance f lk mu eta d w = w * one_over_variance f lk mu eta d 1.
Proof. unfold one_over_variance, Rdiv. destruct f, lk; ring. Qed.
Lemma emd_k_lin f lk y w : emd_k f lk y w = w * emd_k f lk y 1.
Proof.
  unfold emd_k, poisson_k, gamma_k, tweedie_k, negbin_k, Rdiv.
  destruct f as [p| | | | | | |th], lk;
  repeat match goal with
   | |- context [Req_EM_T ?a ?b] => destruct (Req_EM_T a b)
   | |- context [Rlt_dec ?a ?b] => destruct (Rlt_dec a b)
  end; ring.
Qed.

(** ** row kernels are affine in y *)
Lemma gradient_affine f lk y eta mu : gradient_row f lk y 1 eta mu
  = gradient_row f lk 0 1 eta mu + y * (gradient_row f lk 1 1 eta mu - gradient_row f lk 0 1 eta mu).
Proof.
  unfold gradient_row, rowwise, generic_rows, normal_identity_rows, poisson_log_rows, gamma_log_rows, tweedie_log_rows,
    inv_gaussian_log_rows, binomial_logit_rows, negative_binomial_log_rows.
  destruct f as [p| | | | | | |th], lk;
  repeat match goal with
   | |- context [Req_EM_T ?a ?b] => destruct (Req_EM_T a b)
   | |- context [Rlt_dec ?a ?b] => destruct (Rlt_dec a b)
  end; cbn [fst]; unfold Rdiv; ring.
Qed.
Lemma hessian_affine f lk y eta mu : hessian_row f lk y 1 eta mu
  = hessian_row f lk 0 1 eta mu + y * (hessian_row f lk 1 1 eta mu - hessian_row f lk 0 1 eta mu).
Proof.
  unfold hessian_row, rowwise, generic_rows, normal_identity_rows, poisson_log_rows, gamma_log_rows, tweedie_log_rows,
    inv_gaussian_log_rows, binomial_logit_rows, negative_binomial_log_rows.
  destruct f as [p| | | | | | |th], lk;
  repeat match goal with
   | |- context [Req_EM_T ?a ?b] => destruct (Req_EM_T a b)
   | |- context [Rlt_dec ?a ?b] => destruct (Rlt_dec a b)
  end; cbn [snd]; unfold Rdiv; ring.
Qed.

(** ** row quantities as functions of the row *)
Definition er (ic : bool) (p : nat) (c x : nat -> R) (off : R) : R :=
  (if ic then c 0%nat else 0) + rsum p (fun j => x j * c (ioff ic + j)%nat) + off.
Lemma eta_er pb c i : eta_of pb c i = er (pb_ic pb) (pb_p pb) c (pb_X pb i) (pb_off pb i).
Proof. rewrite eta_of_eq. reflexivity. Qed.
Definition mr (f : family) (lk : link) (ic : bool) (p : nat) (c x : nat -> R) (off : R) : R :=
  search_mean f lk (er ic p c x off).
Lemma mean_mr pb c i : mean_of pb c i = mr (pb_fam pb) (pb_link pb) (pb_ic pb) (pb_p pb) c (pb_X pb i) (pb_off pb i).
Proof. unfold mean_of, mr. rewrite eta_er. reflexivity. Qed.
Definition xr (ic : bool) (k : nat) (x : nat -> R) : R :=
  match ic, k with true, O => 1 | true, S j => x j | false, j => x j end.
Lemma xt_xr pb i k : xt pb i k = xr (pb_ic pb) k (pb_X pb i).
Proof. reflexivity. Qed.

Lemma xt_vec_xr pb g k : xt_vec pb g k = rsum (pb_n pb) (fun i => g i * xr (pb_ic pb) k (pb_X pb i)).
Proof.
  unfold xt_vec, xr. destruct (pb_ic pb); cbn [ioff].
  - destruct k; cbn [Nat.ltb Nat.leb]; [apply rsum_ext; intros; ring|]. replace (S k - 1)%nat with k by lia. reflexivity.
  - cbn [Nat.ltb Nat.leb]. rewrite Nat.sub_0_r. reflexivity.
Qed.

(** a weighted sum written as an average *)
Lemma avg_eq pb (F : nat -> R) G : (forall i, (i < pb_n pb)%nat -> F i = pb_w pb i * G (pb_X pb i) (pb_y pb i) (pb_off pb i)) ->
  rsum (pb_n pb) F = avg pb G.
Proof. intros H. apply rsum_ext. exact H. Qed.

(** ** equal averages of every function of a row: the same objective *)
Section Full.
Variables pb1 pb2 : problem.
Hypotheses (Hp : pb_p pb1 = pb_p pb2) (Hic : pb_ic pb1 = pb_ic pb2) (Hf : pb_fam pb1 = pb_fam pb2)
  (Hl : pb_link pb1 = pb_link pb2) (HP1 : pb_P1 pb1 = pb_P1 pb2) (HG : forall G, avg pb1 G = avg pb2 G).
Lemma same_deviance c : deviance (pb_fam pb1) (fitted pb1 c) = deviance (pb_fam pb2) (fitted pb2 c).
Proof.
  rewrite !deviance_rows. unfold fitted. rewrite !lsumf_map, !lsumf_seq. cbn [ow oy omu].
  set (G := fun (x : nat -> R) y off => devrow (pb_fam pb1) y (mr (pb_fam pb1) (pb_link pb1) (pb_ic pb1) (pb_p pb1) c x off)).
  rewrite (avg_eq pb1 _ G), (avg_eq pb2 _ G); [apply HG| |];
    intros i _; unfold G, mr; rewrite eta_er, <- ?Hf, <- ?Hl, <- ?Hic, <- ?Hp; reflexivity.
Qed.
Lemma same_train_obj P2 c : train_obj pb1 P2 c = train_obj pb2 P2 c.
Proof.
  unfold train_obj, smooth_obj, half_deviance, l2_form, l1_form, nc.
  rewrite same_deviance, Hp, Hic, HP1. reflexivity.
Qed.
Lemma same_obj_k : obj_k pb1 = obj_k pb2.
Proof.
  unfold obj_k. f_equal.
  set (G := fun (x : nat -> R) (y off : R) => emd_k (pb_fam pb1) (pb_link pb1) y 1).
  rewrite (avg_eq pb1 _ G), (avg_eq pb2 _ G); [apply HG| |];
    intros i _; unfold G; rewrite emd_k_lin, <- ?Hf, <- ?Hl; reflexivity.
Qed.
End Full.

Section Same.
Variables pb1 pb2 : problem.
Hypothesis S : same_pb pb1 pb2.

Lemma same_nc : nc pb1 = nc pb2.
Proof. unfold nc. rewrite (sp_p _ _ S), (sp_ic _ _ S). reflexivity. Qed.

Definition grow_of (pb : problem) (c : nat -> R) (i : nat) : R :=
  gradient_row (pb_fam pb) (pb_link pb) (pb_y pb i) (pb_w pb i) (eta_of pb c i) (mean_of pb c i).

Lemma same_xt_grad c k : xt_vec pb1 (grow_of pb1 c) k = xt_vec pb2 (grow_of pb2 c) k.
Proof.
  rewrite !xt_vec_xr.
  set (G := fun (x : nat -> R) y off => gradient_row (pb_fam pb1) (pb_link pb1) y 1 (er (pb_ic pb1) (pb_p pb1) c x off)
     (mr (pb_fam pb1) (pb_link pb1) (pb_ic pb1) (pb_p pb1) c x off) * xr (pb_ic pb1) k x).
  rewrite (avg_eq pb1 _ G), (avg_eq pb2 _ G); [apply (sp_avg _ _ S); intros x y off; unfold G; rewrite (gradient_affine _ _ y); ring| |];
    intros i _; unfold grow_of, G; rewrite eta_er, mean_mr, gradient_row_lin, <- ?(sp_fam _ _ S), <- ?(sp_link _ _ S), <- ?(sp_ic _ _ S), <- ?(sp_p _ _ S); ring.
Qed.

Lemma same_hessian c P2 k l : exact_hessian pb1 (hrow_of pb1 c) P2 k l = exact_hessian pb2 (hrow_of pb2 c) P2 k l.
Proof.
  unfold exact_hessian. rewrite (sp_ic _ _ S). f_equal.
  set (G := fun (x : nat -> R) y off => hessian_row (pb_fam pb1) (pb_link pb1) y 1 (er (pb_ic pb1) (pb_p pb1) c x off)
     (mr (pb_fam pb1) (pb_link pb1) (pb_ic pb1) (pb_p pb1) c x off) * xr (pb_ic pb1) k x * xr (pb_ic pb1) l x).
  rewrite (avg_eq pb1 _ G), (avg_eq pb2 _ G); [apply (sp_avg _ _ S); intros x y off; unfold G; rewrite (hessian_affine _ _ y); ring| |];
    intros i _; unfold hrow_of, G; rewrite !xt_xr, eta_er, mean_mr, hessian_row_lin, <- ?(sp_fam _ _ S), <- ?(sp_link _ _ S), <- ?(sp_ic _ _ S), <- ?(sp_p _ _ S); ring.
Qed.

Lemma same_coef_P2 P2 c : make_coef_P2 pb1 P2 c = make_coef_P2 pb2 P2 c.
Proof. unfold make_coef_P2. rewrite (sp_ic _ _ S), (sp_p _ _ S). reflexivity. Qed.

Definition tgn_of (pb : problem) (c : nat -> R) (cP2 : nat -> R) : R :=
  trial_grad_norm pb (eta_of pb c) (mean_of pb c) cP2.
Lemma same_trial c cP2 : tgn_of pb1 c cP2 = tgn_of pb2 c cP2.
Proof.
  unfold tgn_of, trial_grad_norm. rewrite same_nc. apply rsum_ext. intros k _. f_equal. f_equal. rewrite !xt_vec_xr.
  set (G := fun (x : nat -> R) y off => inverse_derivative (pb_link pb1) (er (pb_ic pb1) (pb_p pb1) c x off)
     * one_over_variance (pb_fam pb1) (pb_link pb1) (mr (pb_fam pb1) (pb_link pb1) (pb_ic pb1) (pb_p pb1) c x off) (er (pb_ic pb1) (pb_p pb1) c x off) 1 1
     * (y - mr (pb_fam pb1) (pb_link pb1) (pb_ic pb1) (pb_p pb1) c x off) * xr (pb_ic pb1) k x).
  rewrite (avg_eq pb1 _ G), (avg_eq pb2 _ G); [apply (sp_avg _ _ S); intros x y off; unfold G; ring| |];
    intros i _; unfold G; rewrite oov_lin, eta_er, mean_mr, <- ?(sp_fam _ _ S), <- ?(sp_link _ _ S), <- ?(sp_ic _ _ S), <- ?(sp_p _ _ S); ring.
Qed.
Lemma same_check c step score : check_convergence pb1 c step score = check_convergence pb2 c step score.
Proof.
  unfold check_convergence. rewrite same_nc, (sp_P1 _ _ S), (sp_ic _ _ S), (sp_lb _ _ S), (sp_ub _ _ S), (sp_gt _ _ S), (sp_st _ _ S), (sp_ft _ _ S).
  reflexivity.
Qed.
Lemma same_identify c score mx : identify_active_set pb1 c score mx = identify_active_set pb2 c score mx.
Proof. unfold identify_active_set, is_active. rewrite (sp_ic _ _ S), (sp_p _ _ S), (sp_P1 _ _ S). reflexivity. Qed.

(** ** the line search *)
Lemma tgn_coherent pb c eta mu cP2 : (forall i, (i < pb_n pb)%nat -> eta i = eta_of pb c i) ->
  (forall i, (i < pb_n pb)%nat -> mu i = mean_of pb c i) -> trial_grad_norm pb eta mu cP2 = tgn_of pb c cP2.
Proof.
  intros He Hm. unfold tgn_of, trial_grad_norm. apply rsum_ext. intros k _. f_equal. f_equal. rewrite !xt_vec_xr.
  apply rsum_ext. intros i Hi. rewrite He, Hm by exact Hi. reflexivity.
Qed.
Hypothesis L : same_large pb1 pb2.
Hypothesis OB : same_obj pb1 pb2.
Hypothesis ok1 : pb_ok pb1.
Hypothesis ok2 : pb_ok pb2.

Record ls_same (r1 r2 : ls_result) : Prop := mkLS {
  lss_coef : ls_coef r1 = ls_coef r2; lss_step : ls_step r1 = ls_step r2; lss_obj : ls_obj r1 = ls_obj r2;
  lss_cP2 : ls_cP2 r1 = ls_cP2 r2; lss_k : ls_k r1 = ls_k r2; lss_w : ls_warn r1 = ls_warn r2;
  lss_f : ls_factor r1 = ls_factor r2 }.

Lemma large_test pb (mu : nat -> R) c : (forall i, (i < pb_n pb)%nat -> mu i = mean_of pb c i) ->
  (forallb (fun i => Rltb (mu i) (pb_large pb)) (seq 0 (pb_n pb)) = true <-> (forall i, (i < pb_n pb)%nat -> mean_of pb c i < pb_large pb)).
Proof.
  intros H. rewrite forallb_forall. split; intros Q i Hi.
  - rewrite <- H by exact Hi. apply Rltb_true, Q, in_seq. lia.
  - apply in_seq in Hi. apply Rltb_true. rewrite H by lia. apply Q. lia.
Qed.
Lemma bool_iff (a b : bool) : (a = true <-> b = true) -> a = b.
Proof. destruct a, b; intros [H1 H2]; try reflexivity; [symmetry; apply H1; reflexivity|apply H2; reflexivity]. Qed.

Lemma same_ls_loop P2 c score eta1 eta2 obj d bound :
  (forall i, (i < pb_n pb1)%nat -> eta1 i = eta_of pb1 c i) ->
  (forall i, (i < pb_n pb2)%nat -> eta2 i = eta_of pb2 c i) ->
  forall m k factor,
  ls_same (ls_loop pb1 P2 c score eta1 obj d (lin_pred pb1 d) bound m k factor)
          (ls_loop pb2 P2 c score eta2 obj d (lin_pred pb2 d) bound m k factor).
Proof.
  intros H1 H2. induction m as [|m IH]; intros k factor; cbn [ls_loop].
  all: pose proof (eta_mu_objective_spec pb1 P2 (lin_pred pb1 d) factor (vadd c (vscale factor d)) eta1 ok1
         ltac:(intros i Hi; rewrite eta_of_add, H1 by exact Hi; reflexivity)) as E1;
       pose proof (eta_mu_objective_spec pb2 P2 (lin_pred pb2 d) factor (vadd c (vscale factor d)) eta2 ok2
         ltac:(intros i Hi; rewrite eta_of_add, H2 by exact Hi; reflexivity)) as E2.
  all: destruct (eta_mu_objective pb1 _ _ _ _ _) as [[[e1 m1] o1] q1]; destruct E1 as [A1 [B1 [C1 D1]]];
       destruct (eta_mu_objective pb2 _ _ _ _ _) as [[[e2 m2] o2] q2]; destruct E2 as [A2 [B2 [C2 D2]]].
  all: assert (EO : o1 = o2) by (rewrite C1, C2; apply OB);
       assert (EQ : q1 = q2) by (rewrite D1, D2; apply same_coef_P2).
  all: rewrite (tgn_coherent pb1 _ e1 m1 q1 A1 B1), (tgn_coherent pb2 _ e2 m2 q2 A2 B2), same_trial, EO, EQ, same_nc, (sp_eps _ _ S).
  all: assert (EB : forallb (fun i => Rltb (m1 i) (pb_large pb1)) (seq 0 (pb_n pb1)) = forallb (fun i => Rltb (m2 i) (pb_large pb2)) (seq 0 (pb_n pb2)))
     by (apply bool_iff; rewrite (large_test pb1 m1 _ B1), (large_test pb2 m2 _ B2); apply L).
  all: rewrite EB; repeat destruct (_ && _)%bool; try (constructor; reflexivity). apply IH.
Qed.
Lemma same_l1 c : l1_pen pb1 c = l1_pen pb2 c.
Proof. unfold l1_pen. rewrite (sp_p _ _ S), (sp_P1 _ _ S), (sp_ic _ _ S). reflexivity. Qed.
Lemma same_line_search P2 c score eta1 eta2 obj d :
  (forall i, (i < pb_n pb1)%nat -> eta1 i = eta_of pb1 c i) ->
  (forall i, (i < pb_n pb2)%nat -> eta2 i = eta_of pb2 c i) ->
  ls_same (line_search pb1 P2 c score eta1 obj d) (line_search pb2 P2 c score eta2 obj d).
Proof.
  intros H1 H2. unfold line_search, ls_bound. rewrite same_nc, !same_l1. apply same_ls_loop; assumption.
Qed.
End Same.

(** ** coordinate descent only reads the Hessian inside the active set *)
Definition with_Q (a : cd_args) (Q : nat -> nat -> R) : cd_args :=
  mkCD (cd_act a) (cd_P1 a) Q (cd_max_iter a) (cd_tol a) (cd_ic a) (cd_random a) (cd_lb a) (cd_ub a) (cd_eps a).
Section Ext.
Variables (a : cd_args) (Q : nat -> nat -> R).
Hypothesis HQ : forall i j, (i < length (cd_act a))%nat -> (j < length (cd_act a))%nat -> cd_Q a i j = Q i j.
Lemma upd_q_ext k dw : (k < length (cd_act a))%nat -> forall q, cd_update_q a k dw q = cd_update_q (with_Q a Q) k dw q.
Proof.
  intros Hk q. unfold cd_update_q. cbn [with_Q cd_act cd_Q].
  assert (H : forall l q, (forall j, In j l -> (j < length (cd_act a))%nat) ->
    fold_left (fun q kj => let jj := nth kj (cd_act a) 0%nat in upd q jj (q jj + dw * cd_Q a k kj)) l q =
    fold_left (fun q kj => let jj := nth kj (cd_act a) 0%nat in upd q jj (q jj + dw * Q k kj)) l q).
  { induction l as [|j l IH]; intros q0 Hl; [reflexivity|]. cbn [fold_left]. rewrite HQ by (auto; apply Hl; left; reflexivity).
    apply IH. intros j' Hj'. apply Hl. right. exact Hj'. }
  apply H. intros j Hj. apply in_seq in Hj. lia.
Qed.
Lemma visit_ext k s : (k < length (cd_act a))%nat -> cd_visit a k s = cd_visit (with_Q a Q) k s.
Proof.
  intros Hk. unfold cd_visit. cbn [with_Q cd_act cd_Q cd_P1 cd_ic cd_eps]. rewrite HQ by exact Hk.
  destruct (Rleb _ _); [reflexivity|]. cbv zeta. rewrite upd_q_ext by exact Hk. reflexivity.
Qed.
Lemma sweep_ext m : forall f seed s, (f + m <= length (cd_act a))%nat -> (seed < 2 ^ 32)%N ->
  cd_sweep a m f seed s = cd_sweep (with_Q a Q) m f seed s /\ (fst (cd_sweep a m f seed s) < 2 ^ 32)%N.
Proof.
  induction m as [|m IH]; intros f seed s Hf Hs; [split; [reflexivity|exact Hs]|]. cbn [cd_sweep with_Q cd_random cd_act].
  destruct (cd_random a) eqn:ER.
  - pose proof (rand_int_ok (length (cd_act a)) seed ltac:(lia) Hs) as RI. destruct (rand_int _ _) as [k seed']. destruct RI as [R1 [R2 _]].
    fold (with_Q a Q). rewrite <- visit_ext by exact R1. apply IH; [lia|exact R2].
  - fold (with_Q a Q). rewrite <- visit_ext by lia. apply IH; [lia|exact Hs].
Qed.
Lemma loop_ext m : forall n seed norm w q, (seed < 2 ^ 32)%N ->
  cd_loop a m n seed norm w q = cd_loop (with_Q a Q) m n seed norm w q.
Proof.
  induction m as [|m IH]; intros n seed norm w q Hs; [reflexivity|]. cbn [cd_loop].
  pose proof (sweep_ext (length (cd_act a)) 0 seed (mkCS w q 0 0) ltac:(lia) Hs) as [E1 E2].
  change (length (cd_act (with_Q a Q))) with (length (cd_act a)). rewrite <- E1. destruct (cd_sweep _ _ _ _ _) as [seed' s]. cbn [fst] in E2.
  cbn [with_Q cd_tol cd_act cd_P1 cd_ic cd_lb cd_ub]. fold (with_Q a Q). rewrite !IH by exact E2. reflexivity.
Qed.
End Ext.

(** ** the run *)
Record st_same (s1 s2 : state) : Prop := mkSS {
  ss_coef : st_coef s1 = st_coef s2; ss_step : st_step s1 = st_step s2; ss_obj : st_obj s1 = st_obj s2;
  ss_score : st_score s1 = st_score s2; ss_act : st_act s1 = st_act s2; ss_conv : st_conv s1 = st_conv s2;
  ss_norm : st_norm s1 = st_norm s2; ss_max : st_max s1 = st_max s2; ss_itol : st_itol s1 = st_itol s2;
  ss_niter : st_niter s1 = st_niter s2; ss_ncyc : st_ncycles s1 = st_ncycles s2; ss_nls : st_nls s1 = st_nls s2;
  ss_P2 : st_P2 s1 = st_P2 s2; ss_diag : st_diag s1 = st_diag s2; ss_lsw : st_lswarn s1 = st_lswarn s2 }.

Section Run.
Variables pb1 pb2 : problem.
Hypothesis S : same_pb pb1 pb2.
Hypothesis L : same_large pb1 pb2.
Hypothesis OB : same_obj pb1 pb2.
Hypothesis ok1 : pb_ok pb1.
Hypothesis ok2 : pb_ok pb2.
Hypothesis ap1 : pb_approx pb1 = 0.
Hypothesis ap2 : pb_approx pb2 = 0.

Lemma quad_score pb eta mu cP2 c : (forall i, (i < pb_n pb)%nat -> eta i = eta_of pb c i) ->
  (forall i, (i < pb_n pb)%nat -> mu i = mean_of pb c i) ->
  snd (fst (update_quadratic pb eta mu cP2)) = fun k => xt_vec pb (grow_of pb c) k - cP2 k.
Proof.
  intros He Hm. unfold update_quadratic. cbn [fst snd]. apply functional_extensionality. intros k. f_equal.
  rewrite !xt_vec_xr. apply rsum_ext. intros i Hi. unfold grow_of. rewrite He, Hm by exact Hi. reflexivity.
Qed.
Lemma quad_same eta1 mu1 eta2 mu2 cP2 c :
  (forall i, (i < pb_n pb1)%nat -> eta1 i = eta_of pb1 c i) -> (forall i, (i < pb_n pb1)%nat -> mu1 i = mean_of pb1 c i) ->
  (forall i, (i < pb_n pb2)%nat -> eta2 i = eta_of pb2 c i) -> (forall i, (i < pb_n pb2)%nat -> mu2 i = mean_of pb2 c i) ->
  snd (fst (update_quadratic pb1 eta1 mu1 cP2)) = snd (fst (update_quadratic pb2 eta2 mu2 cP2)).
Proof.
  intros A B C D. rewrite (quad_score pb1 _ _ _ c A B), (quad_score pb2 _ _ _ c C D). apply functional_extensionality. intros k. f_equal.
  apply same_xt_grad. exact S.
Qed.

Lemma same_init P2 c : st_same (init_state pb1 P2 false c) (init_state pb2 P2 false c).
Proof.
  unfold init_state.
  pose proof (eta_mu_objective_spec pb1 P2 (fun i => lin_pred pb1 c i + pb_off pb1 i) 1 c (fun _ => 0) ok1
         ltac:(intros i Hi; rewrite eta_of_eq; ring)) as E1.
  pose proof (eta_mu_objective_spec pb2 P2 (fun i => lin_pred pb2 c i + pb_off pb2 i) 1 c (fun _ => 0) ok2
         ltac:(intros i Hi; rewrite eta_of_eq; ring)) as E2.
  destruct (eta_mu_objective pb1 _ _ _ _ _) as [[[e1 m1] o1] q1]; destruct E1 as [A1 [B1 [C1 D1]]].
  destruct (eta_mu_objective pb2 _ _ _ _ _) as [[[e2 m2] o2] q2]; destruct E2 as [A2 [B2 [C2 D2]]].
  assert (EQ : q1 = q2) by (rewrite D1, D2; apply same_coef_P2; exact S). rewrite EQ.
  pose proof (quad_same e1 m1 e2 m2 q2 c A1 B1 A2 B2) as QS.
  destruct (update_quadratic pb1 _ _ _) as [[g1 s1] h1]. destruct (update_quadratic pb2 _ _ _) as [[g2 s2] h2]. cbn [fst snd] in QS. subst s2.
  cbv zeta. rewrite (sp_st _ _ S), (same_check _ _ S). destruct (check_convergence _ _ _ _) as [[[conv nm] mx] itol].
  assert (EO : o1 = o2) by (rewrite C1, C2; apply OB).
  constructor; cbn; try reflexivity; try exact EO; [f_equal; apply same_nc; exact S|rewrite EO; reflexivity].
Qed.

Lemma same_step seed P2 s1 s2 : seeds_ok seed -> inv pb1 P2 s1 -> inv pb2 P2 s2 -> st_same s1 s2 ->
  match irls_step pb1 (cd_solver pb1 seed) s1, irls_step pb2 (cd_solver pb2 seed) s2 with
  | Some t1, Some t2 => st_same t1 t2
  | _, _ => False
  end.
Proof.
  intros Hs I1 I2 [S1 S2 S3 S4 S5 S6 S7 S8 S9 S10 S11 S12 S13 S14 S15].
  destruct (prepare_spec pb1 s1 P2 ltac:(lra) (inv_P2 _ _ _ I1) (inv_act _ _ _ I1) (inv_hess _ _ _ I1)) as [_ [_ [H1 [_ Z1]]]].
  destruct (prepare_spec pb2 s2 P2 ltac:(lra) (inv_P2 _ _ _ I2) (inv_act _ _ _ I2) (inv_hess _ _ _ I2)) as [_ [_ [H2 [_ Z2]]]].
  pose proof (inv_coh _ _ _ I1) as C1. pose proof (inv_coh _ _ _ I2) as C2.
  pose proof (prepare_facts pb1 s1) as F1. pose proof (prepare_facts pb2 s2) as F2. unfold irls_step.
  assert (NL : forall pb s, st_norm (fst (prepare pb s)) = st_norm s /\ st_nls (fst (prepare pb s)) = st_nls s).
  { intros pb s. unfold prepare. destruct (update_hessian _ _ _ _ _ _ _ _) as [[[? ?] ?] ?]. split; reflexivity. }
  destruct (prepare pb1 s1) as [t1 Q1]. destruct (prepare pb2 s2) as [t2 Q2]. cbn [fst snd] in *.
  assert (EA : st_act t1 = st_act t2).
  { rewrite (pf_act _ _ _ _ F1), (pf_act _ _ _ _ F2), S1, S4, S8. apply same_identify. exact S. }
  assert (EQ : forall a b, (a < length (st_act t1))%nat -> (b < length (st_act t1))%nat -> Q1 a b = Q2 a b).
  { intros a b Ha Hb. rewrite H1 by auto. rewrite H2 by (rewrite <- EA; auto). rewrite <- EA.
    transitivity (exact_hessian pb1 (hrow_of pb1 (st_coef s1)) P2 (nth a (st_act t1) 0%nat) (nth b (st_act t1) 0%nat)).
    { unfold exact_hessian. f_equal. apply rsum_ext. intros i Hi. rewrite Z1, (coh_hrows _ _ _ C1) by (auto; lra). reflexivity. }
    rewrite (same_hessian _ _ S), S1. unfold exact_hessian. f_equal. apply rsum_ext. intros i Hi.
    rewrite Z2, (coh_hrows _ _ _ C2) by (auto; lra). reflexivity. }
  unfold cd_solver. unfold enet_coordinate_descent_gram.
  rewrite (loop_ext (cd_args_of pb1 t1 Q1) Q2 EQ _ _ _ _ _ _ (Hs _)).
  assert (EAR : with_Q (cd_args_of pb1 t1 Q1) Q2 = cd_args_of pb2 t2 Q2).
  { unfold with_Q, cd_args_of. cbn. rewrite EA, (sp_P1 _ _ S), (sp_mn _ _ S), (sp_ic _ _ S), (sp_r _ _ S), (sp_lb _ _ S), (sp_ub _ _ S),
      (pf_itol _ _ _ _ F1), (pf_itol _ _ _ _ F2), S9. reflexivity. }
  rewrite EAR. change (cd_max_iter (cd_args_of pb1 t1 Q1)) with (pb_max_inner pb1). rewrite (sp_mn _ _ S). change (pb_max_inner pb2) with (cd_max_iter (cd_args_of pb2 t2 Q2)).
  destruct F1 as [P1 P2' P3 P4 P5 P6 P7 P8 P9 P10 P11 P12 _]. destruct F2 as [R1 R2 R3 R4 R5 R6 R7 R8 R9 R10 R11 R12 _].
  rewrite P1, P2', P3, P4, P5, P6, P7, P8, P11, R1, R2, R3, R4, R5, R6, R7, R8, R11, S1, S3, S4, S10, S13.
  set (r := cd_loop _ _ _ _ _ _ _). set (d := fun k => cr_w r k - st_coef s2 k).
  pose proof (same_line_search pb1 pb2 S L OB ok1 ok2 (st_P2 s2) (st_coef s2) (st_score s2) (st_eta s1) (st_eta s2) (st_obj s2) d) as LS.
  pose proof (coh_eta _ _ _ C1) as E1. pose proof (coh_eta _ _ _ C2) as E2. rewrite S1 in E1. specialize (LS E1 E2).
  destruct (line_search_spec pb1 (st_P2 s2) (st_coef s2) (st_score s2) (st_eta s1) (st_obj s2) d ok1 E1) as [[_ [_ [A3 [A4 [_ A6]]]]] _].
  destruct (line_search_spec pb2 (st_P2 s2) (st_coef s2) (st_score s2) (st_eta s2) (st_obj s2) d ok2 E2) as [[_ [_ [B3 [B4 [_ B6]]]]] _].
  set (r1 := line_search pb1 _ _ _ _ _ _) in *. set (r2 := line_search pb2 _ _ _ _ _ _) in *. destruct LS as [T1 T2 T3 T4 T5 T6 T7]. clearbody r r1 r2.
  rewrite T1 in A3, A4.
  pose proof (quad_same (ls_eta r1) (ls_mu r1) (ls_eta r2) (ls_mu r2) (ls_cP2 r2) (ls_coef r2) A3 A4 B3 B4) as QS. rewrite T4.
  destruct (update_quadratic pb1 _ _ _) as [[g1 sc1] h1]. destruct (update_quadratic pb2 _ _ _) as [[g2 sc2] h2]. cbn [fst snd] in QS. subst sc2.
  rewrite T1, T2, (same_check _ _ S). destruct (check_convergence _ _ _ _) as [[[conv nm] mx] itol].
  constructor; cbn; rewrite ?T6; congruence.
Qed.

Lemma same_loop seed P2 : seeds_ok seed -> forall fuel s1 s2, inv pb1 P2 s1 -> inv pb2 P2 s2 -> st_same s1 s2 ->
  match irls_loop pb1 (cd_solver pb1 seed) fuel s1, irls_loop pb2 (cd_solver pb2 seed) fuel s2 with
  | Some t1, Some t2 => st_same t1 t2
  | _, _ => False
  end.
Proof.
  intros Hs. induction fuel as [|fuel IH]; intros s1 s2 I1 I2 E; [exact E|]. cbn [irls_loop].
  rewrite (ss_niter _ _ E), (ss_conv _ _ E), (sp_mi _ _ S).
  destruct (Z.ltb (st_niter s2) (pb_max_iter pb2) && negb (st_conv s2))%bool; [|exact E].
  pose proof (same_step seed P2 s1 s2 Hs I1 I2 E) as H.
  destruct (irls_step pb1 _ s1) as [t1|] eqn:E1; [|contradiction]. destruct (irls_step pb2 _ s2) as [t2|] eqn:E2; [|contradiction].
  apply IH; [| |exact H].
  - eapply inv_step; eauto. lra.
  - eapply inv_step; eauto. lra.
Qed.

Lemma same_solver seed P2 c : seeds_ok seed ->
  match irls_solver pb1 (cd_solver pb1 seed) P2 c, irls_solver pb2 (cd_solver pb2 seed) P2 c with
  | Some (t1, w1), Some (t2, w2) => st_same t1 t2 /\ w1 = w2
  | _, _ => False
  end.
Proof.
  intros Hs. unfold irls_solver. rewrite (sp_mi _ _ S).
  pose proof (same_loop seed P2 Hs (Datatypes.S (Z.to_nat (pb_max_iter pb2))) _ _ (inv_init pb1 P2 false c ok1) (inv_init pb2 P2 false c ok2) (same_init P2 c)) as H.
  destruct (irls_loop pb1 _ _ _) as [t1|]; [|contradiction]. destruct (irls_loop pb2 _ _ _) as [t2|]; [|contradiction].
  split; [exact H|]. rewrite (ss_conv _ _ H). reflexivity.
Qed.
End Run.
