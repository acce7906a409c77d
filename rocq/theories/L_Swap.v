(** Lemmas for C88: every step of every solver on the exchanged problem is the mirror image of the step on the
    original problem. *)
From Coq Require Import List Lia Lra FunctionalExtensionality ZArith. Import ListNotations.
From Verif Require Import Base M_Std M_Valid M_Fit S_Swap.
From Verif Require Import M_Solver.
Local Open Scope R_scope.

Ltac fe := apply functional_extensionality; intro.

(** ** Scalars *)
Lemma Reqb_opp x : Reqb (- x) 0 = Reqb x 0.
Proof. destruct (Reqb x 0) eqn:E; [apply Reqb_true in E; apply Reqb_true; lra|apply Reqb_false in E; apply Reqb_false; lra]. Qed.
Lemma Reqb_opp2 x y : Reqb (- x) (- y) = Reqb x y.
Proof. destruct (Reqb x y) eqn:E; [apply Reqb_true in E; apply Reqb_true; lra|apply Reqb_false in E; apply Reqb_false; lra]. Qed.
Lemma Rltb_opp2 x y : Rltb (- x) (- y) = Rltb y x.
Proof. destruct (Rltb y x) eqn:E; [apply Rltb_true in E; apply Rltb_true; lra|apply Rltb_false in E; apply Rltb_false; lra]. Qed.
Lemma Rltb_0_opp x : Rltb 0 (- x) = Rltb x 0.
Proof. rewrite <- (Rltb_opp2 0 x), Ropp_0. reflexivity. Qed.
Lemma Rltb_opp_0 x : Rltb (- x) 0 = Rltb 0 x.
Proof. rewrite <- (Rltb_opp2 x 0), Ropp_0. reflexivity. Qed.
Lemma fsign_opp x : fsign (- x) = - fsign x.
Proof.
  unfold fsign. rewrite Reqb_opp, Rltb_0_opp. destruct (Reqb x 0) eqn:E; [lra|]. apply Reqb_false in E.
  destruct (Rltb x 0) eqn:E1, (Rltb 0 x) eqn:E2; try lra;
    repeat match goal with H : Rltb _ _ = true |- _ => apply Rltb_true in H | H : Rltb _ _ = false |- _ => apply Rltb_false in H end; lra.
Qed.
Lemma neg_neg v : negv (negv v) = v.
Proof. fe. unfold negv. ring. Qed.
Lemma at_bound_opp x b : at_bound (- x) (option_map Ropp b) = at_bound x b.
Proof. destruct b; simpl; [apply Reqb_opp2|reflexivity]. Qed.
Lemma subgrad_term_opp c g P l h :
  subgrad_term (- c) (- g) P (option_map Ropp h) (option_map Ropp l) = - subgrad_term c g P l h.
Proof.
  unfold subgrad_term. rewrite Reqb_opp, !fsign_opp, Rabs_Ropp, !at_bound_opp.
  set (t0 := if Reqb c 0 then fsign g * fmax (Rabs g - P) 0 else g + fsign c * P).
  replace (if Reqb c 0 then - fsign g * fmax (Rabs g - P) 0 else - g + - fsign c * P) with (- t0)
    by (unfold t0; destruct (Reqb c 0); ring).
  clearbody t0. rewrite Rltb_0_opp.
  destruct (at_bound c l), (at_bound c h); cbn [andb];
    repeat (match goal with |- context [if Rltb ?a ?b then _ else _] => destruct (Rltb a b) eqn:? end);
    repeat match goal with H : Rltb _ _ = true |- _ => apply Rltb_true in H | H : Rltb _ _ = false |- _ => apply Rltb_false in H end; lra.
Qed.

(** ** Coordinate descent *)
Lemma norm_loop_opp act coef grad P1 ic lb ub nm mx :
  norm_loop act (negv coef) (negv grad) P1 ic (neg_bounds ub) (neg_bounds lb) nm mx = norm_loop act coef grad P1 ic lb ub nm mx.
Proof.
  assert (G : Rabs (negv grad 0%nat) = Rabs (grad 0%nat)) by apply Rabs_Ropp.
  assert (T : forall i j, Rabs (subgrad_term (negv coef i) (negv grad i) (P1 j) (neg_bounds ub j) (neg_bounds lb j))
     = Rabs (subgrad_term (coef i) (grad i) (P1 j) (lb j) (ub j))).
  { intros i j. unfold negv, neg_bounds. rewrite subgrad_term_opp. apply Rabs_Ropp. }
  revert nm mx. induction act as [|i act IH]; intros nm mx; [reflexivity|]. cbn [norm_loop].
  destruct (Nat.ltb i (ioff ic)).
  - rewrite IH, G. reflexivity.
  - rewrite T. apply IH.
Qed.
Definition swapped_args (a : cd_args) : cd_args :=
  mkCD (cd_act a) (cd_P1 a) (cd_Q a) (cd_max_iter a) (cd_tol a) (cd_ic a) (cd_random a)
       (neg_bounds (cd_ub a)) (neg_bounds (cd_lb a)) (cd_eps a).
Definition swapped_cs (s : cd_state) : cd_state := mkCS (negv (cs_w s)) (negv (cs_q s)) (cs_wmax s) (cs_dwmax s).
Definition ord (lb ub : bounds) : Prop := forall j l h, lb j = Some l -> ub j = Some h -> l <= h.
Lemma upd_neg f i v : upd (negv f) i (- v) = negv (upd f i v).
Proof. fe. unfold upd, negv. destruct (Nat.eqb x i); reflexivity. Qed.
Lemma cd_clip_opp a ii x : ord (cd_lb a) (cd_ub a) -> cd_clip (swapped_args a) ii (- x) = - cd_clip a ii x.
Proof.
  intros HO. unfold cd_clip. cbn [swapped_args cd_ic cd_lb cd_ub]. destruct (Nat.leb (ioff (cd_ic a)) ii); [|reflexivity].
  unfold neg_bounds. specialize (HO (ii - ioff (cd_ic a))%nat).
  destruct (cd_lb a (ii - ioff (cd_ic a))%nat) as [l|], (cd_ub a (ii - ioff (cd_ic a))%nat) as [h|]; cbn [option_map below above bnd_val].
  - specialize (HO l h eq_refl eq_refl). unfold Rltb. repeat destruct (Rlt_dec _ _); lra.
  - rewrite Rltb_opp2. destruct (Rltb x l); reflexivity.
  - rewrite Rltb_opp2. destruct (Rltb h x); reflexivity.
  - reflexivity.
Qed.
Lemma cd_update_q_opp a k dw q : cd_update_q (swapped_args a) k (- dw) (negv q) = negv (cd_update_q a k dw q).
Proof.
  unfold cd_update_q. cbn [swapped_args cd_act cd_Q]. generalize (seq 0 (length (cd_act a))). intros l. revert q.
  induction l as [|j l IH]; intros q; [reflexivity|]. cbn [fold_left]. rewrite <- IH. f_equal.
  rewrite <- upd_neg. f_equal. unfold negv. ring.
Qed.
Lemma cd_visit_opp a k s : ord (cd_lb a) (cd_ub a) -> cd_visit (swapped_args a) k (swapped_cs s) = swapped_cs (cd_visit a k s).
Proof.
  intros HO. unfold cd_visit. cbn [swapped_args cd_act cd_P1 cd_Q cd_ic cd_eps swapped_cs cs_w cs_q cs_wmax cs_dwmax].
  destruct (Rleb (cd_Q a k k) (cd_eps a)); [reflexivity|].
  set (ii := nth k (cd_act a) 0%nat). set (Qk := cd_Q a k k). set (p := cd_pen (cd_P1 a) (cd_ic a) ii).
  set (qt := cs_q s ii - cs_w s ii * Qk).
  assert (E1 : negv (cs_q s) ii - negv (cs_w s) ii * Qk = - qt) by (unfold negv, qt; ring). rewrite E1.
  assert (E2 : fsign (- - qt) * fmax (Rabs (- qt) - p) 0 / Qk = - (fsign (- qt) * fmax (Rabs qt - p) 0 / Qk)).
  { rewrite (fsign_opp (- qt)), Rabs_Ropp. unfold Rdiv. ring. }
  rewrite E2, cd_clip_opp by exact HO. set (w2 := cd_clip a ii (fsign (- qt) * fmax (Rabs qt - p) 0 / Qk)).
  rewrite Reqb_opp. change (negv (cs_w s) ii) with (- cs_w s ii). rewrite Reqb_opp.
  replace (- w2 - - cs_w s ii) with (- (w2 - cs_w s ii)) by ring. rewrite !Rabs_Ropp, upd_neg, cd_update_q_opp.
  destruct (negb (Reqb w2 0) || negb (Reqb (cs_w s ii) 0))%bool; reflexivity.
Qed.
Lemma cd_sweep_opp a m : ord (cd_lb a) (cd_ub a) -> forall f seed s,
  cd_sweep (swapped_args a) m f seed (swapped_cs s) = let (sd, t) := cd_sweep a m f seed s in (sd, swapped_cs t).
Proof.
  intros HO. induction m as [|m IH]; intros f seed s; [reflexivity|]. cbn [cd_sweep swapped_args cd_random cd_act].
  destruct (if cd_random a then rand_int (length (cd_act a)) seed else (f, seed)) as [k sd]. rewrite cd_visit_opp by exact HO. apply IH.
Qed.
Lemma cd_loop_opp a : ord (cd_lb a) (cd_ub a) -> forall m n seed nm w q,
  cd_loop (swapped_args a) m n seed nm (negv w) (negv q) =
  let r := cd_loop a m n seed nm w q in mkCR (negv (cr_w r)) (negv (cr_q r)) (cr_norm r) (cr_cycles r) (cr_warn r).
Proof.
  intros HO. induction m as [|m IH]; intros n seed nm w q; [reflexivity|]. cbn [cd_loop swapped_args cd_act cd_tol cd_P1 cd_ic cd_lb cd_ub].
  pose proof (cd_sweep_opp a (length (cd_act a)) HO 0 seed (mkCS w q 0 0)) as E.
  unfold swapped_cs at 1 in E. cbn [cs_w cs_q cs_wmax cs_dwmax] in E.
  change (mkCD (cd_act a) (cd_P1 a) (cd_Q a) (cd_max_iter a) (cd_tol a) (cd_ic a) (cd_random a) (neg_bounds (cd_ub a)) (neg_bounds (cd_lb a)) (cd_eps a)) with (swapped_args a).
  rewrite E. destruct (cd_sweep a (length (cd_act a)) 0 seed (mkCS w q 0 0)) as [sd t].
  unfold norm_min_subgrad. cbn [swapped_cs cs_w cs_q cs_wmax cs_dwmax]. rewrite norm_loop_opp.
  destruct (Reqb (cs_wmax t) 0 || Rltb (cs_dwmax t / cs_wmax t) (cd_tol a) || Nat.eqb m 0)%bool; [|apply IH].
  destruct (Rleb _ (cd_tol a)); [reflexivity|apply IH].
Qed.

(** ** The problem *)
Definition swapped_pb (pb : problem) : problem :=
  mkPb (pb_n pb) (pb_p pb) (pb_X pb) (compl (pb_n pb) (pb_y pb)) (pb_w pb) (negv (pb_off pb)) (pb_ic pb) (pb_fam pb) (pb_link pb)
       (pb_P1 pb) (pb_max_iter pb) (pb_max_inner pb) (pb_gtol pb) (pb_stol pb) (pb_approx pb) (pb_fixed_tol pb) (pb_random pb)
       (neg_bounds (pb_ub pb)) (neg_bounds (pb_lb pb)) (pb_has_bounds pb) (pb_large pb) (pb_eps pb).
Lemma compl_lt n v i : (i < n)%nat -> compl n v i = 1 - v i.
Proof. intros H. unfold compl. apply Nat.ltb_lt in H. rewrite H. reflexivity. Qed.

Lemma rsum_neg n f g : (forall i, (i < n)%nat -> f i = - g i) -> rsum n f = - rsum n g.
Proof. intros H. rewrite <- rsum_opp. apply rsum_ext, H. Qed.
Lemma lin_pred_opp pb c i : lin_pred (swapped_pb pb) (negv c) i = - lin_pred pb c i.
Proof.
  unfold lin_pred. cbn [swapped_pb pb_ic pb_p pb_X]. rewrite (rsum_neg _ _ (fun j => pb_X pb i j * c (ioff (pb_ic pb) + j)%nat)).
  - destruct (pb_ic pb); unfold negv; ring.
  - intros j _. unfold negv. ring.
Qed.
Lemma make_coef_P2_opp pb P2 c : make_coef_P2 (swapped_pb pb) P2 (negv c) = negv (make_coef_P2 pb P2 c).
Proof.
  fe. unfold make_coef_P2, negv at 3. cbn [swapped_pb pb_ic pb_p]. destruct (Nat.ltb x (ioff (pb_ic pb))); [ring|]. destruct P2.
  - unfold negv. ring.
  - apply rsum_neg. intros i _. unfold negv. ring.
Qed.
Lemma l1_pen_opp pb c : l1_pen (swapped_pb pb) (negv c) = l1_pen pb c.
Proof. unfold l1_pen. cbn [swapped_pb pb_ic pb_p pb_P1]. apply rsum_ext. intros j _. unfold negv.
  rewrite <- (Rabs_Ropp (pb_P1 pb j * c _)). f_equal. ring. Qed.
Lemma dot_neg n a b : dot n (negv a) (negv b) = dot n a b.
Proof. apply rsum_ext. intros i _. unfold negv. ring. Qed.

(** ** Rows of a logit model *)
Lemma mu_opp e : binomial_logit_mu (- e) = 1 - binomial_logit_mu e.
Proof.
  unfold binomial_logit_mu. assert (0 < exp e) by apply exp_pos. assert (0 < exp (- e)) by apply exp_pos.
  destruct (Rlt_dec 0 (- e)), (Rlt_dec 0 e); try lra; rewrite ?Ropp_involutive.
  - field. lra.
  - field. lra.
  - replace e with 0 by lra. rewrite Ropp_0, exp_0. field.
Qed.
Lemma mu_range e : 0 < binomial_logit_mu e < 1.
Proof.
  unfold binomial_logit_mu. assert (0 < exp e) by apply exp_pos. assert (0 < exp (- e)) by apply exp_pos.
  destruct (Rlt_dec 0 e); split.
  - apply Rdiv_lt_0_compat; lra.
  - apply Rlt_div_l; lra.
  - apply Rdiv_lt_0_compat; lra.
  - apply Rlt_div_l; lra.
Qed.
Definition swapped_srow (s : srow) : srow := mksrow (- s_eta s) (- s_xd s) (1 - s_y s) (s_w s).
Lemma emd_opp f l : binomial_logit_emd f (map swapped_srow l) =
  let '(e, m, d) := binomial_logit_emd f l in (map Ropp e, map (fun x => 1 - x) m, d).
Proof.
  unfold binomial_logit_emd. rewrite !map_map.
  assert (NE : forall s, new_eta f (swapped_srow s) = - new_eta f s) by (intros s; unfold new_eta; cbn; ring).
  assert (P3 : forall (A A1 B B1 : list R) (c c1 : R), A = A1 -> B = B1 -> c = c1 -> (A, B, c) = (A1, B1, c1)) by (intros; subst; reflexivity).
  apply P3.
  - apply map_ext. exact NE.
  - apply map_ext. intros s. rewrite NE. apply mu_opp.
  - rewrite lsumf_map. apply (f_equal (fun z => -2 * z)). apply lsumf_ext. intros s _. cbv zeta. rewrite NE. cbn [swapped_srow s_w s_y].
    set (e := new_eta f s). rewrite Ropp_involutive.
    destruct (Rlt_dec 0 (- e)), (Rlt_dec 0 e); try lra; try ring.
    replace e with 0 by lra. rewrite Ropp_0. ring.
Qed.
Lemma vec_opp l : vec (map Ropp l) = negv (vec l).
Proof. fe. unfold vec, negv. rewrite <- (map_nth Ropp l 0 x), Ropp_0. reflexivity. Qed.
Lemma vec_compl l n : length l = n -> vec (map (fun x => 1 - x) l) = compl n (vec l).
Proof.
  intros L. fe. unfold vec, compl. destruct (Nat.ltb x n) eqn:E.
  - apply Nat.ltb_lt in E. rewrite (nth_indep _ 0 (1 - 0)) by (rewrite map_length; lia). exact (map_nth (fun x => 1 - x) l 0 x).
  - apply Nat.ltb_ge in E. rewrite !nth_overflow by (rewrite ?map_length; lia). reflexivity.
Qed.

Section Logit.
Variable pb : problem.
Hypothesis HF : pb_fam pb = BinomialF.
Hypothesis HL : pb_link pb = LogitL.
Notation pb' := (swapped_pb pb).
Notation n := (pb_n pb).

Lemma objective_opp P2 xd f c eta :
  eta_mu_objective pb' P2 (negv xd) f (negv c) (negv eta) =
  let '(e, m, o, cp) := eta_mu_objective pb P2 xd f c eta in (negv e, compl n m, o, negv cp).
Proof.
  unfold eta_mu_objective. cbn [swapped_pb pb_fam pb_link]. rewrite HF, HL. cbn [eta_mu_deviance].
  assert (S : srows pb' (negv eta) (negv xd) = map swapped_srow (srows pb eta xd)) by (unfold srows; rewrite map_map; apply map_ext_in;
    intros i Hi; apply in_seq in Hi; unfold swapped_srow; cbn [s_eta s_xd s_y s_w]; cbn [swapped_pb pb_y pb_w]; rewrite compl_lt by lia; reflexivity).
  rewrite S, emd_opp.
  destruct (binomial_logit_emd f (srows pb eta xd)) as [[e m] d] eqn:E.
  assert (LM : length m = n).
  { assert (X : m = snd (fst (binomial_logit_emd f (srows pb eta xd)))) by (rewrite E; reflexivity).
    rewrite X. unfold binomial_logit_emd, srows. cbn [fst snd]. rewrite !map_length, seq_length. reflexivity. }
  rewrite vec_opp, (vec_compl m n LM), l1_pen_opp, make_coef_P2_opp. change (nc pb') with (nc pb). rewrite dot_neg. reflexivity.
Qed.
(** the means handed back lie in (0, 1) *)
Lemma objective_mu P2 xd f c eta : forall i, (i < n)%nat -> 0 < snd (fst (fst (eta_mu_objective pb P2 xd f c eta))) i < 1.
Proof.
  intros i Hi. unfold eta_mu_objective. rewrite HF, HL. cbn [eta_mu_deviance binomial_logit_emd fst snd].
  unfold vec. rewrite (nth_indep _ 0 (binomial_logit_mu (new_eta f (mksrow 0 0 0 0)))) by (unfold srows; rewrite !map_length, seq_length; lia).
  rewrite (map_nth (fun s => binomial_logit_mu (new_eta f s))). apply mu_range.
Qed.

Lemma xt_vec_opp g g' : (forall i, (i < n)%nat -> g' i = - g i) -> forall k, xt_vec pb' g' k = - xt_vec pb g k.
Proof.
  intros H k. unfold xt_vec. cbn [swapped_pb pb_ic pb_n pb_X]. destruct (Nat.ltb k (ioff (pb_ic pb))).
  - apply rsum_neg, H.
  - apply rsum_neg. intros i Hi. rewrite H by exact Hi. ring.
Qed.
Lemma quadratic_opp eta mu cp :
  snd (fst (update_quadratic pb' (negv eta) (compl n mu) (negv cp))) = negv (snd (fst (update_quadratic pb eta mu cp))) /\
  snd (update_quadratic pb' (negv eta) (compl n mu) (negv cp)) = snd (update_quadratic pb eta mu cp).
Proof.
  unfold update_quadratic. cbn [fst snd swapped_pb pb_fam pb_link pb_y pb_w]. rewrite HF, HL.
  unfold gradient_row, hessian_row. cbn [rowwise binomial_logit_rows fst snd]. split.
  - fe. unfold negv at 2. cbn [swapped_pb].
    rewrite (xt_vec_opp (fun i => pb_w pb i * (pb_y pb i - mu i))).
    + unfold negv. ring.
    + intros i Hi. rewrite !compl_lt by exact Hi. ring.
  - fe. unfold compl. destruct (Nat.ltb x n); ring.
Qed.
Lemma check_opp c step step' score : (forall k, step' k * step' k = step k * step k) ->
  check_convergence pb' (negv c) step' (negv score) = check_convergence pb c step score.
Proof.
  intros HS. unfold check_convergence. change (nc pb') with (nc pb). cbn [swapped_pb pb_P1 pb_ic pb_lb pb_ub pb_gtol pb_stol pb_fixed_tol].
  unfold norm_min_subgrad. change (fun k => - negv score k) with (negv (fun k => - score k)). rewrite norm_loop_opp.
  rewrite (rsum_ext (nc pb) (fun k => step' k * step' k) (fun k => step k * step k)) by (intros; apply HS). reflexivity.
Qed.
Lemma active_opp c score mx : identify_active_set pb' (negv c) (negv score) mx = identify_active_set pb c score mx.
Proof.
  unfold identify_active_set. cbn [swapped_pb pb_ic pb_p]. f_equal. f_equal. apply filter_ext. intros j. unfold is_active.
  cbn [swapped_pb pb_ic pb_P1]. unfold negv. rewrite Reqb_opp. destruct mx; [rewrite Rabs_Ropp|]; reflexivity.
Qed.
Lemma trial_opp eta mu cp : trial_grad_norm pb' (negv eta) (compl n mu) (negv cp) = trial_grad_norm pb eta mu cp.
Proof.
  unfold trial_grad_norm. change (nc pb') with (nc pb). apply rsum_ext. intros k _.
  rewrite <- (Rabs_Ropp (xt_vec pb _ k - cp k)). f_equal. unfold negv at 3.
  rewrite (xt_vec_opp (fun i => inverse_derivative (pb_link pb) (eta i) * one_over_variance (pb_fam pb) (pb_link pb) (mu i) (eta i) 1 (pb_w pb i) * (pb_y pb i - mu i))); [ring|].
  intros i Hi. cbn [swapped_pb pb_fam pb_link pb_y pb_w]. rewrite HF, HL. cbn [inverse_derivative one_over_variance].
  rewrite !compl_lt by exact Hi. unfold negv. rewrite Ropp_involutive.
  assert (EX : expit (- eta i) = 1 - expit (eta i)).
  { unfold expit. rewrite Ropp_involutive. assert (0 < exp (eta i)) by apply exp_pos. rewrite exp_Ropp. field. split; lra. }
  cbv zeta. rewrite EX. unfold Rdiv. ring.
Qed.

(** ** Line search *)
Hypothesis HLarge : 1 <= pb_large pb.
Definition swapped_ls (r : ls_result) : ls_result :=
  mkLs (negv (ls_coef r)) (negv (ls_step r)) (negv (ls_eta r)) (compl n (ls_mu r)) (ls_obj r) (negv (ls_cP2 r)) (ls_k r) (ls_warn r) (ls_factor r).
Lemma ls_loop_opp P2 c score eta obj d xd bound m : forall k f,
  ls_loop pb' P2 (negv c) (negv score) (negv eta) obj (negv d) (negv xd) bound m k f =
  swapped_ls (ls_loop pb P2 c score eta obj d xd bound m k f).
Proof.
  assert (VS : forall f, vadd (negv c) (vscale f (negv d)) = negv (vadd c (vscale f d))) by (intros f; fe; unfold vadd, vscale, negv; ring).
  assert (VS2 : forall f, vscale f (negv d) = negv (vscale f d)) by (intros f; fe; unfold vscale, negv; ring).
  induction m as [|m IH]; intros k f; cbn [ls_loop]; rewrite VS, objective_opp;
    pose proof (objective_mu P2 xd f (vadd c (vscale f d)) eta) as MU;
    destruct (eta_mu_objective pb P2 xd f (vadd c (vscale f d)) eta) as [[[e mu] o] cp]; cbn [fst snd] in MU.
  all: change (pb_n pb') with n; change (pb_large pb') with (pb_large pb); change (pb_eps pb') with (pb_eps pb); change (nc pb') with (nc pb).
  all: rewrite (proj2 (forallb_forall (fun i => Rltb (compl n mu i) (pb_large pb)) (seq 0 n)))
      by (intros i Hi; apply in_seq in Hi; unfold compl; rewrite (proj2 (Nat.ltb_lt i n)) by lia; apply Rltb_true; specialize (MU i ltac:(lia)); lra).
  all: rewrite (proj2 (forallb_forall (fun i => Rltb (mu i) (pb_large pb)) (seq 0 n)))
      by (intros i Hi; apply in_seq in Hi; apply Rltb_true; specialize (MU i ltac:(lia)); lra).
  all: rewrite trial_opp, VS2.
  all: rewrite (rsum_ext (nc pb) (fun i => Rabs (negv score i)) (fun i => Rabs (score i))) by (intros i _; unfold negv; apply Rabs_Ropp).
  all: cbn [andb]; destruct (Rleb (o - obj) (f * bound)); [reflexivity|].
  all: destruct (Rleb (Rabs (o - obj)) (Rabs (obj * pb_eps pb)) && _)%bool; [reflexivity|].
  - reflexivity.
  - apply IH.
Qed.
Lemma line_search_opp P2 c score eta obj d :
  line_search pb' P2 (negv c) (negv score) (negv eta) obj (negv d) = swapped_ls (line_search pb P2 c score eta obj d).
Proof.
  unfold line_search. replace (lin_pred pb' (negv d)) with (negv (lin_pred pb d)) by (fe; rewrite lin_pred_opp; reflexivity).
  replace (ls_bound pb' (negv c) (negv score) (negv d)) with (ls_bound pb c score d); [apply ls_loop_opp|].
  unfold ls_bound. change (nc pb') with (nc pb). rewrite dot_neg.
  replace (vadd (negv c) (negv d)) with (negv (vadd c d)) by (fe; unfold vadd, negv; ring). rewrite !l1_pen_opp. reflexivity.
Qed.

(** ** Iterations *)
Definition swapped_st (step : nat -> R) (s : state) : state :=
  mkSt (negv (st_coef s)) step (negv (st_eta s)) (compl n (st_mu s)) (st_obj s) (negv (st_score s)) (st_hrows s) (st_old_hrows s)
       (st_hess s) (st_hinit s) (st_act s) (st_old_act s) (st_conv s) (st_norm s) (st_max s) (st_itol s)
       (st_niter s) (st_ncycles s) (st_nls s) (st_P2 s) (st_diag s) (st_lswarn s).
Definition mirror (s s' : state) : Prop :=
  exists step, (forall k, step k * step k = st_step s k * st_step s k) /\ s' = swapped_st step s.
Definition inner_odd (inner inner' : inner_solver) : Prop := forall step s H,
  inner' (swapped_st step s) H = option_map (fun dc => (negv (fst dc), snd dc)) (inner s H).
Lemma init_opp P2 mono c : mirror (init_state pb P2 mono c) (init_state pb' P2 mono (negv c)).
Proof.
  unfold init_state.
  replace (fun i => lin_pred pb' (negv c) i + pb_off pb' i) with (negv (fun i => lin_pred pb c i + pb_off pb i))
    by (fe; rewrite lin_pred_opp; cbn [swapped_pb pb_off]; unfold negv; ring).
  pose proof (objective_opp P2 (fun i => lin_pred pb c i + pb_off pb i) 1 c (fun _ => 0)) as EO.
  replace (negv (fun _ => 0)) with (fun _ : nat => 0) in EO by (fe; unfold negv; ring).
  rewrite EO. clear EO. destruct (eta_mu_objective pb P2 _ 1 c (fun _ => 0)) as [[[e mu] o] cp].
  pose proof (quadratic_opp e mu cp) as [Q1 Q2].
  destruct (update_quadratic pb e mu cp) as [[g sc] h]. destruct (update_quadratic pb' (negv e) (compl n mu) (negv cp)) as [[g' sc'] h'].
  cbn [fst snd] in Q1, Q2. subst sc' h'. rewrite (check_opp c (fun _ => match pb_stol pb with Some t => t | None => 0 end)) by reflexivity.
  destruct (check_convergence pb c _ sc) as [[[cv nm] mx] it].
  eexists. split; [|reflexivity]. intros k. reflexivity.
Qed.
Lemma prepare_opp step s : prepare pb' (swapped_st step s) = let '(s1, H) := prepare pb s in (swapped_st step s1, H).
Proof.
  unfold prepare. cbn [swapped_st st_coef st_score st_max st_act st_hess st_hinit st_hrows st_old_hrows st_P2]. rewrite active_opp.
  set (act := identify_active_set pb _ _ _).
  change (update_hessian pb' (st_hess s) (st_hinit s) (st_act s) act (st_hrows s) (st_old_hrows s) (st_P2 s))
    with (update_hessian pb (st_hess s) (st_hinit s) (st_act s) act (st_hrows s) (st_old_hrows s) (st_P2 s)).
  destruct (update_hessian pb _ _ _ _ _ _ _) as [[[a b] c0] d]. reflexivity.
Qed.
Lemma prepare_step s : st_step (fst (prepare pb s)) = st_step s.
Proof. unfold prepare. destruct (update_hessian pb _ _ _ _ _ _ _) as [[[a b] c0] d]. reflexivity. Qed.
Definition mirror_opt (a b : option state) : Prop :=
  match a, b with Some s, Some s' => mirror s s' | None, None => True | _, _ => False end.
Lemma irls_step_opp inner inner' s s' : inner_odd inner inner' -> mirror s s' ->
  mirror_opt (irls_step pb inner s) (irls_step pb' inner' s').
Proof.
  intros HI (step & HS & ->). unfold irls_step. rewrite prepare_opp. destruct (prepare pb s) as [s1 H].
  rewrite HI. destruct (inner s1 H) as [[d cyc]|]; cbn [option_map fst snd]; [|exact I].
  cbn [swapped_st st_P2 st_coef st_score st_eta st_obj]. rewrite line_search_opp.
  set (r := line_search pb (st_P2 s1) (st_coef s1) (st_score s1) (st_eta s1) (st_obj s1) d).
  cbn [swapped_ls ls_eta ls_mu ls_cP2 ls_coef ls_step ls_obj ls_k ls_warn].
  pose proof (quadratic_opp (ls_eta r) (ls_mu r) (ls_cP2 r)) as [Q1 Q2].
  destruct (update_quadratic pb (ls_eta r) (ls_mu r) (ls_cP2 r)) as [[g sc] h].
  destruct (update_quadratic pb' (negv (ls_eta r)) (compl n (ls_mu r)) (negv (ls_cP2 r))) as [[g' sc'] h'].
  cbn [fst snd] in Q1, Q2. subst sc' h'.
  rewrite (check_opp (ls_coef r) (ls_step r)) by (intros k; unfold negv; ring).
  destruct (check_convergence pb (ls_coef r) (ls_step r) sc) as [[[cv nm] mx] it].
  exists (negv (ls_step r)). split; [intros k; cbn; unfold negv; ring|reflexivity].
Qed.
Lemma irls_loop_opp inner inner' : inner_odd inner inner' -> forall fuel s s', mirror s s' ->
  mirror_opt (irls_loop pb inner fuel s) (irls_loop pb' inner' fuel s').
Proof.
  intros HI. induction fuel as [|f IH]; intros s s' HM; cbn [irls_loop]; [exact HM|].
  pose proof (irls_step_opp inner inner' s s' HI HM) as ST.
  destruct HM as (step & HS & ->). change (pb_max_iter pb') with (pb_max_iter pb).
  change (st_niter (swapped_st step s)) with (st_niter s). change (st_conv (swapped_st step s)) with (st_conv s).
  destruct (Z.ltb (st_niter s) (pb_max_iter pb) && negb (st_conv s))%bool.
  - destruct (irls_step pb inner s) as [t|], (irls_step pb' inner' (swapped_st step s)) as [t'|]; try contradiction; [apply IH, ST|exact I].
  - exists step. auto.
Qed.
Lemma irls_solver_opp inner inner' P2 c : inner_odd inner inner' ->
  match irls_solver pb inner P2 c, irls_solver pb' inner' P2 (negv c) with
  | Some (s, w), Some (s', w') => mirror s s' /\ w = w'
  | None, None => True
  | _, _ => False
  end.
Proof.
  intros HI. unfold irls_solver. change (pb_max_iter pb') with (pb_max_iter pb).
  pose proof (irls_loop_opp inner inner' HI (S (Z.to_nat (pb_max_iter pb))) _ _ (init_opp P2 false c)) as L.
  destruct (irls_loop pb inner _ _) as [s|], (irls_loop pb' inner' _ _) as [s'|]; try contradiction; [|exact I].
  split; [exact L|]. destruct L as (step & _ & ->). reflexivity.
Qed.

(** ** Inner solvers *)
Lemma cd_odd seed : ord (pb_lb pb) (pb_ub pb) -> inner_odd (cd_solver pb seed) (cd_solver pb' seed).
Proof.
  intros HO step s H. unfold cd_solver. cbn [option_map fst snd swapped_st st_niter st_coef st_score].
  change (cd_args_of pb' (swapped_st step s) H) with (swapped_args (cd_args_of pb s H)).
  change (fun k => - negv (st_score s) k) with (negv (fun k => - st_score s k)).
  unfold enet_coordinate_descent_gram. rewrite cd_loop_opp by exact HO. cbn [cr_w cr_cycles swapped_args cd_max_iter].
  f_equal. f_equal. fe. unfold negv. ring.
Qed.
Lemma ls_odd solve : (forall n A b, solve n A (negv b) = option_map negv (solve n A b)) -> inner_odd (ls_solver pb solve) (ls_solver pb' solve).
Proof.
  intros HO step s H. unfold ls_solver. change (nc pb') with (nc pb). cbn [swapped_pb pb_has_bounds swapped_st st_act st_score].
  destruct (pb_has_bounds pb); [reflexivity|]. destruct (Nat.eqb _ _); [|reflexivity]. rewrite HO.
  destruct (solve (nc pb) H (st_score s)); reflexivity.
Qed.

(** ** The monotonic solver *)
Lemma iq_val_opp q c r : iq_val pb' (swapped_ineq q) (negv c) r = iq_val pb q c r.
Proof. unfold iq_val. cbn [swapped_pb pb_p pb_ic swapped_ineq iq_A iq_b]. f_equal. apply rsum_ext. intros j _. unfold negv. ring. Qed.
Lemma any_gt_opp q c t : any_gt pb' (swapped_ineq q) (negv c) t = any_gt pb q c t.
Proof.
  unfold any_gt. cbn [swapped_ineq iq_m]. induction (seq 0 (iq_m q)) as [|r l IH]; [reflexivity|]. cbn [existsb].
  change (mkIneq (iq_m q) (fun r j => - iq_A q r j) (iq_b q)) with (swapped_ineq q) in *. rewrite iq_val_opp, IH. reflexivity.
Qed.
Lemma ucp_opp q P2 b c lam : update_constraint_penalty pb' (swapped_ineq q) P2 b (negv c) lam = update_constraint_penalty pb q P2 b c lam.
Proof.
  unfold update_constraint_penalty, build_monotonic_penalty. rewrite any_gt_opp. destruct (any_gt pb q c 0); [|reflexivity].
  assert (E : (fun i j => lam * lsumf (fun r => iq_A (swapped_ineq q) r i * iq_A (swapped_ineq q) r j)
        (filter (fun r => Rltb 0 (iq_val pb' (swapped_ineq q) (negv c) r)) (seq 0 (iq_m (swapped_ineq q)))))
     = (fun i j => lam * lsumf (fun r => iq_A q r i * iq_A q r j) (filter (fun r => Rltb 0 (iq_val pb q c r)) (seq 0 (iq_m q))))).
  { fe. fe. f_equal. cbn [swapped_ineq iq_m].
    rewrite (filter_ext (fun r => Rltb 0 (iq_val pb' (mkIneq (iq_m q) (fun r j => - iq_A q r j) (iq_b q)) (negv c) r)) (fun r => Rltb 0 (iq_val pb q c r)))
      by (intros r; fold (swapped_ineq q); rewrite iq_val_opp; reflexivity).
    apply lsumf_ext. intros r _. cbn [swapped_ineq iq_A]. ring. }
  apply (f_equal (fun F : nat -> nat -> R => (P2mat (fun i j => p2_entry P2 i j + F i j), false, true)) E).
Qed.
Definition mirror_ms (m m' : mstate) : Prop := mirror (ms_st m) (ms_st m') /\ ms_lam m' = ms_lam m /\ ms_base m' = ms_base m.
Lemma mono_step_opp inner inner' q P2 lf lm m m' : inner_odd inner inner' -> mirror_ms m m' ->
  match mono_step pb inner q P2 lf lm m, mono_step pb' inner' (swapped_ineq q) P2 lf lm m' with
  | Some a, Some b => mirror_ms a b | None, None => True | _, _ => False end.
Proof.
  intros HI ((step & HS & E) & EL & EB). unfold mono_step. rewrite E, EL, EB. cbn [swapped_st st_coef]. rewrite any_gt_opp.
  set (lam := if any_gt pb q (st_coef (ms_st m)) 0 then _ else _). rewrite ucp_opp.
  destruct (update_constraint_penalty pb q P2 (ms_base m) (st_coef (ms_st m)) lam) as [[P base] ch].
  change (set_P2 (swapped_st step (ms_st m)) P (if ch then false else st_hinit (swapped_st step (ms_st m))))
    with (swapped_st step (set_P2 (ms_st m) P (if ch then false else st_hinit (ms_st m)))).
  pose proof (irls_step_opp inner inner' (set_P2 (ms_st m) P (if ch then false else st_hinit (ms_st m)))
     (swapped_st step (set_P2 (ms_st m) P (if ch then false else st_hinit (ms_st m)))) HI (ex_intro _ step (conj HS eq_refl))) as ST.
  destruct (irls_step pb inner _) as [t|], (irls_step pb' inner' _) as [t'|]; try contradiction; [|exact I].
  destruct ST as (st2 & HS2 & ->). cbn [swapped_st st_conv st_coef]. rewrite any_gt_opp.
  destruct (st_conv t && any_gt pb q (st_coef t) (1 / 1000000))%bool; (split; [exists st2; split; [exact HS2|reflexivity]|split; reflexivity]).
Qed.
Lemma mono_loop_opp inner inner' q P2 lf lm : inner_odd inner inner' -> forall fuel m m', mirror_ms m m' ->
  match mono_loop pb inner q P2 lf lm fuel m, mono_loop pb' inner' (swapped_ineq q) P2 lf lm fuel m' with
  | Some a, Some b => mirror_ms a b | None, None => True | _, _ => False end.
Proof.
  intros HI. induction fuel as [|f IH]; intros m m' HM; cbn [mono_loop]; [exact HM|].
  pose proof (mono_step_opp inner inner' q P2 lf lm m m' HI HM) as ST.
  assert (N : st_niter (ms_st m') = st_niter (ms_st m) /\ st_conv (ms_st m') = st_conv (ms_st m)).
  { destruct HM as ((step & _ & ->) & _). split; reflexivity. }
  destruct N as [-> ->]. change (pb_max_iter pb') with (pb_max_iter pb).
  destruct (Z.ltb _ _ && _)%bool; [|exact HM].
  destruct (mono_step pb inner q P2 lf lm m) as [t|], (mono_step pb' inner' (swapped_ineq q) P2 lf lm m') as [t'|]; try contradiction; [apply IH, ST|exact I].
Qed.
Lemma mono_solver_opp inner inner' q P2 ls lm lf c : inner_odd inner inner' ->
  match monotonic_irls_solver pb inner q P2 ls lm lf c, monotonic_irls_solver pb' inner' (swapped_ineq q) P2 ls lm lf (negv c) with
  | Some (m, a, b), Some (m', a', b') => mirror (ms_st m) (ms_st m') /\ a = a' /\ b = b'
  | None, None => True | _, _ => False end.
Proof.
  intros HI. unfold monotonic_irls_solver. cbn [swapped_ineq iq_m iq_b].
  change (mkIneq (iq_m q) (fun r j => - iq_A q r j) (iq_b q)) with (swapped_ineq q).
  destruct (existsb _ _); [exact I|]. rewrite ucp_opp. destruct (update_constraint_penalty pb q P2 false c ls) as [[P base] ch].
  change (pb_max_iter pb') with (pb_max_iter pb).
  pose proof (mono_loop_opp inner inner' q P2 lf lm HI (S (Z.to_nat (pb_max_iter pb))) (mkMs (init_state pb P true c) ls base) (mkMs (init_state pb' P true (negv c)) ls base)
    (conj (init_opp P true c) (conj eq_refl eq_refl))) as L.
  destruct (mono_loop pb inner _ _ _ _ _ _) as [m|], (mono_loop pb' inner' _ _ _ _ _ _) as [m'|]; try contradiction; [|exact I].
  destruct L as (M & _). split; [exact M|]. destruct M as (step & _ & ->). cbn [swapped_st st_conv st_coef]. rewrite any_gt_opp. auto.
Qed.

(** ** The objective of the scipy solvers *)
Lemma expit_opp e : expit (- e) = 1 - expit e.
Proof. unfold expit. rewrite Ropp_involutive. assert (0 < exp e) by apply exp_pos. rewrite exp_Ropp. field. split; lra. Qed.
Lemma clip_compl x a : a <= 1 - a -> clip (1 - x) a (1 - a) = 1 - clip x a (1 - a).
Proof. intros H. unfold clip, Rmin, Rmax. repeat destruct (Rle_dec _ _); lra. Qed.
Lemma eps50_half : eps50 <= 1 - eps50.
Proof. unfold eps50, eps64. assert (H : 50 * / 2 ^ 52 <= 1 / 2); [|lra].
  apply (Rmult_le_reg_r (2 ^ 52)); [apply pow_lt; lra|]. rewrite Rmult_assoc, Rinv_l by (apply pow_nonzero; lra).
  assert (100 <= 2 ^ 52); [|lra]. change 52%nat with (7 + 45)%nat. rewrite pow_add. assert (E7 : 2 ^ 7 = 128) by (simpl; ring). rewrite E7.
  assert (1 <= 2 ^ 45) by (apply pow_R1_Rle; lra). lra. Qed.
Lemma inverse1_opp e : inverse1 LogitL (- e) = 1 - inverse1 LogitL e.
Proof. cbn [inverse1 raw_inverse]. rewrite expit_opp. apply clip_compl, eps50_half. Qed.
Lemma deviance_opp (l : list obs) : deviance BinomialF (map (fun o => mkobs (1 - oy o) (ow o) (1 - omu o)) l) = deviance BinomialF l.
Proof.
  cbn [deviance]. rewrite lsumf_map. apply lsumf_ext. intros o _. cbn [oy ow omu unit_deviance].
  replace (1 - (1 - oy o)) with (oy o) by ring. replace (1 - (1 - omu o)) with (omu o) by ring. ring.
Qed.
Lemma obj_opp P2 : mirrored (get_obj_and_derivative pb P2) (get_obj_and_derivative pb' P2).
Proof.
  intros c. unfold get_obj_and_derivative. cbv zeta. cbn [fst snd].
  assert (LP : forall i, lin_pred pb' (negv c) i + pb_off pb' i = - (lin_pred pb c i + pb_off pb i)).
  { intros i. rewrite lin_pred_opp. cbn [swapped_pb pb_off]. unfold negv. ring. }
  change (pb_n pb') with n. change (pb_p pb') with (pb_p pb). change (pb_ic pb') with (pb_ic pb). change (pb_fam pb') with (pb_fam pb).
  change (pb_link pb') with (pb_link pb). change (pb_w pb') with (pb_w pb). rewrite HF, HL.
  f_equal.
  - f_equal.
    + f_equal. etransitivity; [|apply deviance_opp]. apply f_equal. rewrite map_map. apply map_ext_in. intros i Hi. apply in_seq in Hi. cbn [oy ow omu].
      rewrite LP, inverse1_opp. change (pb_y pb') with (compl n (pb_y pb)). rewrite compl_lt by lia. reflexivity.
    + f_equal. apply rsum_ext. intros j _. destruct P2; unfold negv; [ring|].
      rewrite (rsum_neg _ _ (fun l => M j l * c (ioff (pb_ic pb) + l)%nat)) by (intros; ring). ring.
  - fe. match goal with |- _ = negv ?f x => change (negv f x) with (- f x) end. cbv beta.
    rewrite (xt_vec_opp (fun i => inverse_derivative LogitL (lin_pred pb c i + pb_off pb i) *
        (pb_w pb i * unit_deviance_derivative BinomialF (pb_y pb i) (inverse1 LogitL (lin_pred pb c i + pb_off pb i))))).
    + destruct (Nat.ltb x (ioff (pb_ic pb))); [ring|]. destruct P2; unfold negv; [ring|].
      rewrite (rsum_neg _ _ (fun l => M (x - ioff (pb_ic pb))%nat l * c (ioff (pb_ic pb) + l)%nat)) by (intros; ring). ring.
    + intros i Hi. rewrite LP, inverse1_opp. cbn [inverse_derivative]. rewrite expit_opp.
      unfold unit_deviance_derivative. cbn [unit_variance].
      replace (1 - (1 - inverse1 LogitL (lin_pred pb c i + pb_off pb i))) with (inverse1 LogitL (lin_pred pb c i + pb_off pb i)) by ring.
      change (pb_y pb') with (compl n (pb_y pb)). rewrite compl_lt by exact Hi. rewrite (Rmult_comm (1 - inverse1 LogitL _) (inverse1 LogitL _)). unfold Rdiv. ring.
Qed.
End Logit.
