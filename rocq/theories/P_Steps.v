(** C117: the steps of irls-cd. *)
From Coq Require Import List Lia Lra Arith ZArith Classical_Prop. Import ListNotations.
From Verif Require Import L_Link L_Dist L_Dist2 L_Dist3 L_Dist4 L_CD L_CDb L_KKT L_Hess L_Solver L_Solver2 L_Solver3 L_Obj L_LS L_Psd L_Gap P_Solver P_LS P_Gauss S_Psd S_Pace P_Pace S_Quad P_Quad L_FitAll S_Steps.
From Verif Require Import M_Solver S_Solver.
Local Open Scope R_scope.

Lemma moved_pos pb c c' : 0 <= moved pb c c'.
Proof. apply rsum_nonneg. intros; apply pow2_ge_0. Qed.

Lemma train_nonneg pb P2 v : pb_ok pb -> (forall i, (i < pb_n pb)%nat -> 0 <= pb_w pb i) -> safe_pair (pb_fam pb) (pb_link pb) -> p2_psd (pb_p pb) P2 ->
  0 <= train_obj pb P2 v.
Proof.
  intros Hok Hw Hs HP. unfold train_obj, smooth_obj.
  assert (L : 0 <= l1_form pb v).
  { apply rsum_nonneg. intros k _. apply Rmult_le_pos; [|apply Rabs_pos]. unfold pen_of. destruct (pb_ic pb); [destruct k; [lra|]|]; apply Hok. }
  pose proof (l2_form_nonneg pb P2 v HP). unfold half_deviance. assert (0 <= deviance (pb_fam pb) (fitted pb v)).
  { apply deviance_nonneg; [apply Hok|]. intros o Ho. unfold fitted in Ho. apply in_map_iff in Ho. destruct Ho as [i [<- Hi]]. apply in_seq in Hi.
    split; [split|]; cbn; [apply Hok; lia | apply (safe_means_ok pb Hs v i); lia | apply Hw; lia]. }
  lra.
Qed.

(** One iteration of irls-cd whose line search did not warn and that was not accepted for being within machine precision: the objective falls
    by at least lambda / 20000 times the squared length of the step. *)
Theorem C117_step : forall pb seed P2 c lambda s s', pb_ok pb -> 0 <= pb_approx pb ->
  (forall i, (i < pb_n pb)%nat -> 0 <= pb_w pb i) -> safe_pair (pb_fam pb) (pb_link pb) ->
  p2_sym (pb_p pb) P2 -> p2_psd (pb_p pb) P2 -> seeds_ok seed -> in_box pb c ->
  reach pb (cd_solver pb seed) P2 c s -> irls_step pb (cd_solver pb seed) s = Some s' ->
  0 <= lambda -> curved pb P2 lambda (st_coef s) -> ~ ls_failed s s' -> ~ tiny pb s s' ->
  lambda * moved pb (st_coef s) (st_coef s') <= 20000 * (train_obj pb P2 (st_coef s) - train_obj pb P2 (st_coef s')).
Proof.
  intros pb seed P2 c lambda s s' Hok HC Hw Hs HS HP Hseed HB R0 E Hl HV NF NT.
  pose proof (reach_inv _ _ _ _ _ Hok HC R0) as I. pose proof I as [C P A H].
  destruct (irls_step_facts _ _ _ _ E) as [d [cyc [Ei Fa]]].
  destruct (sf_ls _ _ _ _ _ _ Fa) as [E1 [E2 [E3 [E4 [E5 [E6 E7]]]]]].
  destruct (old_rows_nonneg _ _ _ _ _ Hok HC Hw (safe_means_ok pb Hs) R0) as [_ [_ HR]].
  destruct (prepare_spec pb s P2 HC P A H) as [A1 [_ [HE [_ HH]]]].
  pose proof (prepare_facts pb s) as PF. set (s1 := fst (prepare pb s)) in *. set (Hm := snd (prepare pb s)) in *.
  assert (B : in_box pb (st_coef s1)) by (rewrite (pf_coef _ _ _ _ PF); eapply box_reach; eauto).
  destruct (cd_direction pb P2 (st_hrows s1) s1 Hm d cyc seed (proj2 (proj2 Hok)) HS A1 HE Hseed B Ei) as [_ [_ D]].
  rewrite (pf_coef _ _ _ _ PF), (pf_score _ _ _ _ PF) in D.
  set (d2 := rsum (nc pb) (fun k => d k ^ 2)).
  assert (Q : lambda * d2 <= rsum (nc pb) (fun k => rsum (nc pb) (fun l => d k * exact_hessian pb (st_hrows s1) P2 k l * d l))).
  { destruct HV as [HV|[HA HV]].
    - rewrite quad_exact. specialize (HV d). fold d2 in HV.
      assert (0 <= rsum (pb_n pb) (fun i => st_hrows s1 i * rsum (nc pb) (fun k => xt pb i k * d k) ^ 2)); [|lra].
      apply rsum_nonneg. intros i Hi. apply Rmult_le_pos; [apply HR, Hi | apply pow2_ge_0].
    - specialize (HV d). fold d2 in HV. rewrite quad_exact in HV |- *. eapply Rle_trans; [exact HV|]. right. f_equal. apply rsum_ext. intros i Hi.
      rewrite (HH HA), (coh_hrows _ _ _ C) by exact Hi. reflexivity. }
  destruct (line_search_spec pb (st_P2 s) (st_coef s) (st_score s) (st_eta s) (st_obj s) d Hok (coh_eta _ _ _ C))
    as [[Hst [Hc [_ [_ [Ho _]]]]] [_ [Hf [_ Hacc]]]].
  assert (BD : ls_bound pb (st_coef s) (st_score s) d <= - (1 / 20000 * (lambda * d2))).
  { unfold ls_bound. rewrite !l1_pen_eq by apply Hok. lra. }
  set (r := line_search _ _ _ _ _ _ _) in *. rewrite P in Ho.
  destruct (ls_warn r) eqn:W; [exfalso; apply NF; unfold ls_failed; rewrite E7; lia|].
  pose proof (half_pow_range (ls_k r)) as Ht. rewrite <- Hf in Ht. pose proof (coh_obj _ _ _ C) as Oc.
  destruct (proj1 Hacc eq_refl) as [[_ L]|[L _]]; [|exfalso; apply NT; unfold tiny; rewrite E5; exact L].
  assert (MV : moved pb (st_coef s) (st_coef s') = ls_factor r ^ 2 * d2).
  { unfold moved, d2. rewrite <- rsum_scal. apply rsum_ext. intros k _. rewrite E1, Hc, Hst. unfold vadd, vscale. ring. }
  assert (D0 : 0 <= lambda * d2) by (apply Rmult_le_pos; [exact Hl | apply rsum_nonneg; intros; apply pow2_ge_0]).
  rewrite MV, E1. assert (T2 : ls_factor r ^ 2 * (lambda * d2) <= ls_factor r * (lambda * d2)) by (apply Rmult_le_compat_r; [exact D0 | simpl; nra]).
  assert (T1 : ls_factor r * ls_bound pb (st_coef s) (st_score s) d <= ls_factor r * - (1 / 20000 * (lambda * d2))) by (apply Rmult_le_compat_l; lra).
  lra.
Qed.
Print Assumptions C117_step.

Section Run.
Variables (pb : problem) (seed : Z -> N) (P2 : P2t) (c : nat -> R) (lambda : R) (n : nat) (hist : nat -> state).
Hypothesis Hok : pb_ok pb.
Hypothesis HC : 0 <= pb_approx pb.
Hypothesis Hw : forall i, (i < pb_n pb)%nat -> 0 <= pb_w pb i.
Hypothesis Hs : safe_pair (pb_fam pb) (pb_link pb).
Hypothesis HS : p2_sym (pb_p pb) P2.
Hypothesis HP : p2_psd (pb_p pb) P2.
Hypothesis Hseed : seeds_ok seed.
Hypothesis HB : in_box pb c.
Hypothesis Hl : 0 <= lambda.
Hypothesis RH : run_history pb (cd_solver pb seed) P2 c n hist.
Hypothesis OK : forall k, (k < n)%nat -> ~ ls_failed (hist k) (hist (S k)) /\ ~ tiny pb (hist k) (hist (S k)).
Local Notation F := (train_obj pb P2).

Lemma run_reach k : (k <= n)%nat -> reach pb (cd_solver pb seed) P2 c (hist k).
Proof. eapply hist_reach; apply RH. Qed.

Lemma run_step k : (k < n)%nat -> curved pb P2 lambda (st_coef (hist k)) ->
  lambda * moved pb (st_coef (hist k)) (st_coef (hist (S k))) <= 20000 * (F (st_coef (hist k)) - F (st_coef (hist (S k)))).
Proof.
  intros Hk HV. destruct (OK k Hk) as [A B]. apply (C117_step pb seed P2 c lambda (hist k) (hist (S k))); auto; [apply run_reach; lia | apply RH, Hk].
Qed.

Lemma run_steps : (forall k, (k < n)%nat -> curved pb P2 lambda (st_coef (hist k))) -> forall m, (m <= n)%nat ->
  lambda * rsum m (fun k => moved pb (st_coef (hist k)) (st_coef (hist (S k)))) <= 20000 * (F c - F (st_coef (hist m))).
Proof.
  intros HV. induction m as [|m IH]; intros Hm; cbn [rsum].
  - rewrite (proj1 RH), init_coef. lra.
  - specialize (IH ltac:(lia)). pose proof (run_step m ltac:(lia) (HV m ltac:(lia))). lra.
Qed.

Lemma run_level : (forall v, F v <= F c -> curved pb P2 lambda v) -> forall k, (k <= n)%nat -> F (st_coef (hist k)) <= F c.
Proof.
  intros HV. induction k as [|k IH]; intros Hk; [rewrite (proj1 RH), init_coef; lra|]. specialize (IH ltac:(lia)).
  pose proof (run_step k ltac:(lia) (HV _ IH)) as Q. pose proof (Rmult_le_pos _ _ Hl (moved_pos pb (st_coef (hist k)) (st_coef (hist (S k))))). lra.
Qed.

Lemma long_moved e m : INR (long_steps pb hist e m) * e ^ 2 <= rsum m (fun k => moved pb (st_coef (hist k)) (st_coef (hist (S k)))).
Proof.
  induction m as [|m IH]; cbn [rsum long_steps]; [simpl; lra|]. rewrite plus_INR, Rmult_plus_distr_r. apply Rplus_le_compat; [exact IH|].
  destruct (Rle_dec _ _) as [L|L]; simpl INR; [lra|]. rewrite Rmult_0_l. apply moved_pos.
Qed.

(** the recorded step is the coefficient change *)
Lemma step_is_change k : (k < n)%nat -> rsum (nc pb) (fun j => st_step (hist (S k)) j * st_step (hist (S k)) j) = moved pb (st_coef (hist k)) (st_coef (hist (S k))).
Proof.
  intros Hk. pose proof (reach_inv _ _ _ _ _ Hok HC (run_reach k ltac:(lia))) as [C P A H].
  destruct (irls_step_facts _ _ _ _ (proj2 RH k Hk)) as [d [cyc [Ei Fa]]].
  destruct (sf_ls _ _ _ _ _ _ Fa) as [E1 [E2 _]].
  destruct (line_search_spec pb (st_P2 (hist k)) (st_coef (hist k)) (st_score (hist k)) (st_eta (hist k)) (st_obj (hist k)) d Hok (coh_eta _ _ _ C))
    as [[Hst [Hc _]] _].
  unfold moved. rewrite E1, E2, Hc, Hst. apply rsum_ext. intros j _. unfold vadd. ring.
Qed.

Lemma no_stop k tau : (k < n)%nat -> pb_stol pb = Some tau -> 0 <= tau -> ~ stop_test pb (hist (S k)) ->
  tau ^ 2 <= moved pb (st_coef (hist k)) (st_coef (hist (S k))).
Proof.
  intros Hk Et H0 NS. rewrite <- step_is_change by exact Hk. set (q := rsum _ _).
  assert (Q : tau <= sqrt q) by (apply Rnot_lt_le; intros L; apply NS; right; exists tau; split; [exact Et | exact L]).
  assert (0 <= q) by (unfold q; apply rsum_nonneg; intros; nra). rewrite <- (pow2_sqrt q) by assumption. apply pow_incr. split; assumption.
Qed.
End Run.

(** The squared steps of a run add up to at most 20000 / lambda times what the objective has lost. *)
Theorem C117_steps : forall pb seed P2 c lambda n hist, pb_ok pb -> 0 <= pb_approx pb ->
  (forall i, (i < pb_n pb)%nat -> 0 <= pb_w pb i) -> safe_pair (pb_fam pb) (pb_link pb) ->
  p2_sym (pb_p pb) P2 -> p2_psd (pb_p pb) P2 -> seeds_ok seed -> in_box pb c -> 0 <= lambda ->
  run_history pb (cd_solver pb seed) P2 c n hist ->
  (forall k, (k < n)%nat -> curved pb P2 lambda (st_coef (hist k)) /\ ~ ls_failed (hist k) (hist (S k)) /\ ~ tiny pb (hist k) (hist (S k))) ->
  lambda * rsum n (fun k => moved pb (st_coef (hist k)) (st_coef (hist (S k)))) <= 20000 * (train_obj pb P2 c - train_obj pb P2 (st_coef (hist n))).
Proof.
  intros pb seed P2 c lambda n hist Hok HC Hw Hs HS HP Hseed HB Hl RH HK.
  apply (run_steps pb seed P2 c lambda n hist); auto; intros k Hk; apply HK, Hk.
Qed.
Print Assumptions C117_steps.

(** Of any number of iterations, at most 20000 * F_0 / (lambda * e^2) move the coefficients by a distance of e or more. *)
Theorem C117_long_steps : forall pb seed P2 c lambda e n hist, pb_ok pb -> 0 <= pb_approx pb ->
  (forall i, (i < pb_n pb)%nat -> 0 <= pb_w pb i) -> safe_pair (pb_fam pb) (pb_link pb) ->
  p2_sym (pb_p pb) P2 -> p2_psd (pb_p pb) P2 -> seeds_ok seed -> in_box pb c -> 0 <= lambda ->
  run_history pb (cd_solver pb seed) P2 c n hist ->
  (forall k, (k < n)%nat -> curved pb P2 lambda (st_coef (hist k)) /\ ~ ls_failed (hist k) (hist (S k)) /\ ~ tiny pb (hist k) (hist (S k))) ->
  lambda * e ^ 2 * INR (long_steps pb hist e n) <= 20000 * train_obj pb P2 c.
Proof.
  intros pb seed P2 c lambda e n hist Hok HC Hw Hs HS HP Hseed HB Hl RH HK.
  pose proof (C117_steps pb seed P2 c lambda n hist Hok HC Hw Hs HS HP Hseed HB Hl RH HK) as Q.
  pose proof (train_nonneg pb P2 (st_coef (hist n)) Hok Hw Hs HP). pose proof (Rmult_le_compat_l lambda _ _ Hl (long_moved pb hist e n)). lra.
Qed.
Print Assumptions C117_long_steps.

(** With step_size_tol = tau a fit by irls-cd makes at most 1 + 20000 * F_0 / (lambda * tau^2) iterations - or one of them is one whose line
    search warned or in which the objective moved by no more than the machine-precision tolerance. *)
Theorem C117_iterations : forall pb seed P2 c lambda tau sf warned, pb_ok pb -> 0 <= pb_approx pb ->
  (forall i, (i < pb_n pb)%nat -> 0 <= pb_w pb i) -> safe_pair (pb_fam pb) (pb_link pb) ->
  p2_sym (pb_p pb) P2 -> p2_psd (pb_p pb) P2 -> seeds_ok seed -> in_box pb c -> 0 <= lambda ->
  pb_stol pb = Some tau -> 0 <= tau ->
  (forall v, train_obj pb P2 v <= train_obj pb P2 c -> curved pb P2 lambda v) ->
  irls_solver pb (cd_solver pb seed) P2 c = Some (sf, warned) ->
  lambda * tau ^ 2 * (IZR (st_niter sf) - 1) <= 20000 * train_obj pb P2 c
  \/ exists s s', reach pb (cd_solver pb seed) P2 c s /\ irls_step pb (cd_solver pb seed) s = Some s' /\ (ls_failed s s' \/ tiny pb s s').
Proof.
  intros pb seed P2 c lambda tau sf warned Hok HC Hw Hs HS HP Hseed HB Hl Et Ht HV E.
  destruct (C27_iteration_accounting _ _ _ _ _ _ E) as [n [hist [RH [Hn [En [_ [_ [NS _]]]]]]]].
  assert (RE : forall k, (k <= n)%nat -> reach pb (cd_solver pb seed) P2 c (hist k)) by (eapply hist_reach; apply RH).
  destruct (classic (exists k, (k < n)%nat /\ (ls_failed (hist k) (hist (S k)) \/ tiny pb (hist k) (hist (S k))))) as [[k [Hk Q]]|NB].
  { right. exists (hist k), (hist (S k)). split; [apply RE; lia|]. split; [apply RH, Hk | exact Q]. }
  assert (OK : forall k, (k < n)%nat -> ~ ls_failed (hist k) (hist (S k)) /\ ~ tiny pb (hist k) (hist (S k))).
  { intros k Hk. split; intros Q; apply NB; exists k; auto. }
  left. pose proof (train_nonneg pb P2 c Hok Hw Hs HP) as N0.
  rewrite En, <- INR_IZR_INZ. destruct n as [|m].
  { simpl INR. pose proof (Rmult_le_pos _ _ Hl (pow2_ge_0 tau)). lra. }
  assert (LV : forall k, (k <= S m)%nat -> train_obj pb P2 (st_coef (hist k)) <= train_obj pb P2 c) by (intros k Hk; eapply (run_level pb seed P2 c lambda (S m) hist); eauto).
  assert (CV : forall k, (k < S m)%nat -> curved pb P2 lambda (st_coef (hist k))) by (intros k Hk; apply HV, LV; lia).
  pose proof (run_steps pb seed P2 c lambda (S m) hist Hok HC Hw Hs HS HP Hseed HB Hl RH OK CV m ltac:(lia)) as Q.
  pose proof (train_nonneg pb P2 (st_coef (hist m)) Hok Hw Hs HP) as Nm.
  assert (T : INR m * tau ^ 2 <= rsum m (fun k => moved pb (st_coef (hist k)) (st_coef (hist (S k))))).
  { rewrite Rmult_comm, <- rsum_const. apply rsum_le. intros k Hk. apply (no_stop pb seed P2 c (S m) hist Hok HC RH k tau); auto; try lia; apply NS; lia. }
  pose proof (Rmult_le_compat_l lambda _ _ Hl T). rewrite S_INR. lra.
Qed.
Print Assumptions C117_iterations.

(** A fit with enough iterations therefore ends without a convergence warning, or has such an iteration. *)
Theorem C117_enough : forall pb seed P2 c lambda tau sf warned, pb_ok pb -> 0 <= pb_approx pb ->
  (forall i, (i < pb_n pb)%nat -> 0 <= pb_w pb i) -> safe_pair (pb_fam pb) (pb_link pb) ->
  p2_sym (pb_p pb) P2 -> p2_psd (pb_p pb) P2 -> seeds_ok seed -> in_box pb c -> 0 < lambda ->
  pb_stol pb = Some tau -> 0 < tau ->
  (forall v, train_obj pb P2 v <= train_obj pb P2 c -> curved pb P2 lambda v) ->
  irls_solver pb (cd_solver pb seed) P2 c = Some (sf, warned) ->
  20000 * train_obj pb P2 c < lambda * tau ^ 2 * (IZR (pb_max_iter pb) - 1) ->
  warned = false
  \/ exists s s', reach pb (cd_solver pb seed) P2 c s /\ irls_step pb (cd_solver pb seed) s = Some s' /\ (ls_failed s s' \/ tiny pb s s').
Proof.
  intros pb seed P2 c lambda tau sf warned Hok HC Hw Hs HS HP Hseed HB Hl Et Ht HV E HN.
  destruct (C117_iterations pb seed P2 c lambda tau sf warned Hok HC Hw Hs HS HP Hseed HB ltac:(lra) Et ltac:(lra) HV E) as [Q|Q]; [|right; exact Q].
  left. destruct warned; [exfalso|reflexivity].
  destruct (C27_iteration_accounting _ _ _ _ _ _ E) as [n [hist [RH [Hn [En [_ [_ [_ [_ HM]]]]]]]]]. specialize (HM eq_refl).
  rewrite En, HM in Q. assert (IZR (pb_max_iter pb) <= IZR (Z.max 0 (pb_max_iter pb))) by (apply IZR_le; lia).
  assert (0 < lambda * tau ^ 2) by (apply Rmult_lt_0_compat; [exact Hl | apply pow_lt; exact Ht]). nra.
Qed.
Print Assumptions C117_enough.

(** Non-vacuity: a lasso-and-ridge Poisson regression of one row and column: the curvature comes from the ridge penalty (lambda = 1), and a
    first iteration exists from every start. *)
Definition ex_pb117 : problem :=
  mkPb 1 1 (fun _ _ => 1) (fun _ => 1) (fun _ => 1) (fun _ => 0) false
       PoissonF LogL (fun _ => / 10) 5 1000 (1 / 10000) (Some (1 / 100)) 0 None false
       (fun _ => None) (fun _ => None) false 1000000 (1 / 1000000000).
Example C117_nonvacuous : forall c, pb_ok ex_pb117 /\ safe_pair (pb_fam ex_pb117) (pb_link ex_pb117) /\
  p2_sym (pb_p ex_pb117) (P2diag (fun _ => 1)) /\ p2_psd (pb_p ex_pb117) (P2diag (fun _ => 1)) /\ seeds_ok (fun _ => 0%N) /\ in_box ex_pb117 c /\
  (forall v, curved ex_pb117 (P2diag (fun _ => 1)) 1 v) /\
  exists s', irls_step ex_pb117 (cd_solver ex_pb117 (fun _ => 0%N)) (init_state ex_pb117 (P2diag (fun _ => 1)) false c) = Some s'.
Proof.
  intros c. set (pb := ex_pb117). set (P2 := P2diag (fun _ => 1)).
  split; [split; [exact I|split; [intros; simpl; lra|intros; simpl; lra]]|].
  split; [left; reflexivity|]. split; [intros i j Hi Hj; simpl in Hi, Hj; assert (i = j) by lia; subst i; reflexivity|].
  split; [intros v; unfold P2, p2_entry; simpl; nra|]. split; [intros z; reflexivity|]. split; [intros k Hk; split; intros b Eb; simpl in Eb; discriminate|].
  split. { intros v. left. intros u. right. unfold l2_form, nc, p2_full, p2_entry, P2; simpl; ring. }
  destruct (irls_step pb _ _) as [s'|] eqn:ES; [eexists; reflexivity|]. exfalso. unfold irls_step in ES.
  destruct (prepare _ _) as [s1 Hm]. unfold cd_solver in ES.
  repeat (match type of ES with context [let '(_, _) := ?x in _] => destruct x end). discriminate.
Qed.
