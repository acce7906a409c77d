(** Theorems C24-C29: the IRLS loop. *)
From Verif Require Import M_Solver S_Solver L_Link L_Dist L_Dist2 L_Dist3 L_CD L_CDb L_KKT L_Hess L_Solver L_Solver2 L_Solver3.
From Verif Require Import M_Solver S_Solver.
Local Open Scope R_scope.

(** A concrete problem: Poisson regression with log link, intercept, 2 features, 3 rows,
    L1 penalty 1/10, box [-1,1] on the first feature. *)
Definition ex_pb (approx : R) : problem :=
  mkPb 3 2 (fun i j => INR i + INR j) (fun i => INR i) (fun _ => / 3) (fun i => INR i / 10) true
       PoissonF LogL (fun _ => 1 / 10) 100 1000 (1 / 10000) None approx None false
       (fun j => match j with O => Some (-1) | _ => None end)
       (fun j => match j with O => Some 1 | _ => None end) true 1000000 (1 / 1000000000).
Definition ex_seed : Z -> N := fun z => Z.to_N (Z.modulo z 4294967296).

Lemma ex_pb_ok a : pb_ok (ex_pb a).
Proof.
  split; [exact I|]. split; [intros i _; simpl; apply pos_INR|]. intros j. simpl. lra.
Qed.
(** the coordinate-descent solver never raises, so states exist at every iteration number *)
Lemma reach_all pb seed P2 c (n : nat) : exists s, reach pb (cd_solver pb seed) P2 c s /\ st_niter s = Z.of_nat n.
Proof.
  induction n as [|n [s [R E]]].
  - exists (init_state pb P2 false c). split; [constructor|apply init_count].
  - destruct (irls_step pb (cd_solver pb seed) s) as [s'|] eqn:ES.
    + exists s'. split; [eapply reach_step; eauto|]. destruct (irls_step_facts _ _ _ _ ES) as [d [cyc [_ F]]].
      rewrite (sf_niter _ _ _ _ _ _ F), E. lia.
    + exfalso. unfold irls_step in ES. destruct (prepare pb s) as [s1 H]. unfold cd_solver in ES.
      destruct (update_quadratic _ _ _ _) as [[g sc] h]. destruct (check_convergence _ _ _ _) as [[[q1 q2] q3] q4]. discriminate.
Qed.

(** C24: with hessian_approx = 0 the matrix handed to the inner solver is the exact
    X' diag(h) X + P2 of the current coefficients, on the current active set, in every
    reachable state (any history of active sets and row weights). *)
Theorem C24_hessian_exact : forall pb inner P2 c s, pb_ok pb -> pb_approx pb = 0 ->
  reach pb inner P2 c s ->
  let (s1, H) := prepare pb s in
  st_coef s1 = st_coef s /\
  forall a b, (a < length (st_act s1))%nat -> (b < length (st_act s1))%nat ->
    H a b = exact_hessian pb (hrow_of pb (st_coef s)) P2 (nth a (st_act s1) 0%nat) (nth b (st_act s1) 0%nat).
Proof.
  intros pb inner P2 c s Hok HC R. pose proof (reach_inv _ _ _ _ _ Hok ltac:(lra) R) as [C P A H].
  pose proof (prepare_spec pb s P2 ltac:(lra) P A H) as [_ [_ [HE [_ H0]]]].
  pose proof (pf_coef _ _ _ _ (prepare_facts pb s)) as Ec.
  destruct (prepare pb s) as [s1 Hs]. cbn [fst snd] in *. split; [exact Ec|].
  intros a b Ha Hb. rewrite HE by auto. unfold exact_hessian. f_equal. apply rsum_ext. intros i Hi.
  rewrite (H0 HC). rewrite (coh_hrows _ _ _ C) by exact Hi. reflexivity.
Qed.
Print Assumptions C24_hessian_exact.

(** C24 for the monotonic solver, whose P2 changes from one iteration to the next. *)
Theorem C24_hessian_exact_monotonic : forall pb inner q P2b lf lm ls c m, pb_ok pb -> pb_approx pb = 0 ->
  mreach pb inner q P2b lf lm ls c m ->
  forall lam P2 base changed,
  update_constraint_penalty pb q P2b (ms_base m) (st_coef (ms_st m)) lam = (P2, base, changed) ->
  let (s1, H) := prepare pb (set_P2 (ms_st m) P2 (if changed then false else st_hinit (ms_st m))) in
  st_P2 s1 = P2 /\
  forall a b, (a < length (st_act s1))%nat -> (b < length (st_act s1))%nat ->
    H a b = exact_hessian pb (hrow_of pb (st_coef (ms_st m))) P2 (nth a (st_act s1) 0%nat) (nth b (st_act s1) 0%nat).
Proof.
  intros pb inner q P2b lf lm ls c m Hok HC R lam P2 base changed E.
  pose proof (mreach_inv _ _ _ _ _ _ _ _ _ Hok ltac:(lra) R) as I.
  destruct (minv_set _ _ _ _ _ _ _ _ I E) as [A [H [P _]]].
  set (s0 := set_P2 _ _ _) in *.
  pose proof (prepare_spec pb s0 P2 ltac:(lra) P A H) as [_ [_ [HE [_ H0]]]].
  pose proof (pf_P2 _ _ _ _ (prepare_facts pb s0)) as EP.
  destruct (prepare pb s0) as [s1 Hs]. cbn [fst snd] in *. split; [rewrite EP; exact P|].
  intros a b Ha Hb. rewrite HE by auto. unfold exact_hessian. f_equal. apply rsum_ext. intros i Hi.
  rewrite (H0 HC). change (st_hrows s0 i) with (st_hrows (ms_st m) i).
  rewrite (coh_hrows _ _ _ (inv_coh _ _ _ (minv_inv _ _ _ _ I))) by exact Hi. reflexivity.
Qed.
Print Assumptions C24_hessian_exact_monotonic.

Example C24_nonvacuous : pb_ok (ex_pb 0) /\ pb_approx (ex_pb 0) = 0 /\
  forall n, exists s, reach (ex_pb 0) (cd_solver (ex_pb 0) ex_seed) (P2diag (fun _ => 1)) (fun _ => 0) s /\ st_niter s = Z.of_nat n.
Proof. split; [apply ex_pb_ok|]. split; [reflexivity|]. intros n. apply reach_all. Qed.

(** C25: for every hessian_approx the matrix handed to the inner solver is the exact one for
    the row weights in use; each of these differs from the true one by at most hessian_approx
    times the largest difference between a true weight and the one used in the previous
    iteration; the weights in use are what the next iteration compares with. *)
Theorem C25_row_error_bounded : forall pb inner P2 c s, pb_ok pb -> 0 <= pb_approx pb ->
  reach pb inner P2 c s ->
  let (s1, H) := prepare pb s in
  (forall a b, (a < length (st_act s1))%nat -> (b < length (st_act s1))%nat ->
    H a b = exact_hessian pb (st_hrows s1) P2 (nth a (st_act s1) 0%nat) (nth b (st_act s1) 0%nat)) /\
  (forall M, (forall j, (j < pb_n pb)%nat -> Rabs (hrow_of pb (st_coef s) j - st_old_hrows s j) <= M) ->
     forall i, (i < pb_n pb)%nat -> Rabs (st_hrows s1 i - hrow_of pb (st_coef s) i) <= pb_approx pb * M) /\
  (forall s', irls_step pb inner s = Some s' -> st_old_hrows s' = st_hrows s1).
Proof.
  intros pb inner P2 c s Hok HC R. pose proof (reach_inv _ _ _ _ _ Hok HC R) as [C P A H].
  pose proof (prepare_spec pb s P2 HC P A H) as [_ [_ [HE [RC _]]]].
  assert (ST : forall s', irls_step pb inner s = Some s' -> st_old_hrows s' = st_hrows (fst (prepare pb s))).
  { intros s' E. destruct (irls_step_facts _ _ _ _ E) as [d [cyc [_ F]]]. apply (sf_old _ _ _ _ _ _ F). }
  destruct (prepare pb s) as [s1 Hs]. cbn [fst snd] in *. split; [exact HE|]. split; [|exact ST].
  intros M HM i Hi. rewrite <- (coh_hrows _ _ _ C i Hi).
  assert (M0 : 0 <= M) by (eapply Rle_trans; [apply Rabs_pos|apply (HM i Hi)]).
  destruct (RC i Hi) as [ -> | [_ [j [Hj [_ Hlt]]]]].
  - rewrite Rminus_diag_eq by reflexivity. rewrite Rabs_R0. apply Rmult_le_pos; assumption.
  - specialize (HM j Hj). rewrite <- (coh_hrows _ _ _ C j Hj) in HM. nra.
Qed.
Print Assumptions C25_row_error_bounded.

Example C25_nonvacuous : pb_ok (ex_pb (1/10)) /\ 0 <= pb_approx (ex_pb (1/10)).
Proof. split; [apply ex_pb_ok|simpl; lra]. Qed.

(** C26 *)
Theorem C26_active_set : forall pb inner P2 c s, pb_ok pb -> 0 <= pb_approx pb ->
  reach pb inner P2 c s ->
  let act := st_act (fst (prepare pb s)) in
  let pen := pen_of (pb_ic pb) (pb_P1 pb) in
  (pb_ic pb = true -> In 0%nat act) /\
  (forall k, (k < nc pb)%nat -> st_coef s k <> 0 -> In k act) /\
  (forall k, (k < nc pb)%nat -> pen k = 0 -> In k act) /\
  (pb_ic pb = false -> forall k, (k < nc pb)%nat -> In k act) /\
  (forall k, (k < nc pb)%nat -> ~ In k act ->
     st_coef s k = 0 /\
     (exists m, Rabs (score_of pb P2 (st_coef s) k) + m < pen k /\
        forall i, (i < nc pb)%nat ->
          0 <= fst (norm_min_subgrad [i] (st_coef s) (fun k => - st_score s k) (pb_P1 pb) (pb_ic pb) (pb_lb pb) (pb_ub pb)) <= m) /\
     coord_stationary (- score_of pb P2 (st_coef s) k) (pen k)
        (bnd_of (pb_ic pb) (pb_lb pb) k) (bnd_of (pb_ic pb) (pb_ub pb) k) (st_coef s k)).
Proof.
  intros pb inner P2 c s Hok HC R act pen. pose proof (reach_inv _ _ _ _ _ Hok HC R) as [C P A H].
  unfold act. rewrite (pf_act _ _ _ _ (prepare_facts pb s)).
  assert (EN := coh_norm _ _ _ C).
  assert (EM : st_max s = snd (norm_min_subgrad (seq 0 (nc pb)) (st_coef s) (fun k => - st_score s k) (pb_P1 pb) (pb_ic pb) (pb_lb pb) (pb_ub pb)))
    by (rewrite <- EN; reflexivity).
  assert (DR : forall k, (k < nc pb)%nat -> ~ In k (identify_active_set pb (st_coef s) (st_score s) (st_max s)) ->
     exists m, st_coef s k = 0 /\ Rabs (score_of pb P2 (st_coef s) k) + m < pen k /\ st_max s = Some m).
  { intros k Hk Hn. destruct (dropped _ _ _ _ _ Hk Hn) as [j [m [E1 [E2 [E3 [E4 E5]]]]]]. exists m.
    split; [exact E3|]. split; [|exact E4]. rewrite <- (coh_score _ _ _ C) by exact Hk.
    assert (Ep : pen k = pb_P1 pb j).
    { unfold pen, pen_of. rewrite E1. destruct (pb_ic pb); reflexivity. }
    lra. }
  assert (MX : forall m, st_max s = Some m -> 0 <= m /\ forall i, (i < nc pb)%nat -> 
     entry (st_coef s) (fun k => - st_score s k) (pb_P1 pb) (pb_ic pb) (pb_lb pb) (pb_ub pb) i <= m).
  { intros m Em. apply max_nonneg. rewrite <- EM. exact Em. }
  assert (IN : forall k (Q : Prop), (k < nc pb)%nat -> (~ In k (identify_active_set pb (st_coef s) (st_score s) (st_max s)) -> False) ->
      In k (identify_active_set pb (st_coef s) (st_score s) (st_max s))).
  { intros k Q Hk Hf. destruct (in_dec Nat.eq_dec k (identify_active_set pb (st_coef s) (st_score s) (st_max s))); tauto. }
  split; [|split; [|split; [|split]]].
  - intros Hic. apply identify_in. left. auto.
  - intros k Hk Hc. apply (IN k True Hk). intros Hn. destruct (DR k Hk Hn) as [m [E1 _]]. contradiction.
  - intros k Hk Hp. apply (IN k True Hk). intros Hn. destruct (DR k Hk Hn) as [m [E1 [E2 E3]]].
    destruct (MX m E3) as [Hm _]. rewrite Hp in E2. pose proof (Rabs_pos (score_of pb P2 (st_coef s) k)). lra.
  - intros Hic k Hk. apply (IN k True Hk). intros Hn. destruct (DR k Hk Hn) as [m [E1 [E2 E3]]].
    rewrite EM, Hic in E3. unfold norm_min_subgrad in E3. rewrite max_no_ic in E3. discriminate.
  - intros k Hk Hn. destruct (DR k Hk Hn) as [m [E1 [E2 E3]]]. destruct (MX m E3) as [Hm Hent].
    split; [exact E1|]. split.
    + exists m. split; [exact E2|]. intros i Hi.
      rewrite norm_sum by (simpl; intros ? []). rewrite lsumf_cons, lsumf_nil, Rplus_0_r.
      split; [apply entry_nonneg|apply Hent; exact Hi].
    + rewrite E1. intros t _. rewrite Rabs_R0, !Rminus_0_r.
      assert (B : - score_of pb P2 (st_coef s) k * t >= - (Rabs (score_of pb P2 (st_coef s) k) * Rabs t)).
      { rewrite <- Rabs_mult. pose proof (Rle_abs (score_of pb P2 (st_coef s) k * t)). lra. }
      pose proof (Rabs_pos t).
      assert (0 <= (pen k - Rabs (score_of pb P2 (st_coef s) k)) * Rabs t) by (apply Rmult_le_pos; lra). lra.
Qed.
Print Assumptions C26_active_set.

Theorem C26_dropped_stay_zero : forall pb seed P2 c s s', pb_ok pb -> 0 <= pb_approx pb ->
  p2_sym (pb_p pb) P2 -> seeds_ok seed -> in_box pb c ->
  reach pb (cd_solver pb seed) P2 c s -> irls_step pb (cd_solver pb seed) s = Some s' ->
  forall k, (k < nc pb)%nat -> ~ In k (st_act s') -> st_coef s' k = 0.
Proof.
  intros pb seed P2 c s s' Hok HC HS Hseed HB R E k Hk Hn.
  pose proof (reach_inv _ _ _ _ _ Hok HC R) as [C P A H].
  destruct (irls_step_facts _ _ _ _ E) as [d [cyc [Ei F]]].
  destruct (prepare_spec pb s P2 HC P A H) as [A1 [_ [HE _]]].
  pose proof (prepare_facts pb s) as PF. set (s1 := fst (prepare pb s)) in *. set (Hm := snd (prepare pb s)) in *.
  rewrite (sf_act _ _ _ _ _ _ F) in Hn.
  assert (B : in_box pb (st_coef s1)) by (rewrite (pf_coef _ _ _ _ PF); eapply box_reach; eauto).
  destruct (cd_direction pb P2 (st_hrows s1) s1 Hm d cyc seed (proj2 (proj2 Hok)) HS A1 HE Hseed B Ei) as [D _].
  destruct (sf_ls _ _ _ _ _ _ F) as [E1 _].
  destruct (line_search_spec pb (st_P2 s) (st_coef s) (st_score s) (st_eta s) (st_obj s) d Hok (coh_eta _ _ _ C)) as [[L1 [L2 _]] _].
  set (r := line_search _ _ _ _ _ _ _) in *. rewrite E1, L2, L1. unfold vadd, vscale. rewrite (D k Hn).
  rewrite (pf_act _ _ _ _ PF) in Hn. destruct (dropped _ _ _ _ _ Hk Hn) as [j [m [_ [_ [E3 _]]]]]. rewrite E3. ring.
Qed.
Print Assumptions C26_dropped_stay_zero.

(** C27 *)
Theorem C27_iteration_accounting : forall pb inner P2 c sf warned,
  irls_solver pb inner P2 c = Some (sf, warned) ->
  exists (n : nat) (hist : nat -> state),
    run_history pb inner P2 c n hist /\ hist n = sf /\
    st_niter sf = Z.of_nat n /\ (Z.of_nat n <= Z.max 0 (pb_max_iter pb))%Z /\
    st_diag sf = map (fun k => (Z.of_nat k, st_norm (hist k), st_obj (hist k))) (seq 0 (S n)) /\
    (forall k, (k < n)%nat -> ~ stop_test pb (hist k)) /\
    (warned = false <-> stop_test pb sf) /\
    (warned = true -> Z.of_nat n = Z.max 0 (pb_max_iter pb)).
Proof.
  intros pb inner P2 c sf warned E. unfold irls_solver in E.
  destruct (irls_loop _ _ _ _) as [s|] eqn:EL; [|discriminate]. injection E as -> <-.
  destruct (init_count pb P2 false c) as [I1 I2].
  destruct (loop_history pb inner _ _ _ EL ltac:(rewrite I1; lia)) as [n [hist [H0 [Hn [Hs [Hk [Hd Hc]]]]]]].
  assert (RH : run_history pb inner P2 c n hist) by (split; [exact H0|intros k Hk'; apply Hs; exact Hk']).
  assert (RE : forall k, (k <= n)%nat -> reach pb inner P2 c (hist k)) by (eapply hist_reach; apply RH).
  assert (ST : forall k, (k <= n)%nat -> (st_conv (hist k) = true <-> stop_test pb (hist k))).
  { intros k Hk'. rewrite (reach_conv _ _ _ _ _ (RE k Hk')). unfold conv_test, stop_test.
    assert (EN : st_norm (hist k) = fst (norm_min_subgrad (seq 0 (nc pb)) (st_coef (hist k)) (fun k0 => - st_score (hist k) k0)
         (pb_P1 pb) (pb_ic pb) (pb_lb pb) (pb_ub pb))).
    { assert (EC : (st_conv (hist k), st_norm (hist k), st_max (hist k), st_itol (hist k)) =
        check_convergence pb (st_coef (hist k)) (st_step (hist k)) (st_score (hist k))).
      { destruct (RE k Hk') as [|s s' R E']; [apply init_conv|].
        destruct (irls_step_facts _ _ _ _ E') as [d [cyc [_ F]]]. exact (sf_conv _ _ _ _ _ _ F). }
      unfold check_convergence in EC. destruct (norm_min_subgrad _ _ _ _ _ _ _). injection EC as _ -> _ _. reflexivity. }
    rewrite EN. tauto. }
  exists n, hist. split; [exact RH|]. split; [exact Hn|].
  assert (NI : st_niter sf = Z.of_nat n) by (rewrite <- Hn, Hk by lia; rewrite I1; lia).
  split; [exact NI|].
  assert (BD : (Z.of_nat n <= Z.max 0 (pb_max_iter pb))%Z).
  { destruct n as [|n]; [lia|]. destruct (Hs n ltac:(lia)) as [_ [_ L]]. rewrite Hk in L by lia. lia. }
  split; [exact BD|]. split.
  - rewrite Hd, I2. cbn [seq map app]. f_equal.
    + unfold diag_of. rewrite I1, H0. reflexivity.
    + apply map_ext_in. intros k Hk'. apply in_seq in Hk'. unfold diag_of. rewrite Hk by lia. rewrite I1. reflexivity.
  - split; [intros k Hk' Q; apply ST in Q; [|lia]; destruct (Hs k Hk') as [_ [Q' _]]; congruence|].
    split.
    + rewrite <- Hn. rewrite <- ST by lia. destruct (st_conv (hist n)); simpl; split; congruence.
    + intros Hw. destruct Hc as [Hc|Hc]; [rewrite Hc in Hw; discriminate|]. lia.
Qed.
Print Assumptions C27_iteration_accounting.

(** With the coordinate-descent inner solver the solver always returns. *)
Theorem C27_cd_always_returns : forall pb seed P2 c, irls_solver pb (cd_solver pb seed) P2 c <> None.
Proof.
  intros pb seed P2 c E. unfold irls_solver in E. destruct (irls_loop _ _ _ _) as [s|] eqn:EL; [discriminate|].
  destruct (solver_none _ _ _ _ EL) as [n [hist [_ [_ H]]]]. unfold cd_solver in H. discriminate.
Qed.
Print Assumptions C27_cd_always_returns.

(** C28: the line search.  The accepted step is 2^-k times the direction with k <= 19; eta, mu
    and the objective are those of the new coefficients; if it does not warn the objective
    dropped by the Armijo amount or changed by at most eps*|obj| while the gradient shrank;
    if it warns, neither holds for the step it nevertheless takes. *)
Theorem C28_line_search : forall pb P2 c score eta obj d, pb_ok pb ->
  (forall i, (i < pb_n pb)%nat -> eta i = eta_of pb c i) ->
  exists K, (forall c' eta' obj' d', (forall i, (i < pb_n pb)%nat -> eta' i = eta_of pb c' i) ->
    let r := line_search pb P2 c' score eta' obj' d' in
    ls_obj r = train_obj pb P2 (ls_coef r) + K) /\
  let r := line_search pb P2 c score eta obj d in
  let t := / 2 ^ (ls_k r) in
  (ls_k r <= 19)%nat /\
  ls_step r = (fun k => t * d k) /\ ls_coef r = (fun k => c k + t * d k) /\
  (forall i, (i < pb_n pb)%nat -> ls_eta r i = eta_of pb (ls_coef r) i) /\
  (forall i, (i < pb_n pb)%nat -> ls_mu r i = mean_of pb (ls_coef r) i) /\
  (ls_warn r = true -> ls_k r = 19%nat) /\
  (ls_warn r = false <->
     ((forall i, (i < pb_n pb)%nat -> mean_of pb (ls_coef r) i < pb_large pb) /\
      ls_obj r - obj <= t * (1 / 10000) * (rsum (nc pb) (fun k => - score k * d k)
                              + l1_form pb (fun k => c k + d k) - l1_form pb c)) \/
     (Rabs (ls_obj r - obj) <= Rabs (obj * pb_eps pb) /\
      trial_grad_norm pb (ls_eta r) (ls_mu r) (ls_cP2 r) < rsum (nc pb) (fun k => Rabs (score k)))).
Proof.
  intros pb P2 c score eta obj d Hok He. exists (obj_k pb). split.
  - intros c' eta' obj' d' He'. destruct (line_search_spec pb P2 c' score eta' obj' d' Hok He') as [[_ [_ [_ [_ [Ho _]]]]] _].
    exact Ho.
  - destruct (line_search_spec pb P2 c score eta obj d Hok He) as [[L1 [L2 [L3 [L4 [L5 L6]]]]] [L7 [L8 [L9 L10]]]].
    cbv zeta. set (r := line_search _ _ _ _ _ _ _) in *.
    split; [exact L7|]. split; [rewrite L1, L8; reflexivity|]. split; [rewrite L2, L1, L8; reflexivity|].
    split; [exact L3|]. split; [exact L4|]. split; [exact L9|].
    rewrite L10. unfold ls_accept, ls_bound. rewrite !l1_pen_eq by apply Hok. rewrite L8.
    assert (ED : - dot (nc pb) score d = rsum (nc pb) (fun k => - score k * d k)).
    { unfold dot. rewrite <- rsum_opp. apply rsum_ext. intros; ring. }
    rewrite ED. rewrite <- Rmult_assoc. unfold vadd.
    assert (M : (forall i, (i < pb_n pb)%nat -> ls_mu r i < pb_large pb) <-> (forall i, (i < pb_n pb)%nat -> mean_of pb (ls_coef r) i < pb_large pb)).
    { split; intros Q i Hi; specialize (Q i Hi); rewrite (L4 i Hi) in *; exact Q. }
    tauto.
Qed.
Print Assumptions C28_line_search.

(** C28 for the default solver: every iteration of irls-cd either warns or does not increase the
    training objective by more than eps*|obj| (rounding of the tiny-loss branch). *)
Theorem C28_objective_descends : forall pb seed P2 c s s', pb_ok pb -> 0 <= pb_approx pb ->
  (forall i, (i < pb_n pb)%nat -> 0 <= pb_w pb i) -> safe_pair (pb_fam pb) (pb_link pb) ->
  p2_sym (pb_p pb) P2 -> p2_psd (pb_p pb) P2 -> seeds_ok seed -> in_box pb c ->
  reach pb (cd_solver pb seed) P2 c s -> irls_step pb (cd_solver pb seed) s = Some s' ->
  st_lswarn s' = S (st_lswarn s) \/
  train_obj pb P2 (st_coef s') <= train_obj pb P2 (st_coef s) + Rabs (st_obj s * pb_eps pb).
Proof.
  intros pb seed P2 c s s' Hok HC Hw Hsafe HS HP Hseed HB R E.
  destruct (step_descends pb (cd_solver pb seed) P2 s s' Hok (reach_inv _ _ _ _ _ Hok HC R) E) as [L|[_ L]]; auto.
  intros d cyc Ed. eapply cd_bound_nonpos; eauto. apply safe_means_ok. exact Hsafe.
Qed.
Print Assumptions C28_objective_descends.

Lemma ex_psd : p2_psd 2 (P2diag (fun _ => 1)) /\ p2_sym 2 (P2diag (fun _ => 1)).
Proof.
  split.
  - intros v. simpl. pose proof (Rle_0_sqr (v 0%nat)). pose proof (Rle_0_sqr (v 1%nat)). unfold Rsqr in *. lra.
  - intros i j _ _. simpl. destruct (Nat.eqb_spec i j) as [ -> | H]; [rewrite Nat.eqb_refl; reflexivity|].
    apply Nat.neq_sym, Nat.eqb_neq in H. rewrite H. reflexivity.
Qed.
Lemma ex_box a : in_box (ex_pb a) (fun _ => 0).
Proof.
  intros k _. unfold within, bnd_of. simpl. destruct k as [|[|k]]; split; intros b Hb; try discriminate; injection Hb as <-; lra.
Qed.
Lemma ex_seed_ok : seeds_ok ex_seed.
Proof. intros z. unfold ex_seed. pose proof (Z.mod_pos_bound z 4294967296 ltac:(lia)).
  apply N2Z.inj_lt. rewrite Z2N.id by lia. change (Z.of_N (2 ^ 32)) with 4294967296%Z. lia. Qed.
Example C28_nonvacuous : pb_ok (ex_pb 0) /\ (forall i, (i < 3)%nat -> 0 <= pb_w (ex_pb 0) i) /\
  safe_pair (pb_fam (ex_pb 0)) (pb_link (ex_pb 0)) /\ p2_sym 2 (P2diag (fun _ => 1)) /\ p2_psd 2 (P2diag (fun _ => 1)) /\
  seeds_ok ex_seed /\ in_box (ex_pb 0) (fun _ => 0).
Proof.
  split; [apply ex_pb_ok|]. split; [intros; simpl; lra|]. split; [simpl; auto|].
  split; [apply ex_psd|]. split; [apply ex_psd|]. split; [apply ex_seed_ok|apply ex_box].
Qed.

(** C29: every iterate of irls-cd, whatever the line search does, satisfies the bounds if the
    start does; so do the returned coefficients. *)
Theorem C29_iterates_in_box : forall pb seed P2 c s, pb_ok pb -> 0 <= pb_approx pb -> in_box pb c ->
  reach pb (cd_solver pb seed) P2 c s -> in_box pb (st_coef s).
Proof. exact box_reach. Qed.
Print Assumptions C29_iterates_in_box.

Theorem C29_result_in_box : forall pb seed P2 c sf warned, pb_ok pb -> 0 <= pb_approx pb -> in_box pb c ->
  irls_solver pb (cd_solver pb seed) P2 c = Some (sf, warned) -> in_box pb (st_coef sf).
Proof.
  intros pb seed P2 c sf warned Hok HC HB E.
  destruct (C27_iteration_accounting _ _ _ _ _ _ E) as [n [hist [[H0 Hs] [Hn _]]]].
  rewrite <- Hn. eapply C29_iterates_in_box; eauto. eapply hist_reach; eauto.
Qed.
Print Assumptions C29_result_in_box.
Example C29_nonvacuous : in_box (ex_pb 0) (fun k => match k with 1%nat => -1 | _ => 5 end) /\
   ~ in_box (ex_pb 0) (fun k => 2).
Proof.
  split.
  - intros k Hk. destruct k as [|[|[|k]]]; [| | |unfold nc in Hk; simpl in Hk; lia];
      split; simpl; intros b Hb; try discriminate; injection Hb as <-; lra.
  - intros H. destruct (H 1%nat ltac:(unfold nc; simpl; lia)) as [_ Q]. specialize (Q 1 eq_refl). lra.
Qed.
