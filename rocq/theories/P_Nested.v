(** C96: adding columns or relaxing bounds never makes the training objective worse. *)
From Coq Require Import List Lia Lra Arith. Import ListNotations.
From Verif Require Import Base M_Link M_Dist M_Std M_Valid M_Fit L_KKT L_Std S_Dist S_Std S_Fit S_FitAll S_Train L_Score L_FitAll L_Gap L_Fit P_Score P_FitAll P_Train S_Nested.
From Verif Require Import M_Solver S_Solver.
Local Open Scope R_scope.

Lemma rsum_trunc p p' f : (p <= p')%nat -> (forall j, (p <= j < p')%nat -> f j = 0) -> rsum p' f = rsum p f.
Proof.
  induction p' as [|p' IH]; intros H Z; [replace p with O by lia; reflexivity|].
  destruct (Nat.eq_dec p (S p')) as [->|N]; [reflexivity|]. cbn [rsum]. rewrite IH by (try lia; intros; apply Z; lia). rewrite (Z p') by lia. ring.
Qed.
Lemma padded_in u b j : (j < u_p u)%nat -> padded u b j = b j.
Proof. intros H. unfold padded. rewrite (proj2 (Nat.ltb_lt _ _) H). reflexivity. Qed.
Lemma padded_out u b j : (u_p u <= j)%nat -> padded u b j = 0.
Proof. intros H. unfold padded. rewrite (proj2 (Nat.ltb_ge _ _) H). reflexivity. Qed.

Section Nested.
Variables u u' : user.
Hypothesis HC : contains u u'.
Lemma ct_eta b0 b i : (i < u_n u)%nat -> user_eta u' b0 (padded u b) i = user_eta u b0 b i.
Proof.
  intros Hi. unfold user_eta. destruct (ct_rows u u' HC i Hi) as (_ & _ & ->). f_equal. f_equal.
  rewrite (rsum_trunc (u_p u) (u_p u')); [|exact (ct_p u u' HC)|intros; rewrite padded_out by lia; ring].
  apply rsum_ext. intros j Hj. rewrite padded_in, (ct_X u u' HC) by assumption. reflexivity.
Qed.
Lemma ct_stds j : (j < u_p u)%nat -> u_stds u' j = u_stds u j.
Proof.
  intros Hj. unfold u_stds, col_stds. f_equal. rewrite (ct_n u u' HC).
  assert (W : wmean (u_n u) (u_w u') (fun i => u_X u' i j) = wmean (u_n u) (u_w u) (fun i => u_X u i j)).
  { apply rsum_ext. intros i Hi. destruct (ct_rows u u' HC i Hi) as (_ & -> & _). rewrite (ct_X u u' HC) by assumption. reflexivity. }
  rewrite W. apply rsum_ext. intros i Hi. destruct (ct_rows u u' HC i Hi) as (_ & -> & _). rewrite (ct_X u u' HC) by assumption. reflexivity.
Qed.
Lemma ct_scale j : (j < u_p u)%nat -> pen_scale u' j = pen_scale u j.
Proof.
  intros Hj. unfold pen_scale. destruct (ct_model u u' HC) as (_ & _ & _ & ->). destruct (u_scale u); [|reflexivity]. unfold col_scale. rewrite ct_stds by exact Hj. reflexivity.
Qed.
Lemma ct_half b0 b : user_half_dev u' b0 (padded u b) = user_half_dev u b0 b.
Proof.
  unfold user_half_dev. destruct (ct_model u u' HC) as (_ & -> & -> & _). rewrite (ct_n u u' HC). f_equal.
  apply (f_equal (deviance (u_fam u))). apply map_ext_in. intros i Hi. apply in_seq in Hi.
  destruct (ct_rows u u' HC i) as (-> & -> & _); [lia|]. rewrite ct_eta by lia. reflexivity.
Qed.
Lemma ct_pen b : user_pen u' (pen_scale u') (padded u b) = user_pen u (pen_scale u) b.
Proof.
  unfold user_pen, user_l2. f_equal.
  - f_equal. rewrite (rsum_trunc (u_p u) (u_p u')); [|exact (ct_p u u' HC)|intros; apply rsum_zero; intros; rewrite padded_out by lia; ring].
    apply rsum_ext. intros i Hi. rewrite (rsum_trunc (u_p u) (u_p u')); [|exact (ct_p u u' HC)|intros; rewrite (padded_out u b j) by lia; ring].
    apply rsum_ext. intros j Hj. rewrite !padded_in, !ct_scale, (ct_P2 u u' HC) by assumption. reflexivity.
  - rewrite (rsum_trunc (u_p u) (u_p u')); [|exact (ct_p u u' HC)|intros; rewrite padded_out, Rmult_0_r, Rabs_R0 by lia; ring].
    apply rsum_ext. intros j Hj. rewrite padded_in, ct_scale, (ct_P1 u u' HC) by assumption. reflexivity.
Qed.
Lemma ct_feasible b : user_feasible u b -> user_feasible u' (padded u b).
Proof.
  intros F j Hj. destruct (Nat.lt_ge_cases j (u_p u)) as [L|L].
  - rewrite padded_in by exact L. apply (ct_bounds u u' HC j _ L), F, L.
  - rewrite padded_out by exact L. apply (ct_zero u u' HC). lia.
Qed.
End Nested.

(** The larger model can do everything the smaller one can, at the same objective. *)
Theorem C96_same_objective : forall u u' b0 b, contains u u' ->
  user_obj u' (pen_scale u') b0 (padded u b) = user_obj u (pen_scale u) b0 b /\
  (user_feasible u b -> user_feasible u' (padded u b)) /\
  forall i, (i < u_n u)%nat -> user_eta u' b0 (padded u b) i = user_eta u b0 b i.
Proof.
  intros u u' b0 b HC. split; [|split; [apply ct_feasible, HC|intros; apply ct_eta; assumption]].
  rewrite !obj_split, (ct_half u u' HC), (ct_pen u u' HC). reflexivity.
Qed.
Print Assumptions C96_same_objective.

(** A silent fit of the larger model is at least as good, up to the tolerance, as every admissible coefficient vector of the
    smaller one - in particular as any fit of it. *)
Theorem C96_larger_model : forall u u' s se q l guess a B0 B sl b0 b D, contains u u' ->
  user_ok u' -> 0 <= se_approx se -> se_stol se = None ->
  convex_pair (u_fam u') (u_link u') -> libs_sound sl l -> start_ok u' a -> accepts s u' q -> s <> SMono ->
  (s = SLbfgs \/ s = STrust -> unclipped u' B0 B) ->
  fit_with s u' se q l guess a = Some (B0, B, false, false) ->
  user_feasible u b -> match q with Some q => user_ineq u' q (padded u b) | None => True end ->
  (u_ic u = false -> b0 = 0) -> 0 <= D -> std_close u' D B0 B b0 (padded u b) ->
  user_obj u' (pen_scale u') B0 B <= user_obj u (pen_scale u) b0 b + fit_tol s u' se * D + match s, q with STrust, Some _ => sl | _, _ => 0 end.
Proof.
  intros u u' s se q l guess a B0 B sl b0 b D HC Hok HA Hst Hc Hl Ha Hacc Hs Hu E F Q I0 HD CL.
  destruct (C70_silent_near_optimal s u' se q l guess a B0 B sl Hok HA Hst Hc Hl Ha Hacc Hs Hu E) as [[_ N] _].
  assert (I0' : u_ic u' = false -> b0 = 0) by (destruct (ct_model u u' HC) as (-> & _); exact I0).
  specialize (N b0 (padded u b) D (conj (ct_feasible u u' HC b F) Q) I0' HD CL).
  destruct (C96_same_objective u u' b0 b HC) as [O _]. rewrite O in N.
  pose proof (pred_dev_nonneg u' B0 B b0 (padded u b) Hok Hc) as P.
  assert (P2 : 0 <= user_l2 u' (pen_scale u') (fun j => padded u b j - B j)).
  { destruct Hok as [_ [_ [_ [_ [_ HP]]]]]. apply (HP (fun j => pen_scale u' j * (padded u b j - B j))). }
  lra.
Qed.
Print Assumptions C96_larger_model.

(** Without penalties the training score never falls when columns are added or bounds relaxed, up to the tolerance. *)
Theorem C96_training_score : forall u u' s se l guess a B0 B sl b0 b D, contains u u' -> unpenalised u' ->
  user_ok u' -> 0 <= se_approx se -> se_stol se = None ->
  convex_pair (u_fam u') (u_link u') -> libs_sound sl l -> start_ok u' a -> accepts s u' None -> s <> SMono ->
  unclipped u' B0 B -> unclipped u b0 b ->
  fit_with s u' se None l guess a = Some (B0, B, false, false) ->
  user_feasible u b -> (u_ic u = false -> b0 = 0) -> 0 < null_deviance u -> 0 <= D -> std_close u' D B0 B b0 (padded u b) ->
  score (u_fam u') (train_obs u' B0 B) >= score (u_fam u) (train_obs u b0 b) - 2 * (fit_tol s u' se * D) / null_deviance u.
Proof.
  intros u u' s se l guess a B0 B sl b0 b D HC [Z1 Z2] Hok HA Hst Hc Hl Ha Hacc Hs Hu Hu0 E F I0 ND HD CL.
  pose proof (C96_larger_model u u' s se None l guess a B0 B sl b0 b D HC Hok HA Hst Hc Hl Ha Hacc Hs (fun _ => Hu) E F I I0 HD CL) as K.
  assert (K' : user_obj u' (pen_scale u') B0 B <= user_obj u (pen_scale u) b0 b + fit_tol s u' se * D) by (destruct s; lra). clear K. rename K' into K.
  rewrite !obj_split in K.
  assert (P0 : forall c, user_pen u' (pen_scale u') c = 0).
  { intros c. unfold user_pen, user_l2. rewrite rsum_zero, rsum_zero; [ring| |].
    - intros j Hj. rewrite Z1 by exact Hj. ring.
    - intros i Hi. apply rsum_zero. intros j Hj. rewrite Z2 by assumption. ring. }
  rewrite P0, <- (ct_pen u u' HC b), P0 in K.
  destruct (ct_model u u' HC) as (_ & EF & EL & _).
  assert (NU : null_deviance u' = null_deviance u).
  { assert (TM : train_mean u' = train_mean u).
    { unfold train_mean. rewrite (ct_n u u' HC). apply f_equal2; apply rsum_ext; intros k Hk; destruct (ct_rows u u' HC k Hk) as (Ey & Ew & _); rewrite ?Ey, Ew; reflexivity. }
    unfold null_deviance. rewrite EF, (ct_n u u' HC), TM. apply (f_equal (deviance (u_fam u))). apply map_ext_in. intros i Hi. apply in_seq in Hi.
    destruct (ct_rows u u' HC i) as (-> & -> & _); [lia|]. reflexivity. }
  rewrite !train_score_eq, NU. rewrite (unclipped_half_dev u' B0 B Hc Hu). rewrite (unclipped_half_dev u b0 b); [|rewrite <- EF, <- EL; exact Hc|exact Hu0].
  apply Rle_ge. apply Rmult_le_reg_r with (null_deviance u); [exact ND|]. unfold Rdiv.
  rewrite !Rmult_minus_distr_r, !Rmult_assoc, Rinv_l by lra. lra.
Qed.
Print Assumptions C96_training_score.

(** Two columns instead of one, no penalties: a silent fit of the larger model and a fit of the smaller one. *)
Definition ex96_u (p : nat) : user := mkUser 4 p
  (fun i j => match j with O => (if Nat.odd i then -1 else 1) | _ => (if Nat.leb i 1 then 2 else -2) end)
  (fun i => match i with O => 1 | 1%nat => -1 | 2%nat => -1 | _ => 1 end) (fun _ => / 4) (fun _ => 0) false
  NormalF IdentityL (fun _ => 0) (P2diag (fun _ => 0)) (fun _ => None) (fun _ => None) false.
Lemma ex96_ok : user_ok (ex96_u 2).
Proof.
  split; [exact I|]. split; [intros; exact I|]. split; [intros; cbn; lra|]. split; [intros; cbn; lra|]. split.
  - intros i j _ _. cbn [ex96_u u_P2 p2_entry]. destruct (Nat.eqb i j), (Nat.eqb j i); reflexivity.
  - intros x. apply Req_le. symmetry. apply rsum_zero. intros i _. apply rsum_zero. intros j _. cbn [ex96_u u_P2 p2_entry].
    destruct (Nat.eqb i j); ring.
Qed.
Lemma ex96_contains : contains (ex96_u 1) (ex96_u 2).
Proof.
  split; try reflexivity; cbn; intros; try lia; auto.
  split; discriminate.
Qed.
Lemma ex96_fit l : exists b, fit_with SCd (ex96_u 2) ex70_se None l 0 StartNone = Some (0, b, false, false) /\ forall j, b j = 0.
Proof.
  set (u := ex96_u 2). assert (Hok : user_ok u) by exact ex96_ok.
  set (v := get_start_coef (u_p u) (u_ic u) (u_means u) (u_stds u) 0 (u_lb u) (u_ub u) StartNone).
  assert (V : forall k, v k = 0) by (intros k; reflexivity).
  assert (B : forall j, snd (user_result u v) j = 0) by (intros j; rewrite result_coef, V; ring).
  assert (B0 : fst (user_result u v) = 0).
  { unfold user_result, unpack, unstandardize. change (u_ic u) with false. cbn [fst]. rewrite rsum_zero; [ring|]. intros j _. rewrite V. ring. }
  set (se := solve_settings SCd u ex70_se). set (pb := std_problem u se).
  assert (SC : forall j, (j < 2)%nat -> score_of pb (std_problem_P2 u) v j = 0).
  { intros j Hj. replace j with (ioff (u_ic u) + j)%nat by reflexivity. unfold pb. rewrite score_column.
    - assert (ET : forall i, user_eta u (fst (user_result u v)) (snd (user_result u v)) i = 0).
      { intros i. unfold user_eta. rewrite B0, rsum_zero by (intros k _; rewrite B; ring). cbn. ring. }
      change (u_n u) with 4%nat. cbn [rsum]. rewrite !ET. set (o := one_over _).
      assert (M : u_means u j = 0) by reflexivity. rewrite M. clearbody o.
      destruct j as [|[|j]]; [| |lia]; cbn; ring.
    - exact Hj.
    - intros k _. cbn. destruct (Nat.eqb k j); reflexivity.
    - exact I. }
  assert (IR : irls_solver pb (cd_solver pb (lib_seed l)) (std_problem_P2 u) v = Some (init_state pb (std_problem_P2 u) false v, false)).
  { apply irls_at_start; [apply std_ok, Hok|cbn; lra|].
    change (nc pb) with 2%nat. rewrite rsum_zero; [cbn; lra|].
    intros k Hk. unfold entry. change (pb_ic pb) with false. cbn [ioff Nat.ltb Nat.leb].
    rewrite SC by exact Hk. rewrite V. change (pb_lb pb (k - 0)%nat) with (@None R). change (pb_ub pb (k - 0)%nat) with (@None R).
    unfold subgrad_term, fsign, at_bound. rewrite (proj2 (Reqb_true 0 0)) by reflexivity.
    rewrite Ropp_0. rewrite (proj2 (Rltb_false 0 0)) by lra. cbn [andb]. rewrite (proj2 (Reqb_true 0 0)) by reflexivity. rewrite Rmult_0_l. apply Rabs_R0. }
  exists (snd (user_result u v)). split; [|exact B].
  assert (EC : forall pb P2, st_coef (init_state pb P2 false v) = v /\ st_lswarn (init_state pb P2 false v) = 0%nat).
  { intros pb0 P2. unfold init_state. destruct (eta_mu_objective _ _ _ _ _ _) as [[[? ?] ?] ?].
    destruct (update_quadratic _ _ _ _) as [[? ?] ?]. destruct (check_convergence _ _ _ _) as [[[? ?] ?] ?]. split; reflexivity. }
  unfold fit_with. fold v. unfold solve. cbv zeta. fold se. fold pb. rewrite IR.
  destruct (EC pb (std_problem_P2 u)) as [-> ->]. rewrite <- B0 at 1. rewrite <- surjective_pairing. reflexivity.
Qed.
Example ex96_nonvacuous : exists b, contains (ex96_u 1) (ex96_u 2) /\ unpenalised (ex96_u 2) /\ user_ok (ex96_u 2) /\
  convex_pair (u_fam (ex96_u 2)) (u_link (ex96_u 2)) /\ libs_sound 0 exact_libs /\ start_ok (ex96_u 2) StartNone /\ accepts SCd (ex96_u 2) None /\
  unclipped (ex96_u 2) 0 b /\ unclipped (ex96_u 1) 0 (fun _ => 1) /\
  fit_with SCd (ex96_u 2) ex70_se None exact_libs 0 StartNone = Some (0, b, false, false) /\
  user_feasible (ex96_u 1) (fun _ => 1) /\ 0 < null_deviance (ex96_u 1) /\
  std_close (ex96_u 2) (col_scale (ex96_u 2) 0) 0 b 0 (padded (ex96_u 1) (fun _ => 1)).
Proof.
  destruct (ex96_fit exact_libs) as [b [F B]]. exists b. split; [exact ex96_contains|]. split.
  { split; [reflexivity|]. intros j k _ _. cbn. destruct (Nat.eqb j k); reflexivity. }
  split; [exact ex96_ok|]. split; [exact I|]. split; [apply exact_libs_sound; lra|].
  split; [left; split; [reflexivity|]; intros j _; split; discriminate|]. split; [split; [congruence|congruence]|].
  split; [discriminate|]. split; [discriminate|]. split; [exact F|]. split; [intros j _; split; discriminate|]. split.
  - unfold null_deviance, train_mean. cbn. unfold lsumf. cbn. lra.
  - split; [discriminate|]. assert (C0 : 0 <= col_scale (ex96_u 2) 0) by (unfold col_scale; destruct (Rltb _ _); [lra|apply sqrt_pos]).
    intros j Hj. rewrite B, Rminus_0_r. destruct j as [|[|j]]; [| |cbn in Hj; lia].
    + unfold padded. cbn [Nat.ltb Nat.leb u_p ex96_u]. rewrite Rabs_R1, Rmult_1_r. lra.
    + unfold padded. cbn [Nat.ltb Nat.leb u_p ex96_u]. rewrite Rabs_R0, Rmult_0_r. exact C0.
Qed.
