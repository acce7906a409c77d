(** C93: interchangeable columns get the same coefficient, up to the tolerance and as far as the ridge penalty decides. *)
From Coq Require Import List Lia Lra. Import ListNotations.
From Verif Require Import Base M_Link M_Dist M_Std M_Valid M_Fit L_KKT L_Std S_Dist S_Std S_Fit S_FitAll L_Score L_FitAll L_Gap L_Fit P_Score P_FitAll P_Order S_Twin.
From Verif Require Import M_Solver S_Solver.
Local Open Scope R_scope.

Lemma rsum_two n j k f : (j < n)%nat -> (k < n)%nat -> j <> k -> (forall a, (a < n)%nat -> a <> j -> a <> k -> f a = 0) -> rsum n f = f j + f k.
Proof.
  intros Hj Hk N H.
  rewrite (rsum_ext n f (fun a => (if Nat.eqb a j then f a else 0) + (if Nat.eqb a k then f a else 0))).
  - rewrite rsum_plus, (rsum_single n j), (rsum_single n k); try assumption.
    + rewrite !Nat.eqb_refl. reflexivity.
    + intros a _ Ha. destruct (Nat.eqb_spec a k); [contradiction|reflexivity].
    + intros a _ Ha. destruct (Nat.eqb_spec a j); [contradiction|reflexivity].
  - intros a Ha. destruct (Nat.eqb_spec a j), (Nat.eqb_spec a k); subst; try ring; [exfalso; apply N; reflexivity|]. rewrite H by assumption. ring.
Qed.

Section Twin.
Variables (u : user) (j k : nat).
Hypothesis HT : twins u j k.
Let p := u_p u.
Definition tdiff (b : nat -> R) (a : nat) : R := evened j k b a - b a.
Lemma td_j b : tdiff b j = (b k - b j) / 2.
Proof. unfold tdiff, evened. rewrite Nat.eqb_refl. cbn [orb]. field. Qed.
Lemma td_k b : tdiff b k = (b j - b k) / 2.
Proof. unfold tdiff, evened. rewrite Nat.eqb_refl, orb_true_r. field. Qed.
Lemma td_0 b a : a <> j -> a <> k -> tdiff b a = 0.
Proof. intros A B. unfold tdiff, evened. apply Nat.eqb_neq in A, B. rewrite A, B. cbn [orb]. ring. Qed.
Lemma ev_j b : evened j k b j = (b j + b k) / 2.
Proof. unfold evened. rewrite Nat.eqb_refl. reflexivity. Qed.
Lemma ev_k b : evened j k b k = (b j + b k) / 2.
Proof. unfold evened. rewrite Nat.eqb_refl, orb_true_r. reflexivity. Qed.
Lemma tw_sum b (F : nat -> R) : F j = F k -> rsum p (fun a => F a * tdiff b a) = 0.
Proof.
  intros E. destruct HT as (Hj & Hk & N & _). rewrite (rsum_two p j k); try assumption; [|intros a _ A B; rewrite td_0 by assumption; ring].
  rewrite td_j, td_k, E. field.
Qed.
Lemma tw_eta b0 b i : user_eta u b0 (evened j k b) i = user_eta u b0 b i.
Proof.
  destruct HT as (_ & _ & _ & HX & _). unfold user_eta. f_equal. f_equal.
  transitivity (rsum (u_p u) (fun a => u_X u i a * b a + u_X u i a * tdiff b a)); [apply rsum_ext; intros; unfold tdiff; ring|].
  rewrite rsum_plus. change (u_p u) with p at 2. rewrite (tw_sum b (fun a => u_X u i a) (HX i)). ring.
Qed.
Lemma tw_stds : u_stds u j = u_stds u k.
Proof.
  destruct HT as (_ & _ & _ & HX & _). unfold u_stds, col_stds. f_equal.
  assert (W : wmean (u_n u) (u_w u) (fun i => u_X u i j) = wmean (u_n u) (u_w u) (fun i => u_X u i k)) by (apply rsum_ext; intros; rewrite HX; reflexivity).
  rewrite W. apply rsum_ext. intros. rewrite HX. reflexivity.
Qed.
Lemma tw_means : u_means u j = u_means u k.
Proof.
  destruct HT as (_ & _ & _ & HX & _). unfold u_means, col_means. destruct (u_ic u); [|reflexivity]. apply rsum_ext. intros. rewrite HX. reflexivity.
Qed.
Lemma tw_scale : col_scale u j = col_scale u k.
Proof. unfold col_scale. rewrite tw_stds. reflexivity. Qed.
Lemma tw_pen : pen_scale u j = pen_scale u k.
Proof. unfold pen_scale. destruct (u_scale u); [apply tw_scale|reflexivity]. Qed.
Lemma tw_dev b0 b : pred_dev u b0 b b0 (evened j k b) = pred_dev u b0 b b0 b.
Proof.
  unfold pred_dev, pred_gap. assert (E : forall i, user_eta u b0 (evened j k b) i = user_eta u b0 b i) by (intros; apply tw_eta).
  assert (M : map (fun i => mkobs (mean_at (u_link u) (user_eta u b0 b i)) (u_w u i * pred_weight (u_fam u) (u_y u i) (mean_at (u_link u) (user_eta u b0 b i))) (mean_at (u_link u) (user_eta u b0 (evened j k b) i))) (seq 0 (u_n u))
    = map (fun i => mkobs (mean_at (u_link u) (user_eta u b0 b i)) (u_w u i * pred_weight (u_fam u) (u_y u i) (mean_at (u_link u) (user_eta u b0 b i))) (mean_at (u_link u) (user_eta u b0 b i))) (seq 0 (u_n u)))
    by (apply map_ext; intros i; rewrite E; reflexivity).
  cbv zeta. rewrite M. reflexivity.
Qed.
(** the bilinear form of the L2 penalty vanishes between an evened vector and the difference *)
Lemma tw_bilin (s : nat -> R) b : s j = s k -> p2_sym p (u_P2 u) ->
  rsum p (fun a => rsum p (fun c => (s a * evened j k b a) * p2_entry (u_P2 u) a c * (s c * tdiff b c))) = 0.
Proof.
  intros Es HS. destruct HT as (Hj & Hk & N & _ & _ & _ & _ & Pd & Po & Pr).
  assert (R1 : forall a, rsum p (fun c => (s a * evened j k b a) * p2_entry (u_P2 u) a c * (s c * tdiff b c))
     = s a * evened j k b a * s k * (p2_entry (u_P2 u) a j - p2_entry (u_P2 u) a k) * ((b k - b j) / 2)).
  { intros a. rewrite (rsum_two p j k); try assumption; [rewrite td_j, td_k, Es; field|]. intros c _ A B. rewrite td_0 by assumption. ring. }
  rewrite (rsum_ext p _ _ (fun a _ => R1 a)). rewrite (rsum_two p j k); try assumption.
  - rewrite ev_j, ev_k, Es, Pd, Po. ring.
  - intros a Ha A B. rewrite (Pr a Ha A B). ring.
Qed.
Lemma tw_l2 (s : nat -> R) b : s j = s k -> p2_sym p (u_P2 u) ->
  user_l2 u s (evened j k b) = user_l2 u s b - user_l2 u s (tdiff b).
Proof.
  intros Es HS. pose proof (tw_bilin s b Es HS) as B0.
  assert (B1 : rsum p (fun a => rsum p (fun c => (s a * tdiff b a) * p2_entry (u_P2 u) a c * (s c * evened j k b c))) = 0).
  { rewrite <- B0. rewrite rsum_swap. apply rsum_ext. intros c Hc. apply rsum_ext. intros a Ha. rewrite (HS a c Ha Hc). ring. }
  assert (E : user_l2 u s b = user_l2 u s (evened j k b)
    - rsum p (fun a => rsum p (fun c => (s a * evened j k b a) * p2_entry (u_P2 u) a c * (s c * tdiff b c)))
    - rsum p (fun a => rsum p (fun c => (s a * tdiff b a) * p2_entry (u_P2 u) a c * (s c * evened j k b c)))
    + user_l2 u s (tdiff b)).
  { unfold user_l2. fold p. rewrite <- !rsum_minus, <- rsum_plus. apply rsum_ext. intros a _. rewrite <- !rsum_minus, <- rsum_plus. apply rsum_ext. intros c _.
    unfold tdiff. ring. }
  rewrite E, B0, B1. ring.
Qed.
Lemma tw_l1 b : (forall a, 0 <= u_P1 u a) ->
  rsum p (fun a => u_P1 u a * Rabs (pen_scale u a * evened j k b a)) <= rsum p (fun a => u_P1 u a * Rabs (pen_scale u a * b a)).
Proof.
  intros HP. destruct HT as (Hj & Hk & N & _ & E1 & _).
  assert (D : rsum p (fun a => u_P1 u a * Rabs (pen_scale u a * evened j k b a) - u_P1 u a * Rabs (pen_scale u a * b a)) <= 0).
  { rewrite (rsum_two p j k); try assumption.
    - rewrite ev_j, ev_k, E1, tw_pen, !Rabs_mult. set (q := Rabs (pen_scale u k)). assert (Q : 0 <= q) by apply Rabs_pos.
      assert (T : 2 * Rabs ((b j + b k) / 2) <= Rabs (b j) + Rabs (b k)).
      { unfold Rdiv. rewrite Rabs_mult, (Rabs_right (/ 2)) by lra. pose proof (Rabs_triang (b j) (b k)). lra. }
      pose proof (Rmult_le_pos _ _ (HP k) Q) as PQ. pose proof (Rmult_le_compat_l _ _ _ PQ T). nra.
    - intros a _ A B. unfold evened. apply Nat.eqb_neq in A, B. rewrite A, B. cbn [orb]. ring. }
  rewrite rsum_minus in D. lra.
Qed.
Lemma tw_obj b0 b : user_ok u -> user_obj u (pen_scale u) b0 (evened j k b) <= user_obj u (pen_scale u) b0 b - / 2 * user_l2 u (pen_scale u) (tdiff b).
Proof.
  intros (_ & _ & _ & HP1 & HS & _). pose proof (tw_l2 (pen_scale u) b tw_pen HS) as E2. pose proof (tw_l1 b HP1) as E1. unfold user_obj.
  assert (M : map (fun i => mkobs (u_y u i) (u_w u i) (search_mean (u_fam u) (u_link u) (user_eta u b0 (evened j k b) i))) (seq 0 (u_n u))
     = map (fun i => mkobs (u_y u i) (u_w u i) (search_mean (u_fam u) (u_link u) (user_eta u b0 b i))) (seq 0 (u_n u)))
     by (apply map_ext; intros i; rewrite tw_eta; reflexivity).
  rewrite M. unfold user_l2 in *. unfold p in *. lra.
Qed.
Lemma tw_feasible b : user_feasible u b -> user_feasible u (evened j k b).
Proof.
  intros F a Ha. destruct HT as (Hj & Hk & N & _ & _ & L & U & _).
  pose proof (F j Hj) as Fj. pose proof (F k Hk) as Fk. rewrite L, U in Fj.
  assert (G : within (u_lb u k) (u_ub u k) ((b j + b k) / 2)).
  { destruct Fj as [L1 U1], Fk as [L2 U2]. split; intros x Hx; [pose proof (L1 x Hx); pose proof (L2 x Hx)|pose proof (U1 x Hx); pose proof (U2 x Hx)]; lra. }
  unfold evened. destruct (Nat.eqb_spec a j) as [->|]; [cbn [orb]; rewrite L, U; exact G|]. destruct (Nat.eqb_spec a k) as [->|]; [exact G|apply F, Ha].
Qed.
Lemma tw_close b0 b : std_close u (col_scale u j * Rabs (b k - b j) / 2) b0 b b0 (evened j k b).
Proof.
  assert (CS : 0 < col_scale u j).
  { unfold col_scale. destruct (Rltb (Rabs (u_stds u j)) std_threshold) eqn:E; [lra|]. apply Rltb_false in E.
    assert (P : 0 <= u_stds u j) by apply sqrt_pos. rewrite (Rabs_right _ (Rle_ge _ _ P)) in E. unfold std_threshold in E. lra. }
  assert (D : 0 <= col_scale u j * Rabs (b k - b j) / 2) by (pose proof (Rabs_pos (b k - b j)); nra).
  assert (H : Rabs ((b k - b j) / 2) = Rabs (b k - b j) / 2) by (unfold Rdiv; rewrite Rabs_mult, (Rabs_right (/ 2)) by lra; reflexivity).
  split.
  - intros _. pose proof (tw_sum b (u_means u) tw_means) as Z. unfold tdiff in Z. fold p. rewrite Z. replace (b0 - b0 + 0) with 0 by ring. rewrite Rabs_R0. exact D.
  - intros a Ha. fold (tdiff b a). destruct (Nat.eq_dec a j) as [->|A]; [rewrite td_j, H; lra|]. destruct (Nat.eq_dec a k) as [->|B].
    + rewrite td_k, <- tw_scale. replace ((b j - b k) / 2) with (- ((b k - b j) / 2)) by field. rewrite Rabs_Ropp, H. lra.
    + rewrite td_0 by assumption. rewrite Rabs_R0. lra.
Qed.
End Twin.

(** A silent fit by any solver: the L2 penalty of the difference to the evened coefficients is within the tolerance;
    evening the two coefficients changes no prediction. *)
Theorem C93_twins : forall s u j k se l guess a b0 b sl, twins u j k ->
  user_ok u -> 0 <= se_approx se -> se_stol se = None ->
  convex_pair (u_fam u) (u_link u) -> libs_sound sl l -> start_ok u a -> accepts s u None -> s <> SMono ->
  (s = SLbfgs \/ s = STrust -> unclipped u b0 b) ->
  fit_with s u se None l guess a = Some (b0, b, false, false) ->
  user_l2 u (pen_scale u) (fun a => evened j k b a - b a) <= fit_tol s u se * (col_scale u j * Rabs (b k - b j) / 2) /\
  forall i, user_eta u b0 (evened j k b) i = user_eta u b0 b i.
Proof.
  intros s u j k se l guess a b0 b sl HT Hok HA Hst Hc Hl Ha Hacc Hs Hu E. split; [|intros; apply tw_eta; assumption].
  destruct (C70_silent_near_optimal s u se None l guess a b0 b sl Hok HA Hst Hc Hl Ha Hacc Hs Hu E) as [[I0 N] [F _]].
  pose proof (tw_close u j k HT b0 b) as CL.
  assert (D : 0 <= col_scale u j * Rabs (b k - b j) / 2).
  { assert (CS : 0 <= col_scale u j).
    { unfold col_scale. destruct (Rltb (Rabs (u_stds u j)) std_threshold); [lra|apply sqrt_pos]. }
    pose proof (Rmult_le_pos _ _ CS (Rabs_pos (b k - b j))). lra. }
  specialize (N b0 (evened j k b) _ (conj (tw_feasible u j k HT b F) I) I0 D CL).
  pose proof (tw_obj u j k HT b0 b Hok) as O.
  pose proof (pred_dev_nonneg u b0 b b0 (evened j k b) Hok Hc) as P.
  assert (Z : match s, @None ineq with STrust, Some _ => sl | _, _ => 0 end = 0) by (destruct s; reflexivity). rewrite Z in N.
  change (fun a => evened j k b a - b a) with (tdiff j k b) in *. lra.
Qed.
Print Assumptions C93_twins.

(** With a diagonal L2 penalty of strength lambda on the two columns their coefficients differ by at most the
    tolerance over lambda (times the scale of the column, in the units the penalty is measured in). *)
Theorem C93_ridge : forall s u j k lam d se l guess a b0 b sl, twins u j k ->
  u_P2 u = P2diag d -> d j = lam ->
  user_ok u -> 0 <= se_approx se -> se_stol se = None ->
  convex_pair (u_fam u) (u_link u) -> libs_sound sl l -> start_ok u a -> accepts s u None -> s <> SMono ->
  (s = SLbfgs \/ s = STrust -> unclipped u b0 b) ->
  fit_with s u se None l guess a = Some (b0, b, false, false) -> 0 <= fit_tol s u se ->
  lam * (pen_scale u j) ^ 2 * Rabs (b j - b k) <= fit_tol s u se * col_scale u j.
Proof.
  intros s u j k lam d se l guess a b0 b sl HT HD HL Hok HA Hst Hc Hl Ha Hacc Hs Hu E HF.
  destruct (C93_twins s u j k se l guess a b0 b sl HT Hok HA Hst Hc Hl Ha Hacc Hs Hu E) as [Q _].
  change (fun a => evened j k b a - b a) with (tdiff j k b) in Q.
  assert (L2 : user_l2 u (pen_scale u) (tdiff j k b) = lam * (pen_scale u j) ^ 2 * Rabs (b j - b k) ^ 2 / 2).
  { pose proof HT as (Hj & Hk & N & _ & _ & _ & _ & Pd & _). rewrite HD in Pd. cbn in Pd. rewrite !Nat.eqb_refl in Pd.
    unfold user_l2. rewrite HD. cbn [p2_entry].
    rewrite (rsum_ext (u_p u) _ (fun i => d i * (pen_scale u i * tdiff j k b i) ^ 2)).
    - rewrite (rsum_two (u_p u) j k); try assumption; [|intros x _ A B; rewrite td_0 by assumption; ring].
      rewrite (td_j j k), (td_k j k), <- (tw_pen u j k HT).
      rewrite pow2_abs, <- Pd, HL. field.
    - intros i Hi. rewrite (rsum_single (u_p u) i); [rewrite Nat.eqb_refl; ring|exact Hi|].
      intros c _ Hc'. destruct (Nat.eqb_spec i c); [subst; contradiction|ring]. }
  rewrite L2 in Q. rewrite (Rabs_minus_sym (b k) (b j)) in Q. set (r := Rabs (b j - b k)) in *.
  assert (R0 : 0 <= r) by apply Rabs_pos. destruct (Req_dec r 0) as [Z|Z].
  - rewrite Z, Rmult_0_r. assert (CS : 0 <= col_scale u j) by (unfold col_scale; destruct (Rltb (Rabs (u_stds u j)) std_threshold); [lra|apply sqrt_pos]).
    apply Rmult_le_pos; assumption.
  - apply (Rmult_le_reg_r r); [lra|]. nra.
Qed.
Print Assumptions C93_ridge.

(** A silent fit with two equal columns, an L1 and a ridge penalty. *)
Definition ex93_u : user := mkUser 4 2 (fun i _ => if Nat.odd i then -1 else 1)
  (fun i => match i with O => 1 | 1%nat => -1 | 2%nat => -1 | _ => 1 end) (fun _ => / 4) (fun _ => 0) false
  NormalF IdentityL (fun _ => 1) (P2diag (fun _ => 3)) (fun _ => None) (fun _ => None) false.
Lemma ex93_ok : user_ok ex93_u.
Proof.
  split; [exact I|]. split; [intros; exact I|]. split; [intros; cbn; lra|]. split; [intros; cbn; lra|]. split.
  - intros i j _ _. cbn [ex93_u u_P2 p2_entry]. destruct (Nat.eqb_spec i j), (Nat.eqb_spec j i); subst; try reflexivity; exfalso; auto.
  - intros x. apply rsum_nonneg. intros i Hi. cbn [ex93_u u_P2 p2_entry u_p] in *. rewrite (rsum_single 2 i); [|exact Hi|].
    + rewrite Nat.eqb_refl. nra.
    + intros j _ N. destruct (Nat.eqb_spec i j); [subst; contradiction|ring].
Qed.
Lemma ex93_fit l : exists b, fit_with SCd ex93_u ex70_se None l 0 StartNone = Some (0, b, false, false) /\ forall j, b j = 0.
Proof.
  set (u := ex93_u). assert (Hok : user_ok u) by exact ex93_ok.
  set (v := get_start_coef (u_p u) (u_ic u) (u_means u) (u_stds u) 0 (u_lb u) (u_ub u) StartNone).
  assert (V : forall k, v k = 0) by (intros k; reflexivity).
  assert (B : forall j, snd (user_result u v) j = 0) by (intros j; rewrite result_coef, V; ring).
  assert (B0 : fst (user_result u v) = 0).
  { unfold user_result, unpack, unstandardize. change (u_ic u) with false. cbn [fst]. rewrite rsum_zero; [ring|]. intros j _. rewrite V. ring. }
  set (se := solve_settings SCd u ex70_se). set (pb := std_problem u se).
  assert (SC : forall j, (j < 2)%nat -> score_of pb (std_problem_P2 u) v j = 0).
  { intros j Hj. unfold score_of. rewrite (rsum_zero (nc pb)) by (intros; rewrite V; ring). rewrite Rminus_0_r.
    assert (ET : forall i, user_eta u (fst (user_result u v)) (snd (user_result u v)) i = 0).
    { intros i. unfold user_eta. rewrite B0, rsum_zero by (intros k _; rewrite B; ring). cbn. ring. }
    assert (M : u_means u j = 0) by reflexivity.
    rewrite (rsum_ext (pb_n pb) _ (fun i => one_over (u_stds u j) * (/ 4 * u_y u i * u_X u i j))).
    - rewrite rsum_scal. replace (rsum (pb_n pb) (fun i => / 4 * u_y u i * u_X u i j)) with 0; [ring|]. cbn. field.
    - intros i _. unfold mean_of. unfold pb at 1 2 3 4 6. cbn [std_problem pb_fam pb_link pb_y pb_w].
      rewrite residual_eq by exact I. unfold pb. rewrite eta_std, ET. unfold xt. cbn [std_problem pb_ic pb_X].
      change (u_ic u) with false. cbn iota. unfold std_X. rewrite M. unfold residual. cbn [mean_at]. cbn. ring. }
  assert (IR : irls_solver pb (cd_solver pb (lib_seed l)) (std_problem_P2 u) v = Some (init_state pb (std_problem_P2 u) false v, false)).
  { apply irls_at_start; [apply std_ok, Hok|cbn; lra|].
    change (nc pb) with 2%nat. rewrite rsum_zero; [cbn; lra|].
    intros k Hk. unfold entry. change (pb_ic pb) with false. cbn [ioff Nat.ltb Nat.leb].
    rewrite SC by exact Hk. rewrite V. change (pb_lb pb (k - 0)%nat) with (@None R). change (pb_ub pb (k - 0)%nat) with (@None R).
    unfold subgrad_term, fsign, at_bound. rewrite (proj2 (Reqb_true 0 0)) by reflexivity.
    rewrite Ropp_0. rewrite (proj2 (Rltb_false 0 0)) by lra. cbn [andb]. rewrite (proj2 (Reqb_true 0 0)) by reflexivity. rewrite Rmult_0_l. apply Rabs_R0. }
  exists (snd (user_result u v)). split; [|exact B].
  assert (EC : forall pb P2, st_coef (init_state pb P2 false v) = v /\ st_lswarn (init_state pb P2 false v) = 0%nat).
  { intros pb0 P2. unfold init_state. destruct (eta_mu_objective _ _ _ _ _ _) as [[[? ?] ?] ?].
    destruct (update_quadratic _ _ _ _) as [[? ?] ?]. destruct (check_convergence _ _ _ _) as [[[? ?] ?] ?]. split; reflexivity. }
  unfold fit_with. fold v. unfold solve. cbv zeta. fold se. fold pb. rewrite IR.
  destruct (EC pb (std_problem_P2 u)) as [-> ->]. rewrite <- B0 at 1. rewrite <- surjective_pairing. reflexivity.
Qed.
Example ex93_nonvacuous : exists b, twins ex93_u 0 1 /\ u_P2 ex93_u = P2diag (fun _ => 3) /\ user_ok ex93_u /\
  0 <= se_approx ex70_se /\ se_stol ex70_se = None /\ convex_pair (u_fam ex93_u) (u_link ex93_u) /\
  libs_sound 0 exact_libs /\ start_ok ex93_u StartNone /\ accepts SCd ex93_u None /\
  fit_with SCd ex93_u ex70_se None exact_libs 0 StartNone = Some (0, b, false, false) /\ 0 <= fit_tol SCd ex93_u ex70_se.
Proof.
  destruct (ex93_fit exact_libs) as [b [F B]]. exists b.
  split.
  { split; [cbn; lia|]. split; [cbn; lia|]. split; [discriminate|]. split; [reflexivity|]. split; [reflexivity|]. split; [reflexivity|].
    split; [reflexivity|]. split; [reflexivity|]. split; [reflexivity|]. intros a Ha H0 H1. exfalso. cbn in Ha. lia. }
  split; [reflexivity|]. split; [exact ex93_ok|]. split; [cbn; lra|]. split; [reflexivity|]. split; [exact I|].
  split; [apply exact_libs_sound; lra|]. split; [left; split; [reflexivity|]; intros j _; split; discriminate|].
  split; [split; [congruence|congruence]|]. split; [exact F|]. cbn. lra.
Qed.
