(** C100: fit_intercept=True is an unpenalised, unbounded column of ones. *)
From Coq Require Import List Lia Lra Arith. Import ListNotations.
From Verif Require Import Base M_Link M_Dist M_Std M_Valid M_Fit L_KKT L_Std S_Dist S_Std S_Fit S_FitAll L_Score L_FitAll L_Gap L_Fit P_Score P_FitAll P_Order P_Recode S_Ones.
From Verif Require Import M_Solver S_Solver.
Local Open Scope R_scope.

Lemma ltb_in p j : (j < p)%nat -> Nat.ltb j p = true.
Proof. apply Nat.ltb_lt. Qed.
Lemma ltb_self p : Nat.ltb p p = false.
Proof. apply Nat.ltb_irrefl. Qed.

Section Ones.
Variable u : user.
Notation p := (u_p u).
Notation v := (with_ones u).
Lemma oc_in b0 b j : (j < p)%nat -> ones_coef u b0 b j = b j.
Proof. intros H. unfold ones_coef. rewrite ltb_in by exact H. reflexivity. Qed.
Lemma oc_last b0 b : ones_coef u b0 b p = b0.
Proof. unfold ones_coef. rewrite ltb_self. reflexivity. Qed.
Lemma oc_back c : forall j, (j < S p)%nat -> ones_coef u (c p) c j = c j.
Proof. intros j Hj. unfold ones_coef. destruct (Nat.ltb_spec j p); [reflexivity|]. replace j with p by lia. reflexivity. Qed.

Lemma on_eta c i : user_eta v 0 c i = user_eta u (c p) c i.
Proof.
  unfold user_eta. cbn [with_ones u_p u_X u_off rsum]. rewrite ltb_self.
  rewrite (rsum_ext p _ (fun j => u_X u i j * c j)); [ring|]. intros j Hj. rewrite ltb_in by exact Hj. reflexivity.
Qed.
Lemma on_p2 i j : (i < p)%nat -> (j < p)%nat -> p2_entry (u_P2 v) i j = p2_entry (u_P2 u) i j.
Proof. intros Hi Hj. cbn [with_ones u_P2]. destruct (u_P2 u); cbn [p2_entry]; rewrite ?ltb_in by assumption; reflexivity. Qed.
Lemma on_p2_l j : p2_entry (u_P2 v) p j = 0.
Proof. cbn [with_ones u_P2]. destruct (u_P2 u); cbn [p2_entry]; rewrite ltb_self; [destruct (Nat.eqb _ _)|]; reflexivity. Qed.
Lemma on_p2_r i : p2_entry (u_P2 v) i p = 0.
Proof.
  cbn [with_ones u_P2]. destruct (u_P2 u); cbn [p2_entry].
  - destruct (Nat.eqb_spec i p) as [->|]; [rewrite ltb_self|]; reflexivity.
  - rewrite ltb_self, Bool.andb_false_r. reflexivity.
Qed.
Lemma on_form x y : rsum (u_p v) (fun i => rsum (u_p v) (fun j => x i * p2_entry (u_P2 v) i j * y j))
  = rsum p (fun i => rsum p (fun j => x i * p2_entry (u_P2 u) i j * y j)).
Proof.
  change (u_p v) with (S p). cbn [rsum]. rewrite (rsum_zero p (fun j => x p * p2_entry (u_P2 v) p j * y j)) by (intros; rewrite on_p2_l; ring).
  rewrite on_p2_l. rewrite (rsum_ext p _ (fun i => rsum p (fun j => x i * p2_entry (u_P2 u) i j * y j))); [ring|].
  intros i Hi. rewrite on_p2_r. rewrite (rsum_ext p _ (fun j => x i * p2_entry (u_P2 u) i j * y j)); [ring|].
  intros j Hj. rewrite on_p2 by assumption. reflexivity.
Qed.
Lemma on_scale j : (j < p)%nat -> col_scale v j = col_scale u j.
Proof.
  intros Hj. unfold col_scale. replace (u_stds v j) with (u_stds u j); [reflexivity|]. unfold u_stds, col_stds. cbn [with_ones u_n u_w u_X].
  rewrite ltb_in by exact Hj. reflexivity.
Qed.
Lemma on_scale_last : rsum (u_n u) (u_w u) = 1 -> col_scale v p = 1.
Proof.
  intros W. unfold col_scale. replace (u_stds v p) with 0.
  - rewrite Rabs_R0, (proj2 (Rltb_true _ _)); [reflexivity|]. unfold std_threshold. lra.
  - unfold u_stds, col_stds, wmean. cbn [with_ones u_n u_w u_X]. rewrite ltb_self.
    rewrite (rsum_ext (u_n u) (fun i => u_w u i * 1) (u_w u)) by (intros; ring). rewrite W, rsum_zero; [symmetry; apply sqrt_0|]. intros; ring.
Qed.
Lemma on_means j : u_means v j = 0.
Proof. reflexivity. Qed.
Hypothesis HS : u_scale u = false.
Lemma on_pen j : pen_scale v j = 1.
Proof. unfold pen_scale. cbn [with_ones u_scale]. rewrite HS. reflexivity. Qed.
Lemma on_pen' j : pen_scale u j = 1.
Proof. unfold pen_scale. rewrite HS. reflexivity. Qed.
Lemma on_l2 d : user_l2 v (pen_scale v) d = user_l2 u (pen_scale u) d.
Proof.
  unfold user_l2. rewrite (on_form (fun i => pen_scale v i * d i) (fun j => pen_scale v j * d j)).
  apply rsum_ext. intros i Hi. apply rsum_ext. intros j Hj. rewrite !on_pen, !on_pen'. reflexivity.
Qed.
Lemma on_obj c : user_obj v (pen_scale v) 0 c = user_obj u (pen_scale u) (c p) c.
Proof.
  unfold user_obj. f_equal; [f_equal|].
  - f_equal. change (u_fam v) with (u_fam u). change (u_n v) with (u_n u). apply (f_equal (deviance (u_fam u))).
    apply map_ext. intros i. rewrite on_eta. reflexivity.
  - f_equal. apply on_l2.
  - cbn [with_ones u_p u_P1 rsum]. rewrite ltb_self, Rmult_0_l, Rplus_0_r. apply rsum_ext. intros j Hj.
    rewrite ltb_in by exact Hj. rewrite on_pen, on_pen'. reflexivity.
Qed.
Lemma on_dev c c' : pred_dev v 0 c 0 c' = pred_dev u (c p) c (c' p) c'.
Proof.
  unfold pred_dev. cbn [with_ones u_fam u_link u_n u_y u_w].
  replace (user_eta v 0 c) with (user_eta u (c p) c) by (apply FunctionalExtensionality.functional_extensionality; intros; symmetry; apply on_eta).
  replace (user_eta v 0 c') with (user_eta u (c' p) c') by (apply FunctionalExtensionality.functional_extensionality; intros; symmetry; apply on_eta).
  reflexivity.
Qed.
Lemma on_feasible b0 b : user_feasible u b -> user_feasible v (ones_coef u b0 b).
Proof.
  intros F j Hj. cbn [with_ones u_p u_lb u_ub] in *. unfold ones_coef. destruct (Nat.ltb_spec j p); [apply F; assumption|]. split; discriminate.
Qed.
Lemma on_feasible' c : user_feasible v c -> user_feasible u c.
Proof.
  intros F j Hj. specialize (F j). cbn [with_ones u_p u_lb u_ub] in F. rewrite ltb_in in F by exact Hj. apply F. lia.
Qed.
Lemma on_ineq q c : user_ineq v (ones_ineq u q) c <-> user_ineq u q c.
Proof.
  unfold user_ineq. cbn [ones_ineq iq_m iq_A iq_b]. change (u_p v) with (S p).
  assert (E : forall r, rsum (S p) (fun j => (if Nat.ltb j p then iq_A q r j else 0) * c j) = rsum p (fun j => iq_A q r j * c j)).
  { intros r. cbn [rsum]. rewrite ltb_self. rewrite (rsum_ext p _ (fun j => iq_A q r j * c j)); [ring|]. intros j Hj. rewrite ltb_in by exact Hj. reflexivity. }
  split; intros H r Hr; specialize (H r Hr); [rewrite <- E|rewrite E]; exact H.
Qed.
Lemma on_ok : user_ok u -> user_ok v.
Proof.
  intros (F & Y & W & P1 & Sy & Q). split; [exact F|]. split; [exact Y|]. split; [exact W|]. split; [|split].
  - intros j. cbn [with_ones u_P1]. destruct (Nat.ltb j p); [apply P1|lra].
  - intros i j Hi Hj. change (u_p v) with (S p) in Hi, Hj.
    destruct (Nat.eq_dec i p) as [->|Ni]; [rewrite on_p2_l, on_p2_r; reflexivity|].
    destruct (Nat.eq_dec j p) as [->|Nj]; [rewrite on_p2_l, on_p2_r; reflexivity|].
    rewrite !on_p2 by lia. apply Sy; lia.
  - intros x. rewrite (on_form x x). apply Q.
Qed.
Lemma on_start a : start_ok u a -> start_ok v a.
Proof.
  intros [[E H]|H]; [left; split; [exact E|]|right].
  - intros j Hj. cbn [with_ones u_p u_lb u_ub] in *. destruct (Nat.ltb_spec j p); [apply H; assumption|]. split; discriminate.
  - intros j x Hj. cbn [with_ones u_p u_lb u_ub] in *. destruct (Nat.ltb_spec j p); [apply H; assumption|]. intros [E|E]; discriminate.
Qed.
Lemma on_accepts s q : accepts s u q -> accepts s v (option_map (ones_ineq u) q).
Proof.
  intros [A B]. split.
  - intros H. destruct (A H) as [L1 NB]. split; intros j Hj; cbn [with_ones u_p u_P1 u_lb u_ub] in *; destruct (Nat.ltb_spec j p); auto.
  - intros H. apply B. intros E. apply H. rewrite E. reflexivity.
Qed.
Lemma on_close : rsum (u_n u) (u_w u) = 1 -> forall D c b0' b', std_close v D 0 c 0 (ones_coef u b0' b') <->
  (Rabs (b0' - c p) <= D /\ forall j, (j < p)%nat -> col_scale u j * Rabs (b' j - c j) <= D).
Proof.
  intros W D c b0' b'. unfold std_close. change (u_ic v) with false. change (u_p v) with (S p). split.
  - intros [_ H]. split.
    + specialize (H p ltac:(lia)). rewrite on_scale_last, oc_last, Rmult_1_l in H by exact W. exact H.
    + intros j Hj. specialize (H j ltac:(lia)). rewrite on_scale, oc_in in H by exact Hj. exact H.
  - intros [A B]. split; [discriminate|]. intros j Hj. destruct (Nat.eq_dec j p) as [->|N].
    + rewrite on_scale_last, oc_last, Rmult_1_l by exact W. exact A.
    + rewrite on_scale, oc_in by lia. apply B. lia.
Qed.
End Ones.

(** Both models describe the same set of predictions at the same objective. *)
Theorem C100_same_model : forall u b0 b, u_ic u = true -> u_scale u = false ->
  user_obj (with_ones u) (pen_scale (with_ones u)) 0 (ones_coef u b0 b) = user_obj u (pen_scale u) b0 b /\
  (user_feasible u b <-> user_feasible (with_ones u) (ones_coef u b0 b)) /\
  forall i, user_eta (with_ones u) 0 (ones_coef u b0 b) i = user_eta u b0 b i.
Proof.
  intros u b0 b _ HS. split; [|split; [split|]].
  - rewrite (on_obj u HS), oc_last. apply obj_agree. intros; apply oc_in; assumption.
  - apply on_feasible.
  - intros F j Hj. pose proof (on_feasible' u _ F j Hj) as K. rewrite oc_in in K by exact Hj. exact K.
  - intros i. rewrite on_eta, oc_last. apply eta_agree. intros; apply oc_in; assumption.
Qed.
Print Assumptions C100_same_model.

(** A silent fit of the model with the column of ones is near-optimal for the model with an intercept. *)
Theorem C100_near_optimal : forall s u se q l guess a c sl, u_ic u = true -> u_scale u = false -> rsum (u_n u) (u_w u) = 1 ->
  user_ok u -> 0 <= se_approx se -> se_stol se = None ->
  convex_pair (u_fam u) (u_link u) -> libs_sound sl l -> start_ok u a -> accepts s u q -> s <> SMono ->
  (s = SLbfgs \/ s = STrust -> unclipped u (c (u_p u)) c) ->
  fit_with s (with_ones u) se (option_map (ones_ineq u) q) l guess a = Some (0, c, false, false) ->
  user_feasible u c /\
  forall b0' b' D, admissible u q b' -> 0 <= D -> Rabs (b0' - c (u_p u)) <= D ->
    (forall j, (j < u_p u)%nat -> col_scale u j * Rabs (b' j - c j) <= D) ->
    user_obj u (pen_scale u) (c (u_p u)) c + / 2 * user_l2 u (pen_scale u) (fun j => b' j - c j) + / 2 * pred_dev u (c (u_p u)) c b0' b'
    <= user_obj u (pen_scale u) b0' b' + fit_tol s (with_ones u) se * D + match s, q with STrust, Some _ => sl | _, _ => 0 end.
Proof.
  intros s u se q l guess a c sl IC HS W Hok HC Hst Hc Hl Ha Hacc Hs Hu E.
  destruct (C70_silent_near_optimal s (with_ones u) se (option_map (ones_ineq u) q) l guess a 0 c sl) as [[_ N] [F _]]; try assumption.
  - apply on_ok, Hok.
  - apply on_start, Ha.
  - apply on_accepts, Hacc.
  - intros H L i Hi. rewrite on_eta. apply (Hu H L i Hi).
  - split; [apply on_feasible', F|]. intros b0' b' D [Fb Q] HD X0 XJ.
    specialize (N 0 (ones_coef u b0' b') D).
    rewrite (on_l2 u HS), !(on_obj u HS), on_dev, oc_last in N.
    rewrite (obj_agree u (pen_scale u) b0' (ones_coef u b0' b') b') in N by (intros; apply oc_in; assumption).
    rewrite (dev_agree u (c (u_p u)) c b0' (ones_coef u b0' b') b') in N by (intros; apply oc_in; assumption).
    rewrite (l2_agree u (pen_scale u) (fun j => ones_coef u b0' b' j - c j) (fun j => b' j - c j)) in N
      by (intros; rewrite oc_in by assumption; reflexivity).
    replace (match s, option_map (ones_ineq u) q with STrust, Some _ => sl | _, _ => 0 end) with (match s, q with STrust, Some _ => sl | _, _ => 0 end) in N
      by (destruct s, q; reflexivity).
    apply N; [|reflexivity|exact HD|apply on_close; [exact W|split; assumption]].
    split; [apply on_feasible, Fb|]. destruct q as [q|]; [|exact I]. cbn [option_map].
    apply on_ineq. intros r Hr. rewrite (rsum_ext _ _ (fun j => iq_A q r j * b' j)); [apply Q, Hr|].
    intros j Hj. rewrite oc_in by exact Hj. reflexivity.
Qed.
Print Assumptions C100_near_optimal.

(** Two silent fits, one with fit_intercept=True and one with the column of ones, by any two solvers: the objectives, the
    coefficients as far as the L2 penalty determines them, and the predictions agree up to the tolerances. *)
Theorem C100_fits_agree : forall u s1 s2 se1 se2 l1 l2 g1 g2 a1 a2 sl1 sl2 b0 b c D1 D2, u_ic u = true -> u_scale u = false -> rsum (u_n u) (u_w u) = 1 -> user_ok u ->
  0 <= se_approx se1 -> 0 <= se_approx se2 -> se_stol se1 = None -> se_stol se2 = None ->
  convex_pair (u_fam u) (u_link u) -> libs_sound sl1 l1 -> libs_sound sl2 l2 -> start_ok u a1 -> start_ok u a2 ->
  accepts s1 u None -> accepts s2 u None -> s1 <> SMono -> s2 <> SMono ->
  fit_with s1 u se1 None l1 g1 a1 = Some (b0, b, false, false) ->
  fit_with s2 (with_ones u) se2 None l2 g2 a2 = Some (0, c, false, false) ->
  unclipped u b0 b -> unclipped u (c (u_p u)) c ->
  0 <= D1 -> std_close u D1 b0 b (c (u_p u)) c ->
  0 <= D2 -> Rabs (b0 - c (u_p u)) <= D2 -> (forall j, (j < u_p u)%nat -> col_scale u j * Rabs (b j - c j) <= D2) ->
  user_l2 u (pen_scale u) (fun j => c j - b j)
    + / 2 * (pred_dev u b0 b (c (u_p u)) c + pred_dev u (c (u_p u)) c b0 b)
    <= fit_tol s1 u se1 * D1 + fit_tol s2 (with_ones u) se2 * D2 /\
  user_obj u (pen_scale u) b0 b <= user_obj u (pen_scale u) (c (u_p u)) c + fit_tol s1 u se1 * D1 /\
  user_obj u (pen_scale u) (c (u_p u)) c <= user_obj u (pen_scale u) b0 b + fit_tol s2 (with_ones u) se2 * D2.
Proof.
  intros u s1 s2 se1 se2 l1 l2 g1 g2 a1 a2 sl1 sl2 b0 b c D1 D2 IC HS W Hok C1 C2 T1 T2 Hc L1 L2 A1 A2 K1 K2 M1 M2 E1 E2 U1 U2 HD1 HX HD2 X0 XJ.
  destruct (C70_silent_near_optimal s1 u se1 None l1 g1 a1 b0 b sl1 Hok C1 T1 Hc L1 A1 K1 M1 (fun _ => U1) E1) as [[_ N1] [F1 _]].
  destruct (C100_near_optimal s2 u se2 None l2 g2 a2 c sl2 IC HS W Hok C2 T2 Hc L2 A2 K2 M2 (fun _ => U2) E2) as [F2 N2].
  specialize (N1 (c (u_p u)) c D1 (conj F2 I) ltac:(congruence) HD1 HX). specialize (N2 b0 b D2 (conj F1 I) HD2 X0 XJ).
  rewrite (user_l2_sym u (pen_scale u) (fun j => c j - b j) (fun j => b j - c j)) in N2 by (intros; ring).
  assert (P : 0 <= user_l2 u (pen_scale u) (fun j => c j - b j)).
  { destruct Hok as [_ [_ [_ [_ [_ HP]]]]]. apply (HP (fun j => pen_scale u j * (c j - b j))). }
  assert (Z1 : match s1, @None ineq with STrust, Some _ => sl1 | _, _ => 0 end = 0) by (destruct s1; reflexivity).
  assert (Z2 : match s2, @None ineq with STrust, Some _ => sl2 | _, _ => 0 end = 0) by (destruct s2; reflexivity).
  rewrite Z1 in N1. rewrite Z2 in N2.
  pose proof (pred_dev_nonneg u b0 b (c (u_p u)) c Hok Hc).
  pose proof (pred_dev_nonneg u (c (u_p u)) c b0 b Hok Hc). lra.
Qed.
Print Assumptions C100_fits_agree.

(** Three rows, one column, weights 1/3: least squares with an intercept, and with a column of ones. *)
Definition ex100_u : user :=
  mkUser 3 1 (fun i _ => INR i) (fun i => match i with 0%nat => 1 | 1%nat => 2 | _ => 5 end) (fun _ => / 3) (fun _ => 0) true NormalF IdentityL
    (fun _ => 0) (P2diag (fun _ => / 2)) (fun _ => None) (fun _ => None) false.
Lemma ex100_run v se l g a : u_fam v = NormalF -> u_link v = IdentityL -> (forall j, (j < u_p v)%nat -> u_P1 v j = 0) -> se_has_bounds se = false ->
  exists b0 b, fit_with SClosed v se None l g a = Some (b0, b, false, false).
Proof.
  intros F L P1 B. unfold fit_with, solve. cbv zeta. rewrite B.
  assert (X : (normal_identity v && forallb (fun j => Reqb (pb_P1 (std_problem v (solve_settings SClosed v se)) j) 0) (seq 0 (u_p v)) && negb false && true)%bool = true).
  { unfold normal_identity. rewrite F, L. cbn [andb negb]. rewrite !Bool.andb_true_r. apply forallb_forall. intros j Hj. apply in_seq in Hj.
    apply Reqb_true. change (std_P1 (u_scale v) (u_P1 v) (u_stds v) j = 0). unfold std_P1. destruct (u_scale v); rewrite P1 by lia; ring. }
  rewrite X. destruct (user_result v _) as [b0 b]. exists b0, b. reflexivity.
Qed.
Lemma ex100_ok : user_ok ex100_u.
Proof.
  split; [exact I|]. split; [intros; exact I|]. split; [intros; simpl; lra|]. split; [intros; simpl; lra|]. split.
  - intros i j _ _. cbn. rewrite (Nat.eqb_sym j i). destruct (Nat.eqb i j); reflexivity.
  - intros v. simpl. nra.
Qed.
Example ex100_nonvacuous : exists b0 b c D1 D2,
  u_ic ex100_u = true /\ u_scale ex100_u = false /\ rsum (u_n ex100_u) (u_w ex100_u) = 1 /\ user_ok ex100_u /\
  convex_pair (u_fam ex100_u) (u_link ex100_u) /\ libs_sound 0 exact_libs /\ start_ok ex100_u StartNone /\ accepts SClosed ex100_u None /\
  fit_with SClosed ex100_u ex70_se None exact_libs 0 StartNone = Some (b0, b, false, false) /\
  fit_with SClosed (with_ones ex100_u) ex70_se None exact_libs 0 StartNone = Some (0, c, false, false) /\
  unclipped ex100_u b0 b /\ unclipped ex100_u (c (u_p ex100_u)) c /\
  0 <= D1 /\ std_close ex100_u D1 b0 b (c (u_p ex100_u)) c /\
  0 <= D2 /\ Rabs (b0 - c (u_p ex100_u)) <= D2 /\ forall j, (j < u_p ex100_u)%nat -> col_scale ex100_u j * Rabs (b j - c j) <= D2.
Proof.
  destruct (ex100_run ex100_u ex70_se exact_libs 0 StartNone eq_refl eq_refl (fun _ _ => eq_refl) eq_refl) as [b0 [b E1]].
  destruct (ex100_run (with_ones ex100_u) ex70_se exact_libs 0 StartNone eq_refl eq_refl) as [c0 [c E2]]; [intros j _; cbn [with_ones u_P1]; destruct (Nat.ltb j _); reflexivity|reflexivity|].
  assert (Hst : start_ok ex100_u StartNone) by (left; split; [reflexivity|]; intros j _; split; discriminate).
  assert (Hac : accepts SClosed ex100_u None).
  { split; [intros _; split; [intros j _; reflexivity|intros j _; split; reflexivity]|congruence]. }
  assert (Z : c0 = 0).
  { destruct (C70_silent_near_optimal SClosed (with_ones ex100_u) ex70_se None exact_libs 0 StartNone c0 c 0
      (on_ok ex100_u ex100_ok) (Rle_refl 0) eq_refl I (exact_libs_sound 0 (Rle_refl 0)) (on_start ex100_u _ Hst) (on_accepts ex100_u _ None Hac)
      ltac:(discriminate) ltac:(intros [H|H]; discriminate) E2) as [[A _] _]. apply A. reflexivity. }
  subst c0. destruct (close_somewhere ex100_u b0 b (c (u_p ex100_u)) c) as [D1 [HD1 C1]].
  exists b0, b, c, D1, (Rmax (Rabs (b0 - c (u_p ex100_u))) (Rabs (col_scale ex100_u 0 * Rabs (b 0%nat - c 0%nat)))).
  split; [reflexivity|]. split; [reflexivity|]. split; [cbn; field|]. split; [exact ex100_ok|]. split; [exact I|].
  split; [apply exact_libs_sound; lra|]. split; [exact Hst|]. split; [exact Hac|]. split; [exact E1|]. split; [exact E2|].
  split; [discriminate|]. split; [discriminate|]. split; [exact HD1|]. split; [exact C1|].
  split; [eapply Rle_trans; [apply Rabs_pos|apply Rmax_l]|]. split; [apply Rmax_l|].
  intros j Hj. assert (j = 0)%nat by (cbn in Hj; lia). subst j. eapply Rle_trans; [apply Rle_abs|apply Rmax_r].
Qed.
