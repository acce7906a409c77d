(** C89: the order of the columns does not matter. *)
From Coq Require Import List Lia Lra Permutation ZArith. Import ListNotations.
From Verif Require Import Base M_Link M_Dist M_Std M_Valid M_Fit L_KKT L_Std S_Dist S_Std S_Fit S_FitAll L_Score L_FitAll L_Gap L_Fit P_Score P_FitAll S_Order.
From Verif Require Import M_Solver S_Solver.
Local Open Scope R_scope.

(** only the first p entries of a coefficient vector matter *)
Lemma eta_agree u b0 b b' i : (forall j, (j < u_p u)%nat -> b j = b' j) -> user_eta u b0 b i = user_eta u b0 b' i.
Proof. intros E. unfold user_eta. f_equal. f_equal. apply rsum_ext. intros j Hj. rewrite E by exact Hj. reflexivity. Qed.
Lemma l2_agree u k b b' : (forall j, (j < u_p u)%nat -> b j = b' j) -> user_l2 u k b = user_l2 u k b'.
Proof. intros E. unfold user_l2. apply rsum_ext. intros i Hi. apply rsum_ext. intros j Hj. rewrite !E by assumption. reflexivity. Qed.
Lemma obj_agree u k b0 b b' : (forall j, (j < u_p u)%nat -> b j = b' j) -> user_obj u k b0 b = user_obj u k b0 b'.
Proof.
  intros E. unfold user_obj. f_equal; [f_equal|].
  - f_equal. apply (f_equal (deviance (u_fam u))). apply map_ext. intros i. rewrite (eta_agree u b0 b b' i E). reflexivity.
  - f_equal. apply (l2_agree u k b b' E).
  - apply rsum_ext. intros j Hj. rewrite E by exact Hj. reflexivity.
Qed.
Lemma dev_agree u b0 b b0' b1 b2 : (forall j, (j < u_p u)%nat -> b1 j = b2 j) -> pred_dev u b0 b b0' b1 = pred_dev u b0 b b0' b2.
Proof.
  intros E. unfold pred_dev. replace (user_eta u b0' b1) with (user_eta u b0' b2); [reflexivity|].
  apply FunctionalExtensionality.functional_extensionality. intros i. symmetry. apply eta_agree, E.
Qed.

Section Reorder.
Variable from to : nat -> nat.
Variable p : nat.
Hypothesis HR : reordering p from to.

Lemma seq_reordered : Permutation (map from (seq 0 p)) (seq 0 p).
Proof.
  destruct HR as [H1 H2]. apply NoDup_Permutation.
  - apply (NoDup_map_inv to). rewrite map_map. rewrite (map_ext_in _ (fun j => j)); [rewrite map_id; apply seq_NoDup|].
    intros a Ha. apply in_seq in Ha. apply (H1 a ltac:(lia)).
  - apply seq_NoDup.
  - intros j. rewrite in_map_iff, in_seq. split.
    + intros [k [<- Hk]]. apply in_seq in Hk. pose proof (proj1 (H1 k ltac:(lia))). lia.
    + intros Hj. exists (to j). destruct (H2 j ltac:(lia)). split; [assumption|]. apply in_seq. lia.
Qed.
Lemma rsum_reordered f : rsum p (fun j => f (from j)) = rsum p f.
Proof.
  rewrite <- (lsumf_seq p f), <- (lsumf_perm _ f _ _ seq_reordered), lsumf_map, lsumf_seq. reflexivity.
Qed.
Lemma to_from j : (j < p)%nat -> to (from j) = j.
Proof. intros H. apply (proj1 HR), H. Qed.

Variable u : user.
Hypothesis Hp : u_p u = p.
Notation v := (reordered from u).
Lemma re_eta b0 b i : user_eta v b0 b i = user_eta u b0 (fun j => b (to j)) i.
Proof.
  unfold user_eta. cbn [reordered u_p u_X u_off]. rewrite Hp. f_equal. f_equal.
  rewrite <- (rsum_reordered (fun j => u_X u i j * b (to j))). apply rsum_ext. intros j Hj. rewrite to_from by exact Hj. reflexivity.
Qed.
Lemma re_p2 i j : (i < p)%nat -> (j < p)%nat -> p2_entry (u_P2 v) i j = p2_entry (u_P2 u) (from i) (from j).
Proof.
  intros Hi Hj. cbn [reordered u_P2]. destruct (u_P2 u); cbn [p2_entry]; [|reflexivity].
  destruct (Nat.eqb_spec i j) as [->|N]; [rewrite Nat.eqb_refl; reflexivity|].
  destruct (Nat.eqb_spec (from i) (from j)) as [E|_]; [|reflexivity]. exfalso. apply N.
  rewrite <- (to_from i Hi), E, (to_from j Hj). reflexivity.
Qed.
Lemma re_scale j : col_scale v j = col_scale u (from j).
Proof. reflexivity. Qed.
Lemma re_means j : u_means v j = u_means u (from j).
Proof. reflexivity. Qed.
Lemma re_pen j : pen_scale v j = pen_scale u (from j).
Proof. unfold pen_scale. cbn [reordered u_scale]. destruct (u_scale u); reflexivity. Qed.
Lemma re_form x y : rsum (u_p v) (fun i => rsum (u_p v) (fun j => x i * p2_entry (u_P2 v) i j * y j))
  = rsum (u_p u) (fun i => rsum (u_p u) (fun j => x (to i) * p2_entry (u_P2 u) i j * y (to j))).
Proof.
  change (u_p v) with (u_p u). rewrite Hp.
  rewrite <- (rsum_reordered (fun i => rsum p (fun j => x (to i) * p2_entry (u_P2 u) i j * y (to j)))).
  apply rsum_ext. intros i Hi. rewrite <- (rsum_reordered (fun j => x (to (from i)) * p2_entry (u_P2 u) (from i) j * y (to j))).
  apply rsum_ext. intros j Hj. rewrite !to_from, re_p2 by assumption. reflexivity.
Qed.
Lemma re_l2 d : user_l2 v (pen_scale v) d = user_l2 u (pen_scale u) (fun j => d (to j)).
Proof.
  unfold user_l2. rewrite (re_form (fun i => pen_scale v i * d i) (fun j => pen_scale v j * d j)).
  rewrite Hp. apply rsum_ext. intros i Hi. apply rsum_ext. intros j Hj. rewrite !re_pen.
  destruct (proj2 HR i Hi) as [_ ->]. destruct (proj2 HR j Hj) as [_ ->]. reflexivity.
Qed.
Lemma re_obj b0 b : user_obj v (pen_scale v) b0 b = user_obj u (pen_scale u) b0 (fun j => b (to j)).
Proof.
  unfold user_obj. f_equal; [f_equal|].
  - f_equal. change (u_fam v) with (u_fam u). change (u_n v) with (u_n u). apply (f_equal (deviance (u_fam u))).
    apply map_ext. intros i. rewrite re_eta. reflexivity.
  - f_equal. apply re_l2.
  - cbn [reordered u_p u_P1]. rewrite Hp. rewrite <- (rsum_reordered (fun j => u_P1 u j * Rabs (pen_scale u j * b (to j)))).
    apply rsum_ext. intros j Hj. rewrite to_from by exact Hj. rewrite <- re_pen. reflexivity.
Qed.
Lemma re_dev b0 b b0' b' : pred_dev v b0 b b0' b' = pred_dev u b0 (fun j => b (to j)) b0' (fun j => b' (to j)).
Proof.
  unfold pred_dev. cbn [reordered u_fam u_link u_n u_y u_w].
  replace (user_eta v b0 b) with (user_eta u b0 (fun j => b (to j))) by (apply FunctionalExtensionality.functional_extensionality; intros; symmetry; apply re_eta).
  replace (user_eta v b0' b') with (user_eta u b0' (fun j => b' (to j))) by (apply FunctionalExtensionality.functional_extensionality; intros; symmetry; apply re_eta).
  reflexivity.
Qed.
Lemma re_close D b0 b b0' b' : std_close v D b0 b b0' b' <-> std_close u D b0 (fun j => b (to j)) b0' (fun j => b' (to j)).
Proof.
  unfold std_close. cbn [reordered u_ic u_p]. rewrite Hp.
  assert (E : rsum p (fun j => u_means v j * (b' j - b j)) = rsum p (fun j => u_means u j * (b' (to j) - b (to j)))).
  { rewrite <- (rsum_reordered (fun j => u_means u j * (b' (to j) - b (to j)))). apply rsum_ext. intros j Hj. rewrite to_from by exact Hj. reflexivity. }
  rewrite E. split; intros [A B]; (split; [exact A|]); intros j Hj.
  - destruct (proj2 HR j Hj) as [L E1]. specialize (B (to j) L). rewrite re_scale, E1 in B. exact B.
  - destruct (proj1 HR j Hj) as [L E1]. specialize (B (from j) L). cbv beta in B. rewrite E1 in B. exact B.
Qed.
Lemma re_feasible b : user_feasible u b -> user_feasible v (fun j => b (from j)).
Proof. intros H j Hj. cbn [reordered u_p] in Hj. apply H. rewrite Hp in Hj |- *. apply (proj1 HR), Hj. Qed.
Lemma re_feasible' b : user_feasible v b -> user_feasible u (fun j => b (to j)).
Proof.
  intros H j Hj. rewrite Hp in Hj. destruct (proj2 HR j Hj) as [L E]. specialize (H (to j)). cbn [reordered u_p u_lb u_ub] in H.
  rewrite Hp, E in H. apply H, L.
Qed.
Lemma re_ineq q b : user_ineq u q b -> user_ineq v (reordered_ineq from q) (fun j => b (from j)).
Proof.
  intros H r Hr. cbn [reordered u_p reordered_ineq iq_A iq_b]. specialize (H r Hr). rewrite Hp in H |- *.
  rewrite (rsum_reordered (fun j => iq_A q r j * b j)). exact H.
Qed.
Lemma re_ok : user_ok u -> user_ok v.
Proof.
  intros (F & Y & W & P1 & S & Q). split; [exact F|]. split; [exact Y|]. split; [exact W|]. split; [intros j; apply P1|]. split.
  - intros i j Hi Hj. change (u_p v) with (u_p u) in Hi, Hj. rewrite Hp in Hi, Hj. rewrite !re_p2 by assumption. apply S; rewrite Hp; apply (proj1 HR); assumption.
  - intros x. rewrite (re_form x x). apply Q.
Qed.
Lemma re_start a : start_ok u a -> start_ok v a.
Proof.
  intros [[E H]|H]; [left; split; [exact E|]|right].
  - intros j Hj. cbn [reordered u_p u_lb u_ub] in *. apply H. rewrite Hp in Hj |- *. apply (proj1 HR), Hj.
  - intros j x Hj. cbn [reordered u_p u_lb u_ub] in *. apply H. rewrite Hp in Hj |- *. apply (proj1 HR), Hj.
Qed.
Lemma re_accepts s q : accepts s u q -> accepts s v (option_map (reordered_ineq from) q).
Proof.
  intros [A B]. split.
  - intros H. destruct (A H) as [L1 NB]. split; intros j Hj; cbn [reordered u_p u_P1 u_lb u_ub] in *; rewrite Hp in Hj; [apply L1|apply NB];
      rewrite Hp; apply (proj1 HR), Hj.
  - intros H. apply B. intros E. apply H. rewrite E. reflexivity.
Qed.
Lemma re_tol s se : fit_tol s v se = fit_tol s u se.
Proof. reflexivity. Qed.
Lemma re_near e sl q b0 b : near_optimal v e sl (admissible v (option_map (reordered_ineq from) q)) b0 b ->
  near_optimal u e sl (admissible u q) b0 (fun j => b (to j)).
Proof.
  intros [A N]. split; [exact A|]. intros b0' b' D [F Q] Hic HD HX.
  assert (TF : forall j, (j < p)%nat -> b' (from (to j)) = b' j) by (intros j Hj; rewrite (proj2 (proj2 HR j Hj)); reflexivity).
  specialize (N b0' (fun j => b' (from j)) D). rewrite re_l2, !re_obj, re_dev in N.
  rewrite (obj_agree u (pen_scale u) b0' (fun j => b' (from (to j))) b') in N by (rewrite Hp; exact TF).
  rewrite (l2_agree u (pen_scale u) (fun j => b' (from (to j)) - b (to j)) (fun j => b' j - b (to j))) in N
    by (intros j Hj; rewrite Hp in Hj; rewrite TF by exact Hj; reflexivity).
  rewrite (dev_agree u b0 (fun j => b (to j)) b0' (fun j => b' (from (to j))) b') in N by (rewrite Hp; exact TF).
  apply N; [|exact Hic|exact HD|].
  - split; [apply re_feasible, F|]. destruct q as [q|]; [|exact I]. apply re_ineq, Q.
  - apply re_close. destruct HX as [X1 X2]. split.
    + intros H. rewrite (rsum_ext (u_p u) _ (fun j => u_means u j * (b' j - b (to j)))); [apply X1, H|].
      intros j Hj. rewrite Hp in Hj. rewrite TF by exact Hj. reflexivity.
    + intros j Hj. cbv beta. rewrite TF by (rewrite <- Hp; exact Hj). apply X2, Hj.
Qed.
End Reorder.

(** The training objective of the reordered model at reordered coefficients is the original objective. *)
Theorem C89_objective : forall u from to b0 b, reordering (u_p u) from to ->
  user_obj (reordered from u) (pen_scale (reordered from u)) b0 (fun j => b (from j)) = user_obj u (pen_scale u) b0 b.
Proof.
  intros u from to b0 b H. rewrite (re_obj from to (u_p u) H u eq_refl). apply obj_agree. intros j Hj.
  rewrite (proj2 (proj2 H j Hj)). reflexivity.
Qed.
Print Assumptions C89_objective.

(** A fit of the reordered model that ends without a warning, its coefficients put back in the original order, is as
    close to optimal for the original model as a fit of the original model would be (C70). *)
Theorem C89_near_optimal : forall s u from to se q l guess a b0 b sl, reordering (u_p u) from to ->
  user_ok u -> 0 <= se_approx se -> se_stol se = None ->
  convex_pair (u_fam u) (u_link u) -> libs_sound sl l -> start_ok u a -> accepts s u q -> s <> SMono ->
  (s = SLbfgs \/ s = STrust -> unclipped u b0 (fun j => b (to j))) ->
  fit_with s (reordered from u) se (option_map (reordered_ineq from) q) l guess a = Some (b0, b, false, false) ->
  near_optimal u (fit_tol s u se) (match s, q with STrust, Some _ => sl | _, _ => 0 end) (admissible u q) b0 (fun j => b (to j)) /\
  user_feasible u (fun j => b (to j)).
Proof.
  intros s u from to se q l guess a b0 b sl HR Hok HC Hst Hc Hl Ha Hacc Hs Hu E.
  destruct (C70_silent_near_optimal s (reordered from u) se (option_map (reordered_ineq from) q) l guess a b0 b sl) as (N & F & _); try assumption.
  - apply (re_ok from to (u_p u) HR u eq_refl Hok).
  - apply (re_start from to (u_p u) HR u eq_refl a Ha).
  - apply (re_accepts from to (u_p u) HR u eq_refl s q Hacc).
  - intros H L i Hi. rewrite (re_eta from to (u_p u) HR u eq_refl). apply (Hu H L i Hi).
  - split; [|apply (re_feasible' from to (u_p u) HR u eq_refl b F)].
    apply (re_near from to (u_p u) HR u eq_refl). rewrite re_tol in N.
    replace (match s, q with STrust, Some _ => sl | _, _ => 0 end) with (match s, option_map (reordered_ineq from) q with STrust, Some _ => sl | _, _ => 0 end)
      by (destruct s, q; reflexivity). exact N.
Qed.
Print Assumptions C89_near_optimal.

(** Two silent fits, one of the model and one of the model with its columns in another order, by any two solvers,
    agree in the objective, in the coefficients as far as the L2 penalty determines them and in the predictions. *)
Theorem C89_fits_agree : forall u from to s1 s2 se1 se2 l1 l2 g1 g2 a1 a2 sl1 sl2 b0 b b0' b' D, reordering (u_p u) from to -> user_ok u ->
  0 <= se_approx se1 -> 0 <= se_approx se2 -> se_stol se1 = None -> se_stol se2 = None ->
  convex_pair (u_fam u) (u_link u) -> libs_sound sl1 l1 -> libs_sound sl2 l2 -> start_ok u a1 -> start_ok u a2 ->
  accepts s1 u None -> accepts s2 u None -> s1 <> SMono -> s2 <> SMono ->
  fit_with s1 u se1 None l1 g1 a1 = Some (b0, b, false, false) ->
  fit_with s2 (reordered from u) se2 None l2 g2 a2 = Some (b0', b', false, false) ->
  unclipped u b0 b -> unclipped u b0' (fun j => b' (to j)) ->
  0 <= D -> std_close u D b0 b b0' (fun j => b' (to j)) ->
  user_l2 u (pen_scale u) (fun j => b' (to j) - b j)
    + / 2 * (pred_dev u b0 b b0' (fun j => b' (to j)) + pred_dev u b0' (fun j => b' (to j)) b0 b)
    <= (fit_tol s1 u se1 + fit_tol s2 u se2) * D /\
  user_obj u (pen_scale u) b0 b <= user_obj u (pen_scale u) b0' (fun j => b' (to j)) + fit_tol s1 u se1 * D /\
  user_obj u (pen_scale u) b0' (fun j => b' (to j)) <= user_obj u (pen_scale u) b0 b + fit_tol s2 u se2 * D.
Proof.
  intros u from to s1 s2 se1 se2 l1 l2 g1 g2 a1 a2 sl1 sl2 b0 b b0' b' D HR Hok C1 C2 T1 T2 Hc L1 L2 A1 A2 K1 K2 M1 M2 E1 E2 U1 U2 HD HX.
  destruct (C70_silent_near_optimal s1 u se1 None l1 g1 a1 b0 b sl1 Hok C1 T1 Hc L1 A1 K1 M1 (fun _ => U1) E1) as [[I1 N1] [F1 _]].
  destruct (C89_near_optimal s2 u from to se2 None l2 g2 a2 b0' b' sl2 HR Hok C2 T2 Hc L2 A2 K2 M2 (fun _ => U2) E2) as [[I2 N2] F2].
  specialize (N1 b0' (fun j => b' (to j)) D (conj F2 I) I2 HD HX). specialize (N2 b0 b D (conj F1 I) I1 HD (std_close_sym _ _ _ _ _ _ HX)).
  rewrite (user_l2_sym u (pen_scale u) (fun j => b' (to j) - b j) (fun j => b j - b' (to j))) in N2 by (intros; ring).
  assert (P : 0 <= user_l2 u (pen_scale u) (fun j => b' (to j) - b j)).
  { destruct Hok as [_ [_ [_ [_ [_ HP]]]]]. apply (HP (fun j => pen_scale u j * (b' (to j) - b j))). }
  assert (Z1 : match s1, @None ineq with STrust, Some _ => sl1 | _, _ => 0 end = 0) by (destruct s1; reflexivity).
  assert (Z2 : match s2, @None ineq with STrust, Some _ => sl2 | _, _ => 0 end = 0) by (destruct s2; reflexivity).
  rewrite Z1 in N1. rewrite Z2 in N2.
  pose proof (pred_dev_nonneg u b0 b b0' (fun j => b' (to j)) Hok Hc).
  pose proof (pred_dev_nonneg u b0' (fun j => b' (to j)) b0 b Hok Hc). lra.
Qed.
Print Assumptions C89_fits_agree.

(** Two silent fits of one model in two column orders: four rows, y orthogonal to both columns, L1 penalties that
    differ between the columns. *)
Definition ex89_u : user := mkUser 4 2
  (fun i j => match j with O => (if Nat.odd i then -1 else 1) | _ => (if Nat.leb i 1 then 2 else -2) end)
  (fun i => match i with O => 1 | 1%nat => -1 | 2%nat => -1 | _ => 1 end) (fun _ => / 4) (fun _ => 0) false
  NormalF IdentityL (fun j => INR (S j)) (P2diag (fun _ => 0)) (fun _ => None) (fun _ => None) false.
Definition flip (j : nat) : nat := match j with O => 1%nat | 1%nat => O | k => k end.
Lemma flip_reordering : reordering 2 flip flip.
Proof. split; intros [|[|j]] Hj; try lia; cbn; split; try lia; reflexivity. Qed.
Lemma ex89_ok : user_ok ex89_u.
Proof.
  split; [exact I|]. split; [intros; exact I|]. split; [intros; cbn; lra|]. split; [intros; apply pos_INR|]. split.
  - intros i j _ _. cbn [ex89_u u_P2 p2_entry]. destruct (Nat.eqb i j), (Nat.eqb j i); reflexivity.
  - intros x. apply Req_le. symmetry. apply rsum_zero. intros i _. apply rsum_zero. intros j _. cbn [ex89_u u_P2 p2_entry].
    destruct (Nat.eqb i j); ring.
Qed.
Lemma ex89_fit u l : u = ex89_u \/ u = reordered flip ex89_u ->
  exists b, fit_with SCd u ex70_se None l 0 StartNone = Some (0, b, false, false) /\ forall j, b j = 0.
Proof.
  intros HU. assert (Hok : user_ok u).
  { destruct HU; subst u; [exact ex89_ok|]. apply (re_ok flip flip 2 flip_reordering ex89_u eq_refl ex89_ok). }
  set (v := get_start_coef (u_p u) (u_ic u) (u_means u) (u_stds u) 0 (u_lb u) (u_ub u) StartNone).
  assert (E : u_n u = 4%nat /\ u_p u = 2%nat /\ u_fam u = NormalF /\ u_link u = IdentityL /\ u_ic u = false).
  { destruct HU; subst u; repeat (split; [reflexivity|]); reflexivity. }
  destruct E as (En & Ep & Ef & El & Ei).
  assert (V : forall k, v k = 0) by (intros k; destruct HU; subst u; reflexivity).
  assert (B : forall j, snd (user_result u v) j = 0) by (intros j; rewrite result_coef, V; ring).
  assert (B0 : fst (user_result u v) = 0).
  { unfold user_result, unpack, unstandardize. rewrite Ei. cbn [fst]. rewrite rsum_zero; [ring|]. intros j _. rewrite V. ring. }
  set (se := solve_settings SCd u ex70_se). set (pb := std_problem u se).
  assert (SC : forall j, (j < 2)%nat -> score_of pb (std_problem_P2 u) v j = 0).
  { intros j Hj. replace j with (ioff (u_ic u) + j)%nat by (rewrite Ei; reflexivity). unfold pb. rewrite score_column.
    - assert (ET : forall i, user_eta u (fst (user_result u v)) (snd (user_result u v)) i = 0).
      { intros i. unfold user_eta. rewrite B0, rsum_zero by (intros k _; rewrite B; ring). destruct HU; subst u; cbn; ring. }
      rewrite En. cbn [rsum]. rewrite !ET. set (o := one_over _).
      assert (M : u_means u j = 0) by (unfold u_means, col_means; rewrite Ei; reflexivity). rewrite M. clearbody o.
      destruct j as [|[|j]]; [| |lia]; destruct HU; subst u; cbn; ring.
    - rewrite Ep. exact Hj.
    - intros k _. destruct HU; subst u; cbn; [destruct (Nat.eqb k j)|destruct (Nat.eqb k j)]; reflexivity.
    - destruct HU; subst u; exact I. }
  assert (IR : irls_solver pb (cd_solver pb (lib_seed l)) (std_problem_P2 u) v = Some (init_state pb (std_problem_P2 u) false v, false)).
  { apply irls_at_start; [apply std_ok, Hok|destruct HU; subst u; cbn; lra|].
    assert (NC : nc pb = 2%nat) by (destruct HU; subst u; reflexivity). rewrite NC. rewrite rsum_zero; [destruct HU; subst u; cbn; lra|].
    intros k Hk. unfold entry. assert (IC : pb_ic pb = false) by exact Ei. rewrite IC. cbn [ioff Nat.ltb Nat.leb].
    rewrite SC by exact Hk. rewrite V.
    assert (LB : pb_lb pb (k - 0)%nat = None /\ pb_ub pb (k - 0)%nat = None) by (destruct HU; subst u; split; reflexivity).
    destruct LB as [-> ->]. unfold subgrad_term, fsign, at_bound. rewrite (proj2 (Reqb_true 0 0)) by reflexivity.
    rewrite Ropp_0. rewrite (proj2 (Rltb_false 0 0)) by lra. cbn [andb]. rewrite (proj2 (Reqb_true 0 0)) by reflexivity. rewrite Rmult_0_l. apply Rabs_R0. }
  exists (snd (user_result u v)). split; [|exact B].
  assert (EC : forall pb P2, st_coef (init_state pb P2 false v) = v /\ st_lswarn (init_state pb P2 false v) = 0%nat).
  { intros pb0 P2. unfold init_state. destruct (eta_mu_objective _ _ _ _ _ _) as [[[? ?] ?] ?].
    destruct (update_quadratic _ _ _ _) as [[? ?] ?]. destruct (check_convergence _ _ _ _) as [[[? ?] ?] ?]. split; reflexivity. }
  unfold fit_with. fold v. unfold solve. cbv zeta. fold se. fold pb. rewrite IR.
  destruct (EC pb (std_problem_P2 u)) as [-> ->]. rewrite <- B0 at 1. rewrite <- surjective_pairing. reflexivity.
Qed.
Example ex89_nonvacuous : exists b b',
  reordering (u_p ex89_u) flip flip /\ user_ok ex89_u /\ convex_pair (u_fam ex89_u) (u_link ex89_u) /\ libs_sound 0 exact_libs /\
  start_ok ex89_u StartNone /\ accepts SCd ex89_u None /\
  fit_with SCd ex89_u ex70_se None exact_libs 0 StartNone = Some (0, b, false, false) /\
  fit_with SCd (reordered flip ex89_u) ex70_se None exact_libs 0 StartNone = Some (0, b', false, false) /\
  std_close ex89_u 0 0 b 0 (fun j => b' (flip j)) /\ unclipped ex89_u 0 b /\
  u_P1 (reordered flip ex89_u) 0%nat = 2 /\ u_P1 ex89_u 0%nat = 1.
Proof.
  destruct (ex89_fit ex89_u exact_libs (or_introl eq_refl)) as [b [F B]].
  destruct (ex89_fit (reordered flip ex89_u) exact_libs (or_intror eq_refl)) as [b' [F' B']].
  exists b, b'. split; [exact flip_reordering|]. split; [exact ex89_ok|]. split; [exact I|]. split; [apply exact_libs_sound; lra|].
  split; [left; split; [reflexivity|]; intros j _; split; discriminate|].
  split; [split; [congruence|congruence]|]. split; [exact F|]. split; [exact F'|]. split.
  - split; [discriminate|]. intros j _. rewrite B, B'. rewrite Rminus_0_r, Rabs_R0. lra.
  - split; [discriminate|]. cbn. lra.
Qed.
