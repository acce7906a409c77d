(** Lemmas about the null model, the lookup and predictions. *)
From Verif Require Import M_Path S_Path L_Link L_Dist L_Dist2 L_Dist4 L_CD L_KKT L_Hess L_Solver L_Solver2 L_Solver3 L_Obj L_Std L_Fit L_Path L_Path2 P_Solver P_Obj P_Fit.
From Coq Require Import FunctionalExtensionality.
From Verif Require Import M_Solver S_Solver.
Local Open Scope R_scope.

(** ** alpha_max at the level of the user's problem *)
Lemma std_null_regular u se : null_regular u -> pb_null_regular (std_problem u se).
Proof. exact (fun H => H). Qed.
Lemma std_null_regular_alpha u se alpha : null_regular u -> pb_null_regular (std_problem (with_alpha u alpha) se).
Proof. exact (fun H => H). Qed.
Lemma std_P1_pos u j : 0 < pb_P1 (std_problem u (mkSettings 0 0 0 None 0 None false false 0 0)) j <-> 0 < u_P1 u j.
Proof.
  cbn. unfold std_P1. destruct (u_scale u); [tauto|]. pose proof (inv_pos u j).
  split; intros H1; [|apply Rmult_lt_0_compat; auto].
  destruct (Rle_or_lt (u_P1 u j) 0); [|auto]. nra.
Qed.
Lemma std_P1_pos' u se j : 0 < pb_P1 (std_problem u se) j <-> 0 < u_P1 u j.
Proof. exact (std_P1_pos u j). Qed.

(** score of the null model on the standardized problem does not depend on alpha *)
Lemma null_score_alpha u se alpha g k : (k < nc (std_problem u se))%nat ->
  score_of (std_problem (with_alpha u alpha) se) (std_problem_P2 (with_alpha u alpha)) (pack (u_ic u) g (fun _ => 0)) k
  = score_of (std_problem u se) (std_problem_P2 u) (pack (u_ic u) g (fun _ => 0)) k.
Proof.
  intros Hk. unfold score_of.
  rewrite (null_p2 (std_problem u se) (std_problem_P2 u) g k Hk
    : rsum (nc (std_problem u se)) (fun l => pack (u_ic u) g (fun _ => 0) l * p2_full (pb_ic (std_problem u se)) (std_problem_P2 u) l k) = 0).
  rewrite (null_p2 (std_problem (with_alpha u alpha) se) (std_problem_P2 (with_alpha u alpha)) g k Hk
    : rsum (nc (std_problem (with_alpha u alpha) se)) (fun l => pack (u_ic u) g (fun _ => 0) l * p2_full (pb_ic (std_problem (with_alpha u alpha) se)) (std_problem_P2 (with_alpha u alpha)) l k) = 0).
  reflexivity.
Qed.

(** every coordinate of the null model is stationary from alpha_max on *)
Lemma null_stationary u se a alpha g : user_ok u -> rsum (u_n u) (u_w u) = 1 -> null_regular u ->
  (forall j, (j < u_p u)%nat -> 0 < u_P1 u j) ->
  alpha_max (std_problem u se) = Some a -> a <= alpha -> null_model u g ->
  null_coef (std_problem u se) = Some (pack (u_ic u) g (fun _ => 0)) ->
  let pb := std_problem (with_alpha u alpha) se in
  forall k, (k < nc pb)%nat ->
    coord_stationary (- score_of pb (std_problem_P2 (with_alpha u alpha)) (pack (u_ic u) g (fun _ => 0)) k) (pen_of (pb_ic pb) (pb_P1 pb) k)
       (bnd_of (pb_ic pb) (pb_lb pb) k) (bnd_of (pb_ic pb) (pb_ub pb) k) (pack (u_ic u) g (fun _ => 0) k).
Proof.
  intros Hok H1 Hr HP Ha Hle Hg Hc pb k Hk.
  change (nc pb) with (nc (std_problem u se)) in Hk.
  unfold pb. rewrite null_score_alpha by exact Hk.
  change (pb_ic (std_problem (with_alpha u alpha) se)) with (u_ic u).
  assert (Hstd := std_ok u se Hok).
  assert (Hg' : pb_ic (std_problem u se) = true -> raw_inverse (pb_link (std_problem u se)) g = pb_ybar (std_problem u se)).
  { intros E. change (pb_ic (std_problem u se)) with (u_ic u) in E. unfold null_model in Hg. rewrite E in Hg. exact Hg. }
  assert (Hnc : (k < ioff (u_ic u) + u_p u)%nat) by exact Hk.
  assert (J : forall j, (j < u_p u)%nat -> k = (ioff (u_ic u) + j)%nat ->
    coord_stationary (- score_of (std_problem u se) (std_problem_P2 u) (pack (u_ic u) g (fun _ => 0)) k)
      (pb_P1 (std_problem u se) j * alpha) (pb_lb (std_problem u se) j) (pb_ub (std_problem u se) j) 0).
  { intros j Hj ->. apply zero_stationary.
    assert (L1 : has_l1 (std_problem u se)) by (exists j; split; [exact Hj|apply std_P1_pos'; auto]).
    destruct (alpha_max_spec _ _ _ (proj2 (proj2 Hstd)) L1 Hc Ha) as [A0 [A1 _]].
    specialize (A1 j Hj (proj2 (std_P1_pos' u se j) (HP j Hj))).
    rewrite (feature_gradient_score (std_problem u se) (std_problem_P2 u) g j Hstd Hr Hg' Hj
      : feature_gradient (std_problem u se) (pack (u_ic u) g (fun _ => 0)) j = Rabs (score_of (std_problem u se) (std_problem_P2 u) (pack (u_ic u) g (fun _ => 0)) (ioff (u_ic u) + j))) in A1.
    eapply Rle_trans; [exact A1|]. rewrite Rmult_comm. apply Rmult_le_compat_l; [|exact Hle]. apply Hstd. }
  assert (PE : forall j, pb_P1 (std_problem (with_alpha u alpha) se) j = pb_P1 (std_problem u se) j * alpha) by (intros; rewrite std_problem_alpha; reflexivity).
  destruct (u_ic u) eqn:Eic.
  - destruct k as [|k].
    + cbn [pen_of bnd_of pack].
      pose proof (intercept_score (std_problem u se) (std_problem_P2 u) g Hstd Hr Eic H1 (Hg' Eic)) as S0.
      change (pb_ic (std_problem u se)) with (u_ic u) in S0. rewrite Eic in S0. rewrite S0.
      intros t _. lra.
    + cbn [pen_of bnd_of pack]. rewrite PE. apply (J k); [simpl in Hnc; lia|reflexivity].
  - cbn [pen_of bnd_of pack]. rewrite PE. apply (J k); [simpl in Hnc; lia|reflexivity].
Qed.

Lemma null_in_box u se g : (forall j, (j < u_p u)%nat -> within (u_lb u j) (u_ub u j) 0) ->
  in_box (std_problem u se) (pack (u_ic u) g (fun _ => 0)).
Proof.
  intros H. apply box_std. rewrite null_result. intros j Hj. cbn [snd]. rewrite Rmult_0_l. apply H, Hj.
Qed.

Lemma null_obj_eq u g : (u_ic u = false -> g = 0) ->
  user_obj u (pen_scale u) (fst (user_result u (pack (u_ic u) g (fun _ => 0)))) (snd (user_result u (pack (u_ic u) g (fun _ => 0))))
  = user_obj u (pen_scale u) g (fun _ => 0).
Proof.
  intros H. apply user_obj_ext; rewrite null_result; cbn [fst snd].
  - destruct (u_ic u); [reflexivity|]. symmetry. auto.
  - intros. ring.
Qed.

(** global optimality in user units from stationarity on the standardized problem *)
Lemma optimal_of_stationary u se v : user_ok u -> convex_pair (u_fam u) (u_link u) -> in_box (std_problem u se) v ->
  (forall k, (k < nc (std_problem u se))%nat ->
     coord_stationary (- score_of (std_problem u se) (std_problem_P2 u) v k) (pen_of (u_ic u) (pb_P1 (std_problem u se)) k)
       (bnd_of (u_ic u) (pb_lb (std_problem u se)) k) (bnd_of (u_ic u) (pb_ub (std_problem u se)) k) (v k)) ->
  user_optimal u (fst (user_result u v)) (snd (user_result u v)).
Proof.
  intros Hok Hc Hb Hs b0' b' Fb Hb0. pose proof Hok as [_ [_ [Hw [_ [HS HP]]]]].
  pose proof (to_std_result u b0' b' Hb0) as [T0 T1].
  assert (Bv : in_box (std_problem u se) (to_std u b0' b')) by (apply box_std; intros j Hj; rewrite T1; apply Fb, Hj).
  pose proof (C53_stationary_is_global (std_problem u se) (std_problem_P2 u) v (to_std u b0' b') (std_ok u se Hok) (std_P2_sym u HS) Hw Hc Hb Bv Hs) as G.
  pose proof (l2_form_nonneg (std_problem u se) (std_problem_P2 u) (fun k => to_std u b0' b' k - v k) (std_P2_psd u HP)) as N.
  rewrite !obj_std in G. rewrite (user_obj_ext u (pen_scale u) _ _ _ _ T0 T1) in G. lra.
Qed.

(** below alpha_max there is a better model *)
Lemma l1_unit pb c j s t : (j < pb_p pb)%nat -> c (ioff (pb_ic pb) + j)%nat = 0 -> Rabs s = 1 -> 0 <= t ->
  l1_form pb (vadd c (vscale t (fun k => if Nat.eqb k (ioff (pb_ic pb) + j) then s else 0))) = l1_form pb c + pb_P1 pb j * t.
Proof.
  intros Hj Hc Hs Ht. set (k0 := (ioff (pb_ic pb) + j)%nat) in *.
  assert (K : (k0 < nc pb)%nat) by (unfold nc, k0; lia).
  assert (P : pen_of (pb_ic pb) (pb_P1 pb) k0 = pb_P1 pb j) by (unfold k0; destruct (pb_ic pb); reflexivity).
  apply Rminus_diag_uniq. unfold l1_form.
  replace (rsum (nc pb) (fun k => pen_of (pb_ic pb) (pb_P1 pb) k * Rabs (vadd c (vscale t (fun k => if Nat.eqb k k0 then s else 0)) k)) - (rsum (nc pb) (fun k => pen_of (pb_ic pb) (pb_P1 pb) k * Rabs (c k)) + pb_P1 pb j * t))
    with (rsum (nc pb) (fun k => pen_of (pb_ic pb) (pb_P1 pb) k * Rabs (vadd c (vscale t (fun k => if Nat.eqb k k0 then s else 0)) k)) - rsum (nc pb) (fun k => pen_of (pb_ic pb) (pb_P1 pb) k * Rabs (c k)) - pb_P1 pb j * t) by ring.
  rewrite <- rsum_minus. rewrite (rsum_single _ k0); [|exact K|].
  - unfold vadd, vscale. rewrite Nat.eqb_refl, Hc, P, Rabs_R0, Rplus_0_l, Rabs_mult, Hs, (Rabs_right t) by lra. ring.
  - intros i _ Hi. unfold vadd, vscale. apply Nat.eqb_neq in Hi. rewrite Hi, Rmult_0_r, Rplus_0_r. ring.
Qed.

Lemma not_stationary_descent pb P2 c j d : pb_ok pb -> p2_sym (pb_p pb) P2 -> convex_pair (pb_fam pb) (pb_link pb) ->
  (j < pb_p pb)%nat -> c (ioff (pb_ic pb) + j)%nat = 0 -> pb_P1 pb j < Rabs (score_of pb P2 c (ioff (pb_ic pb) + j)) -> 0 < d ->
  exists t, 0 < Rabs t <= d /\
    train_obj pb P2 (fun k => if Nat.eqb k (ioff (pb_ic pb) + j) then t else c k) < train_obj pb P2 c.
Proof.
  intros Hok HS Hc Hj H0 HG Hd. set (k0 := (ioff (pb_ic pb) + j)%nat) in *.
  assert (K : (k0 < nc pb)%nat) by (unfold nc, k0; lia).
  set (S0 := score_of pb P2 c k0) in *.
  set (s := if Rle_dec 0 S0 then 1 else -1).
  assert (Hs1 : Rabs s = 1) by (unfold s; destruct (Rle_dec 0 S0); [apply Rabs_R1|rewrite Rabs_left; lra]).
  assert (Hs2 : S0 * s = Rabs S0).
  { unfold s. destruct (Rle_dec 0 S0); [rewrite Rabs_right; lra|rewrite Rabs_left; lra]. }
  set (v := fun k => if Nat.eqb k k0 then s else 0).
  assert (Hreg : forall i, (i < pb_n pb)%nat -> regular (pb_fam pb) (pb_link pb) (search_mean (pb_fam pb) (pb_link pb)) (eta_of pb c i)) by (intros; apply convex_pair_regular; exact Hc).
  assert (D := smooth_derive pb (search_mean (pb_fam pb) (pb_link pb)) P2 c v Hok HS (fun i _ => convex_pair_dev_ok _ _ (pb_y pb i) Hc) Hreg).
  assert (E1 : rsum (nc pb) (fun k => grad_with pb P2 c k * v k) = - Rabs S0).
  { rewrite (rsum_single _ k0); [|exact K|].
    - rewrite grad_score. + fold S0. unfold v. rewrite Nat.eqb_refl. lra.
      + intros i Hi. destruct (Hreg i Hi) as [_ [_ L]]. apply (locally_at _ _ _ L).
    - intros i _ Hi. unfold v. apply Nat.eqb_neq in Hi. rewrite Hi. ring. }
  rewrite E1 in D.
  assert (D2 : is_derive (fun t => smooth_obj_with pb (search_mean (pb_fam pb) (pb_link pb)) P2 (vadd c (vscale t v)) + t * pb_P1 pb j) 0 (- Rabs S0 + 1 * pb_P1 pb j)).
  { apply (dR_plus _ (fun t => t * pb_P1 pb j)); [exact D|]. apply (dR_scal_r (fun t => t)), dR_id. }
  destruct (descent _ _ D2 ltac:(lra)) as [e [He Hdec]].
  set (t := Rmin d (e / 2)).
  assert (T : 0 < t /\ t <= d /\ t < e) by (unfold t, Rmin; destruct (Rle_dec d (e / 2)); lra).
  exists (t * s). split; [rewrite Rabs_mult, Hs1, Rabs_right by lra; lra|].
  specialize (Hdec t ltac:(lra)). cbv beta in Hdec.
  assert (E2 : (fun k => if Nat.eqb k k0 then t * s else c k) = vadd c (vscale t v)).
  { apply functional_extensionality. intros k. unfold vadd, vscale, v. destruct (Nat.eqb_spec k k0) as [->|]; [rewrite H0|]; ring. }
  rewrite E2. unfold train_obj. rewrite !smooth_obj_eq.
  pose proof (l1_unit pb c j s t Hj H0 Hs1 ltac:(lra)) as L1.
  change (l1_form pb (vadd c (vscale t v)) = l1_form pb c + pb_P1 pb j * t) in L1. rewrite L1.
  assert (E3 : vadd c (vscale 0 v) = c) by (apply functional_extensionality; intros k; unfold vadd, vscale; ring).
  rewrite E3 in Hdec. lra.
Qed.

(** ** argmin *)
Lemma argmin_from_spec l : forall pre bi b, nth_error pre bi = Some b -> (forall y k, nth_error pre k = Some y -> b <= y) ->
  (forall y k, nth_error pre k = Some y -> (k < bi)%nat -> b < y) ->
  let i := argmin_from l (length pre) bi b in
  exists m, nth_error (pre ++ l) i = Some m /\ (forall y k, nth_error (pre ++ l) k = Some y -> m <= y) /\
    (forall y k, nth_error (pre ++ l) k = Some y -> (k < i)%nat -> m < y).
Proof.
  induction l as [|x l IH]; intros pre bi b H1 H2 H3; cbn [argmin_from].
  - rewrite app_nil_r. exists b. auto.
  - assert (Hbi : (bi < length pre)%nat) by (apply nth_error_Some; congruence).
    assert (P : forall k y, nth_error (pre ++ [x]) k = Some y -> nth_error pre k = Some y \/ (k = length pre /\ y = x)).
    { intros k y Hk. destruct (Nat.lt_ge_cases k (length pre)).
      - rewrite nth_error_app1 in Hk by lia. auto.
      - rewrite nth_error_app2 in Hk by lia. destruct (k - length pre)%nat as [|n] eqn:E; [|destruct n; discriminate].
        injection Hk as <-. right. split; [lia|reflexivity]. }
    replace (pre ++ x :: l) with ((pre ++ [x]) ++ l) by (rewrite <- app_assoc; reflexivity).
    replace (S (length pre)) with (length (pre ++ [x])) by (rewrite app_length; simpl; lia).
    destruct (Rltb x b) eqn:E.
    + apply Rltb_true in E. apply IH.
      * rewrite nth_error_app2, Nat.sub_diag by lia. reflexivity.
      * intros y k Hk. destruct (P k y Hk) as [Hk'|[_ ->]]; [|lra]. specialize (H2 y k Hk'). lra.
      * intros y k Hk Hlt. destruct (P k y Hk) as [Hk'|[-> _]]; [|lia]. specialize (H2 y k Hk'). lra.
    + apply Rltb_false in E. apply IH.
      * rewrite nth_error_app1 by lia. exact H1.
      * intros y k Hk. destruct (P k y Hk) as [Hk'|[_ ->]]; [eauto|lra].
      * intros y k Hk Hlt. destruct (P k y Hk) as [Hk'|[-> _]]; [eauto|lia].
Qed.
Lemma argmin_spec l i : argmin l = Some i -> exists m, nth_error l i = Some m /\ (forall y k, nth_error l k = Some y -> m <= y) /\
    (forall y k, nth_error l k = Some y -> (k < i)%nat -> m < y).
Proof.
  destruct l as [|x l]; [discriminate|]. intros H. injection H as <-.
  apply (argmin_from_spec l [x] 0%nat x); [reflexivity| |].
  - intros y k Hk. destruct k as [|k]; [|destruct k; discriminate]. injection Hk as <-. lra.
  - intros y k _ Hk. lia.
Qed.
Lemma argmin_some l : l <> [] -> exists i, argmin l = Some i.
Proof. destruct l as [|x l]; [congruence|]. intros _. eexists. reflexivity. Qed.

Lemma nth_error_nth_R (l : list R) k : (k < length l)%nat -> nth_error l k = Some (nth k l 0).
Proof. intros H. apply nth_error_nth'. exact H. Qed.

Lemma argmin_nearest alphas a i : argmin (map (fun x => Rabs (x - a)) alphas) = Some i <-> first_nearest alphas a i.
Proof.
  assert (N : forall k, (k < length alphas)%nat -> nth_error (map (fun x => Rabs (x - a)) alphas) k = Some (Rabs (nth k alphas 0 - a))).
  { intros k Hk. rewrite nth_error_map, nth_error_nth_R by exact Hk. reflexivity. }
  assert (F : forall i, argmin (map (fun x => Rabs (x - a)) alphas) = Some i -> first_nearest alphas a i).
  { intros j H. apply argmin_spec in H as [m [A [B C]]].
    assert (Hj : (j < length alphas)%nat).
    { rewrite <- (map_length (fun x => Rabs (x - a))). apply nth_error_Some. congruence. }
    rewrite (N j Hj) in A. injection A as <-.
    split; [exact Hj|]. split; intros k Hk; [apply (B _ k), N; exact Hk|apply (C _ k); [apply N; lia|exact Hk]]. }
  split; [apply F|]. intros [H1 [H2 H3]].
  destruct (argmin_some (map (fun x => Rabs (x - a)) alphas)) as [j Ej].
  { intros E. apply (f_equal (@length R)) in E. rewrite map_length in E. simpl in E. lia. }
  rewrite Ej. f_equal. destruct (F j Ej) as [J1 [J2 J3]].
  destruct (Nat.lt_trichotomy i j) as [L|[L|L]]; [|congruence|].
  - specialize (J3 i L). specialize (H2 j J1). lra.
  - specialize (H3 j L). specialize (J2 i H1). lra.
Qed.
