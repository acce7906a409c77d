(** C73: arrays passed by the user are not modified, and in-place arithmetic does not change the result. *)
From Verif Require Import S_Mem L_Mem L_Solver3 P_Solver.
From Coq Require Import FunctionalExtensionality Lia Lra.
From Verif Require Import M_Solver S_Solver.
Local Open Scope R_scope.

(** C73: a fit (single alpha or search, any solver) writes into no array the caller holds: data, weights,
    offset, penalties, bounds, start_params, anything else.  The only exception is the coef_ of an earlier
    fit, reused as the start of a warm-started model without intercept. *)
Theorem C73_inputs_unchanged : forall solve share a se alphas h out h',
  args_held a h -> mem_fit solve share a se alphas h = Some (out, h') ->
  forall l, ~ reused a l -> untouched h h' l.
Proof.
  intros solve share a se alphas h out h' HA E l Nl c Hc.
  destruct (mem_fit_frame _ _ _ _ _ _ _ _ HA E) as ((A & B) & _). rewrite B; auto.
  apply nth_error_Some. congruence.
Qed.
Print Assumptions C73_inputs_unchanged.

(** C73: the arrays a fit returns are new (with the same exception): writing into coef_ or coef_path_
    later does not reach an array of the user, nor the other way round. *)
Theorem C73_results_new : forall solve share a se alphas h out h' l,
  args_held a h -> mem_fit solve share a se alphas h = Some (out, h') -> returned out l ->
  held h' l /\ (held h l -> reused a l).
Proof.
  intros solve share a se alphas h out h' l HA E Hr. destruct (mem_fit_frame _ _ _ _ _ _ _ _ HA E) as (_ & B). apply B; auto.
Qed.
Print Assumptions C73_results_new.

(** C73: the intercepts and coefficients read from memory after a search are those of the chain of solves on the values
    passed: scaling penalties and start in place, writing the solutions into one array and transforming
    that array in place has no effect on the result.  [share] is where a solver hands back the very array it
    was given, which it may do only if it has not moved. *)
Theorem C73_path_values : forall solve share a se alphas h,
  args_held a h -> bounds_shaped a h -> reused_apart a ->
  (forall pb P2 c s, solve pb P2 c = Some s -> share s = true -> so_coef s = c) ->
  option_map (observe a (length alphas)) (mem_fit solve share a se (inr alphas) h) =
  value_fit solve (values_of a h) se (has_offset a) (start_of a h) alphas.
Proof.
  intros solve share a se alphas h HA HB HR Hsh. unfold mem_fit, value_fit.
  destruct (mem_prepare a h) as [q h1] eqn:E1. pose proof (mem_prepare_spec _ _ _ _ E1 HA) as Hq.
  assert (P01 := po_pres _ _ _ _ Hq).
  rewrite (mem_guess_spec _ _ _ _ Hq). destruct (start_guess _ _ _) as [g|]; [|reflexivity].
  destruct (mem_start a q g h1) as [c h2] eqn:E2.
  destruct (mem_start_spec _ _ _ _ _ _ _ Hq HA HB HR E2) as (P12 & Lc & Nc & Vc).
  assert (Nd : ~ is_data q c).
  { eapply not_data; [exact Hq|exact HR|exact Nc|]. destruct Nc as [?|(_ & c0 & Es)]; [right; auto|left].
    destruct HA as (_ & _ & _ & _ & _ & _ & _ & _ & HA). rewrite Es in HA. exact HA. }
  assert (D2 : data_in a h q h2) by (eapply data_in_pres; [apply data_in_prep; exact Hq|exact P12|intros l Hl <-; auto]).
  unfold new. set (h3 := h2 ++ [_]).
  assert (L3 : length h3 = S (length h2)) by (unfold h3; rewrite app_length; simpl; lia).
  assert (P23 : pres nothing h2 h3) by apply pres_new.
  assert (D3 : data_in a h q h3) by (eapply data_in_pres; [exact D2|exact P23|intros; apply nothing_not]).
  assert (Np : ~ is_data q (length h2)).
  { intros D. pose proof (data_held _ _ _ _ _ Hq D). destruct P12. lia. }
  pose proof (mem_loop_spec solve share a h q se (length h2) Hsh Np alphas 0 c h3 D3 ltac:(lia) ltac:(lia) ltac:(lia)) as HL.
  rewrite (vec_pres nothing h2 h3) in HL by auto with mem. rewrite Vc in HL.
  destruct (solve_path _ _ _ alphas _) as [sols|] eqn:ES; [|rewrite HL; reflexivity].
  destruct HL as (h4 & EL & P34 & M4). rewrite EL.
  assert (D4 : data_in a h q h4) by (eapply data_in_pres; [exact D3|exact P34|intros l Hl <-; auto]).
  destruct D4 as (_ & _ & Vm & Vs & HD4).
  assert (Dm : is_data q (q_m q)) by (unfold is_data; auto 20). assert (Ds : is_data q (q_s q)) by (unfold is_data; auto 20).
  assert (Nm : length h2 <> q_m q) by (intros Z; apply Np; rewrite Z; auto).
  assert (Ns : length h2 <> q_s q) by (intros Z; apply Np; rewrite Z; auto).
  assert (LS : length sols = length alphas).
  { clear - ES. revert ES. generalize (path_start (values_of a h) g (start_of a h)) as v. revert sols.
    induction alphas as [|al r IH]; simpl; intros sols v E; [inversion E; reflexivity|].
    destruct (solve_alpha _ _ _ al v); [|discriminate]. destruct (solve_path _ _ _ r _) eqn:ER; [|discriminate]. inversion E; subst; simpl. f_equal. eapply IH; eauto. }
  assert (Hent : forall e : nat -> R * (nat -> R),
     (forall i, (i < length alphas)%nat -> e i = user_result (values_of a h) (so_coef (nth i sols (mkSol (fun _ => 0) 0 false)))) ->
     map e (seq 0 (length alphas)) = map (fun s => user_result (values_of a h) (so_coef s)) sols).
  { intros e He. transitivity (map (fun i => user_result (values_of a h) (so_coef (nth i sols (mkSol (fun _ => 0) 0 false)))) (seq 0 (length alphas))).
    - apply map_ext_in. intros i Hi. apply in_seq in Hi. apply He. lia.
    - rewrite <- LS. clear. set (d := mkSol _ _ _). induction sols as [|s r IH] using rev_ind; [reflexivity|].
      rewrite app_length, Nat.add_1_r, seq_S, !map_app. simpl. f_equal.
      + rewrite <- IH. apply map_ext_in. intros i Hi. apply in_seq in Hi. rewrite app_nth1 by lia. reflexivity.
      + rewrite nth_middle. reflexivity. }
  assert (Mi : forall i, (i < length alphas)%nat -> forall j, mat_at h4 (length h2) i j = so_coef (nth i sols (mkSol (fun _ => 0) 0 false)) j).
  { intros i Hi j. rewrite M4. simpl. replace (Nat.ltb i (length alphas)) with true by (symmetry; apply Nat.ltb_lt; auto). rewrite Nat.sub_0_r. reflexivity. }
  assert (Lp4 : (length h2 < length h4)%nat) by (destruct P34; lia).
  destruct (g_ic a) eqn:Ei.
  - simpl option_map. destruct (unstd_path_spec (g_p a) (q_m q) (q_s q) (length h2) h4 Lp4 Nm Ns) as (_ & RE).
    f_equal. f_equal. rewrite Ei. apply Hent. intros i Hi. rewrite RE, Vm, Vs. unfold user_result. simpl u_ic. rewrite Ei. simpl.
    rewrite (Mi i Hi). f_equal; [f_equal; apply rsum_ext; intros; rewrite (Mi i Hi); reflexivity|].
    apply functional_extensionality; intros j; rewrite (Mi i Hi); reflexivity.
  - destruct (mem_unstd_path0 _ _ _ _ h4) as [i0 h5] eqn:E5. simpl option_map.
    destruct (unstd_path0_spec _ _ _ _ _ _ _ E5 Lp4 (HD4 _ Dm) (HD4 _ Ds) Nm Ns) as (_ & _ & RE).
    f_equal. f_equal. rewrite Ei. apply Hent. intros i Hi. rewrite RE, Vm, Vs. unfold user_result. simpl u_ic. rewrite Ei. simpl.
    f_equal; [f_equal; apply rsum_ext; intros; rewrite (Mi i Hi); reflexivity|].
    apply functional_extensionality; intros j; rewrite (Mi i Hi); reflexivity.
Qed.
Print Assumptions C73_path_values.

(** C73: the same for a fit with one alpha. *)
Theorem C73_values : forall solve share a se alpha h,
  args_held a h -> bounds_shaped a h -> reused_apart a ->
  (forall pb P2 c s, solve pb P2 c = Some s -> share s = true -> so_coef s = c) ->
  option_map (observe a 1) (mem_fit solve share a se (inl alpha) h) =
  value_fit solve (values_of a h) se (has_offset a) (start_of a h) [alpha].
Proof.
  intros solve share a se alpha h HA HB HR Hsh. unfold mem_fit, value_fit.
  destruct (mem_prepare a h) as [q h1] eqn:E1. pose proof (mem_prepare_spec _ _ _ _ E1 HA) as Hq.
  rewrite (mem_guess_spec _ _ _ _ Hq). destruct (start_guess _ _ _) as [g|]; [|reflexivity].
  destruct (mem_start a q g h1) as [c h2] eqn:E2.
  destruct (mem_start_spec _ _ _ _ _ _ _ Hq HA HB HR E2) as (P12 & Lc & Nc & Vc).
  assert (Nd : ~ is_data q c).
  { eapply not_data; [exact Hq|exact HR|exact Nc|]. destruct Nc as [?|(_ & c0 & Es)]; [right; auto|left].
    destruct HA as (_ & _ & _ & _ & _ & _ & _ & _ & HA). rewrite Es in HA. exact HA. }
  assert (D2 : data_in a h q h2) by (eapply data_in_pres; [apply data_in_prep; exact Hq|exact P12|intros l Hl <-; auto]).
  pose proof (mem_solve_spec solve share a h q se alpha c h2 D2 Lc) as HS. rewrite Vc in HS. simpl solve_path.
  destruct (solve_alpha _ _ _ alpha _) as [s|] eqn:ES; [|rewrite HS; reflexivity].
  destruct HS as (c' & h3 & E3 & P23 & L3 & N3 & V3). rewrite E3.
  assert (V3' : vec_at h3 c' = so_coef s) by (apply V3; intros; eapply Hsh; [exact ES|auto]).
  assert (D3 : data_in a h q h3) by (eapply data_in_pres; [exact D2|exact P23|intros; apply nothing_not]).
  destruct D3 as (_ & _ & Vm & Vs & _).
  destruct (mem_unstd _ _ _ _ c' h3) as [i h4] eqn:E4. destruct (unstd_spec _ _ _ _ _ _ _ _ E4 L3) as (_ & RE).
  simpl option_map. rewrite RE, Vm, Vs, V3'. unfold user_result. simpl u_ic. destruct (g_ic a); reflexivity.
Qed.
Print Assumptions C73_values.

(** irls-cd hands back the array it was given exactly when it made no iteration, and then it has not moved *)
Theorem C73_cd_shares_only_unmoved : forall seed pb P2 c s,
  cd_path_solver seed pb P2 c = Some s -> Z.eqb (so_iter s) 0 = true -> so_coef s = c.
Proof.
  intros seed pb P2 c s E H. unfold cd_path_solver in E.
  destruct (irls_solver pb (cd_solver pb seed) P2 c) as [[st w]|] eqn:ES; [|discriminate]. inversion E; subst s; clear E. simpl in *.
  destruct (C27_iteration_accounting _ _ _ _ _ _ ES) as [n [hist [[H0 Hs] [Hn [HI _]]]]].
  apply Z.eqb_eq in H. rewrite HI in H. assert (n = 0%nat) by lia. subst n. rewrite H0 in Hn. subst st. apply init_coef.
Qed.
Print Assumptions C73_cd_shares_only_unmoved.

(** C73: predict writes into no array the caller holds; its result is a new array with the predictions
    (X coef + intercept + offset, inverse link, times the weights). *)
Theorem C73_predict : forall n p lk X ic c intercept off w h r h',
  held h X -> held h c -> held_opt h off -> held_opt h w ->
  mem_predict n p lk X ic c intercept off w h = (r, h') ->
  (forall l, untouched h h' l) /\ ~ held h r /\
  vec_at h' r = (fun i =>
    inverse1 lk (rsum p (fun j => mat_at h X i j * vec_at h c (ioff ic + j)%nat) + intercept
                 + match off with Some o => vec_at h o i | None => 0 end)
    * match w with Some l => vec_at h l i | None => 1 end).
Proof.
  intros n p lk X ic c intercept off w h r h' HX Hc Ho Hw E. unfold mem_predict, new in E.
  set (h1 := h ++ [_]) in E. set (h2 := match off with None => h1 | Some o => M_Mem.upd h1 (length h) (CVec (fun i => vec_at h1 (length h) i + vec_at h1 o i)) end) in E.
  assert (L1 : length h1 = S (length h)) by (unfold h1; rewrite app_length; simpl; lia).
  assert (P1 : pres nothing h h1) by apply pres_new.
  assert (L2 : length h2 = length h1) by (unfold h2; destruct off; auto; apply upd_length).
  assert (P2 : pres nothing h h2).
  { split; [lia|]. intros l Hl _. unfold h2. destruct off; [rewrite upd_other by lia|]; apply P1; auto with mem. }
  assert (V2 : vec_at h2 (length h) = (fun i => rsum p (fun j => mat_at h X i j * vec_at h c (ioff ic + j)%nat) + intercept
                 + match off with Some o => vec_at h o i | None => 0 end)).
  { unfold h2. destruct off as [o|].
    - rewrite vec_upd by lia. unfold h1 at 1. rewrite vec_new. rewrite (vec_pres nothing h h1 o) by (auto with mem). reflexivity.
    - unfold h1. rewrite vec_new. apply functional_extensionality; intros; ring. }
  set (h3 := h2 ++ [_]) in E.
  assert (P3 : pres nothing h h3) by (eapply pres_trans; [exact P2|apply pres_new]).
  assert (L3 : length h3 = S (length h2)) by (unfold h3; rewrite app_length; simpl; lia).
  assert (U : forall hh, pres nothing h hh -> forall l, untouched h hh l).
  { intros hh [A B] l cc Hcc. rewrite B; auto with mem. apply nth_error_Some. congruence. }
  destruct w as [l|].
  - inversion E; subst r h'; clear E. split; [apply U; eapply pres_trans; [exact P3|apply pres_new]|]. split; [unfold held; lia|].
    rewrite vec_new. unfold h3 at 1. rewrite vec_new, V2. rewrite (vec_pres nothing h h3 l) by auto with mem. reflexivity.
  - inversion E; subst r h'; clear E. split; [apply U; exact P3|]. split; [unfold held; lia|].
    unfold h3. rewrite vec_new, V2. apply functional_extensionality; intros; ring.
Qed.
Print Assumptions C73_predict.

Definition exm_a : margs := mkArgs 1 1 0%nat 1%nat None None false NormalF IdentityL true 0 None L2Identity None (Some 3%nat) (LWarm 0 2%nat) (fun _ => false).
Definition exm_h : heap := [CMat (fun _ _ => 1); CVec (fun _ => 1); CVec (fun _ => 5); CBnd (fun j => match j with O => Some 1 | S _ => None end)].
Definition exm_se : settings := mkSettings 100 1000 (1 / 10000) None 0 None false true 1000000 (1 / 1000000000).
Lemma exm_clip g : path_start (values_of exm_a exm_h) g (start_of exm_a exm_h) 0%nat = 1.
Proof.
  unfold path_start, get_start_coef, clip_start, start_of, exm_a, exm_h, values_of, vec_at, bnd_at. cbn. rewrite Rmin_right; lra.
Qed.
Lemma exm_std : one_over (u_stds (values_of exm_a exm_h) 0%nat) = 1.
Proof.
  unfold u_stds, col_stds, wmean, values_of, exm_a, exm_h, vec_at, mat_at. cbn [u_n u_w u_X g_n g_w g_X rsum nth_error].
  match goal with |- one_over (sqrt ?x) = _ => replace x with 0 by (simpl; field) end. rewrite sqrt_0. unfold one_over, std_threshold. rewrite Rabs_R0.
  replace (Rltb 0 (10 / 2 ^ 26)) with true; [reflexivity|]. symmetry; apply Rltb_true. apply Rdiv_lt_0_compat; [lra|]. apply pow_lt; lra.
Qed.
Lemma reused_content solve share a se al h l out h' : args_held a h -> bounds_shaped a h -> reused_apart a -> reused a l ->
  mem_fit solve share a se (inl al) h = Some (out, h') ->
  exists g, start_guess (values_of a h) (has_offset a) (start_of a h) = Some g /\
  let v := path_start (values_of a h) g (start_of a h) in
  vec_at h' l = v \/ vec_at h' l = (fun k => v k * one_over (u_stds (values_of a h) k)).
Proof.
  intros HA HB HR Rl E. unfold mem_fit in E.
  destruct (mem_prepare a h) as [q h1] eqn:E1. pose proof (mem_prepare_spec _ _ _ _ E1 HA) as Hq.
  rewrite (mem_guess_spec _ _ _ _ Hq) in E. destruct (start_guess _ _ _) as [g|]; [|discriminate]. exists g. split; [auto|].
  destruct (mem_start a q g h1) as [c h2] eqn:E2.
  destruct (mem_start_spec _ _ _ _ _ _ _ Hq HA HB HR E2) as (P12 & Lc & Nc & Vc).
  destruct Rl as (Ei & c0 & Es).
  assert (c = l) by (unfold mem_start in E2; rewrite Es, Ei in E2; injection E2 as <- _; auto). subst c.
  assert (Nd : ~ is_data q l).
  { eapply not_data; [exact Hq|exact HR|exact Nc|left]. destruct HA as (_ & _ & _ & _ & _ & _ & _ & _ & HA). rewrite Es in HA. exact HA. }
  assert (D2 : data_in a h q h2) by (eapply data_in_pres; [apply data_in_prep; exact Hq|exact P12|intros k Hk <-; auto]).
  destruct (mem_solve solve share a se q al l h2) as [[[c' s] h3]|] eqn:E3; [|discriminate].
  destruct (mem_solve_frame _ _ _ _ _ _ _ _ _ _ _ E3 Lc) as (P23 & L3 & N3).
  assert (D3 : data_in a h q h3) by (eapply data_in_pres; [exact D2|exact P23|intros; apply nothing_not]).
  destruct D3 as (_ & _ & _ & Vs & _).
  assert (V3 : vec_at h3 l = path_start (values_of a h) g (start_of a h)) by (rewrite (vec_pres nothing h2 h3) by auto with mem; auto).
  unfold mem_unstd in E. injection E as _ E. subst h'. rewrite Ei. destruct N3 as [->|N3].
  - right. rewrite vec_upd by auto. apply functional_extensionality; intros k. cbn. rewrite Nat.sub_0_r, V3, Vs. reflexivity.
  - left. rewrite vec_upd_o by lia. exact V3.
Qed.
Lemma cd_fits seed share a se al h : args_held a h -> bounds_shaped a h -> reused_apart a ->
  (forall pb P2 c s, cd_path_solver seed pb P2 c = Some s -> share s = true -> so_coef s = c) ->
  start_guess (values_of a h) (has_offset a) (start_of a h) <> None ->
  exists out h', mem_fit (cd_path_solver seed) share a se (inl al) h = Some (out, h').
Proof.
  intros HA HB HR Hs HG.
  pose proof (C73_values (cd_path_solver seed) share a se al h HA HB HR Hs) as V.
  destruct (mem_fit _ _ a se (inl al) h) as [[out h']|]; [eauto|]. exfalso. unfold value_fit in V.
  destruct (start_guess _ _ _) as [g|]; [|congruence]. cbn [solve_path] in V. unfold solve_alpha, cd_path_solver in V.
  destruct (irls_solver _ _ _ _) as [[st w]|] eqn:E1; [discriminate|revert E1; apply C27_cd_always_returns].
Qed.
(** finding F25 in memory: a warm-started model without intercept writes into the coef_ of the previous fit,
    which the caller may hold (here: coefficient 5, upper bound 1). *)
Theorem C73_reused_refuted : forall seed, exists a se alphas h out h' l,
  args_held a h /\ bounds_shaped a h /\ reused_apart a /\ g_start a = LWarm 0 l /\
  mem_fit (cd_path_solver seed) (fun s => Z.eqb (so_iter s) 0) a se alphas h = Some (out, h') /\
  vec_at h l 0%nat = 5 /\ vec_at h' l 0%nat = 1.
Proof.
  intros seed.
  assert (HA : args_held exm_a exm_h) by (unfold args_held, held_opt, held, exm_a, exm_h; cbn; repeat split; lia).
  assert (HB : bounds_shaped exm_a exm_h).
  { intros j Hj. cbn in Hj. split; [reflexivity|]. cbn. destruct j; [lia|reflexivity]. }
  assert (HR : reused_apart exm_a).
  { intros l (_ & c0 & El). cbn in El. injection El as _ <-. cbn. repeat split; congruence. }
  destruct (cd_fits seed (fun s => Z.eqb (so_iter s) 0) exm_a exm_se 1 exm_h HA HB HR (C73_cd_shares_only_unmoved seed)) as (out & h' & E).
  { cbn. discriminate. }
  assert (V : vec_at h' 2%nat 0%nat = 1).
  { destruct (reused_content _ _ _ _ _ _ 2%nat _ _ HA HB HR (conj eq_refl (ex_intro _ 0 eq_refl)) E) as (g & _ & [V|V]); rewrite V.
    - apply exm_clip. - rewrite exm_clip, exm_std. ring. }
  exists exm_a, exm_se, (inl 1), exm_h, out, h', 2%nat.
  split; [exact HA|]. split; [exact HB|]. split; [exact HR|]. split; [reflexivity|]. split; [exact E|]. split; [reflexivity|exact V].
Qed.
Print Assumptions C73_reused_refuted.

Lemma cd_solves seed pb P2 : forall alphas c, solve_path (cd_path_solver seed) pb P2 alphas c <> None.
Proof.
  induction alphas as [|al r IH]; intros c; cbn [solve_path]; [discriminate|].
  unfold solve_alpha at 1, cd_path_solver at 1.
  destruct (irls_solver _ _ _ c) as [[st w]|] eqn:E1; [|exfalso; revert E1; apply C27_cd_always_returns].
  cbn [so_coef]. specialize (IH (st_coef st)). destruct (solve_path _ _ _ r (st_coef st)); congruence.
Qed.
Lemma cd_fits_path seed share a se als h : args_held a h -> bounds_shaped a h -> reused_apart a ->
  (forall pb P2 c s, cd_path_solver seed pb P2 c = Some s -> share s = true -> so_coef s = c) ->
  start_guess (values_of a h) (has_offset a) (start_of a h) <> None ->
  exists out h', mem_fit (cd_path_solver seed) share a se (inr als) h = Some (out, h').
Proof.
  intros HA HB HR Hs HG.
  pose proof (C73_path_values (cd_path_solver seed) share a se als h HA HB HR Hs) as V.
  destruct (mem_fit _ _ a se (inr als) h) as [[out h']|]; [eauto|]. exfalso. unfold value_fit in V.
  destruct (start_guess _ _ _) as [g|]; [|congruence].
  pose proof (cd_solves seed (std_problem (values_of a h) se) (std_problem_P2 (values_of a h)) als (path_start (values_of a h) g (start_of a h))) as K.
  destruct (solve_path _ _ _ als _); [discriminate|congruence].
Qed.
Definition exn_a : margs := mkArgs 2 1 0%nat 1%nat (Some 2%nat) (Some 3%nat) true NormalF IdentityL false (1 / 2) (Some 4%nat) (L2Vec 5%nat) (Some 6%nat) None (LParams 7%nat) (fun _ => false).
Definition exn_h : heap := [CMat (fun i _ => INR i); CVec (fun _ => 1); CVec (fun _ => 1); CVec (fun _ => 0); CVec (fun _ => 1); CVec (fun _ => 1);
              CBnd (fun j => match j with O => Some 0 | S _ => None end); CVec (fun _ => 1)].
(** non-vacuity: a search with irls-cd, X and y handed on uncopied, user penalties, bounds and start_params *)
Example C73_nonvacuous : forall seed, exists a se h out h',
  args_held a h /\ bounds_shaped a h /\ reused_apart a /\ g_scale a = false /\ g_copies a AtX = false /\
  mem_fit (cd_path_solver seed) (fun s => Z.eqb (so_iter s) 0) a se (inr [2; 1]) h = Some (out, h') /\
  (forall l, (l < 8)%nat -> untouched h h' l).
Proof.
  intros seed.
  assert (HA : args_held exn_a exn_h) by (unfold args_held, held_opt, held, exn_a, exn_h; cbn; repeat split; lia).
  assert (HB : bounds_shaped exn_a exn_h).
  { intros j Hj. cbn in Hj. split; [|reflexivity]. cbn. destruct j; [lia|reflexivity]. }
  assert (HR : reused_apart exn_a) by (intros l (Ei & _); discriminate).
  destruct (cd_fits_path seed (fun s => Z.eqb (so_iter s) 0) exn_a exm_se [2; 1] exn_h HA HB HR (C73_cd_shares_only_unmoved seed)) as (out & h' & E).
  { cbn. discriminate. }
  exists exn_a, exm_se, exn_h, out, h'.
  split; [exact HA|]. split; [exact HB|]. split; [exact HR|]. split; [reflexivity|]. split; [reflexivity|]. split; [exact E|].
  intros l Hl. eapply C73_inputs_unchanged; [exact HA|exact E|]. intros (Ei & _); discriminate.
Qed.
