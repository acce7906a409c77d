(** Theorems C49 (information criteria), C59 (stored covariance), C60 (failed fits), C61 (refits). *)
From Verif Require Import M_Est S_Est L_Rows L_CV.
From Coq Require Import FunctionalExtensionality String List.
Import ListNotations.
From Verif Require Import M_Solver S_Solver.
Local Open Scope R_scope.

Lemma n_nonzero_filter b : n_nonzero b (length (filter (fun v => Rltb feps (Rabs v)) b)).
Proof.
  induction b as [|v b IH]; cbn [filter]; [constructor|]. destruct (Rltb feps (Rabs v)) eqn:E.
  - cbn [length]. constructor; [apply Rltb_true in E; exact E|exact IH].
  - constructor; [apply Rltb_false in E; unfold feps in E; lra|exact IH].
Qed.
Lemma dot_combine (row b : list R) : length row = length b ->
  lsumf (fun xb => fst xb * snd xb) (combine row b) = rsum (length b) (fun j => nth j row 0 * nth j b 0).
Proof.
  revert b. induction row as [|x row IH]; intros [|v b] H; cbn in H; try discriminate; [reflexivity|].
  cbn [combine]. rewrite lsumf_cons. cbn [length]. rewrite rsum_S_l. cbn [nth fst snd]. f_equal. apply IH. lia.
Qed.

(** C49: the values computed by a first query. *)
Theorem C49_values : forall lg tw fd ic e q c, compute_criteria lg tw fd ic e q = Some c ->
  exists f lk b0 b d k ll, a_famlink e = Some (f, lk) /\ a_coef e = Some (b0, b) /\ a_nobs e = Some (length d) /\
    convert fd e (q_x q) = Some d /\ (forall row, In row d -> length row = length b) /\ n_nonzero b k /\
    let mus := map (row_mean lk b0 b) d in
    let data := query_obs (q_y q) mus (q_w q) in
    log_likelihood lg tw f (dispersion f Pearson true 1 data) data = Some ll /\
    let K := INR k + (if ic then 1 else 0) in let n := INR (length d) in
    cr_aic c = -2 * ll + 2 * K /\ cr_bic c = -2 * ll + K * ln n /\
    (K + 1 < n -> cr_aicc c = Some (-2 * ll + 2 * K + 2 * K * (K + 1) / (n - K - 1))) /\
    (n <= K + 1 -> cr_aicc c = None).
Proof.
  intros lg tw fd ic e q c. unfold compute_criteria. destruct (a_famlink e) as [[f lk]|] eqn:E1; [|discriminate].
  destruct (a_coef e) as [[b0 b]|] eqn:E2; [|discriminate]. destruct (a_nobs e) as [n0|] eqn:E3; [|discriminate].
  destruct (convert fd e (q_x q)) as [d|] eqn:E4; [|discriminate]. destruct (Nat.eqb_spec (length d) n0) as [<-|]; cbn [negb]; [|discriminate].
  destruct (predict_est fd e (XArray d)) as [mu|] eqn:E5; [|discriminate]. destruct (negb _); [discriminate|].
  unfold predict_est in E5. rewrite E1, E2 in E5. cbn [convert] in E5. destruct (forallb _ d) eqn:E6; [|discriminate]. injection E5 as <-.
  assert (HW : forall row, In row d -> length row = length b).
  { intros row Hr. rewrite forallb_forall in E6. apply Nat.eqb_eq, E6, Hr. }
  replace (map (fun row => inverse1 lk (b0 + lsumf (fun xb => fst xb * snd xb) (combine row b))) d) with (map (row_mean lk b0 b) d).
  2:{ apply map_ext_in. intros row Hr. unfold row_mean. rewrite dot_combine by (apply HW, Hr). reflexivity. }
  destruct (log_likelihood _ _ _ _ _) as [ll|] eqn:E7; [|discriminate]. intros H. injection H as <-.
  set (k0 := length (filter (fun v => Rltb feps (Rabs v)) b)).
  exists f, lk, b0, b, d, k0, ll. repeat (split; [first [reflexivity|assumption]|]). split; [apply n_nonzero_filter|]. cbn zeta. split; [exact E7|]. cbn [cr_aic cr_aicc cr_bic].
  assert (EK : INR (k0 + (if ic then 1 else 0)) = INR k0 + (if ic then 1 else 0)) by (rewrite plus_INR; destruct ic; reflexivity).
  rewrite EK. split; [reflexivity|]. split; [ring|].
  assert (HL : (k0 + (if ic then 1 else 0) + 1 < length d)%nat <-> INR k0 + (if ic then 1 else 0) + 1 < INR (length d)).
  { rewrite <- EK. change 1 with (INR 1) at 1. rewrite <- plus_INR. split; [apply lt_INR|apply INR_lt]. }
  destruct (Nat.ltb_spec (k0 + (if ic then 1 else 0) + 1) (length d)) as [L|L].
  - split; [reflexivity|]. intros G. apply HL in L. lra.
  - split; [intros G; apply HL in G; lia|reflexivity].
Qed.
Print Assumptions C49_values.

Section H.
Variable lg : R -> R.
Variable tw : R -> R -> R -> R.
Variable fd : conv.
Notation run := (run lg tw fd).
Notation step := (step lg tw fd).

Lemma run_app h h' : run (h ++ h') = fold_left step h' (run h).
Proof. unfold M_Est.run. apply fold_left_app. Qed.
Lemma run_snoc h o : run (h ++ [o]) = step (run h) o.
Proof. rewrite run_app. reflexivity. Qed.

Lemma fit_args_keeps c e : a_coef (fst (fit_args c e)) = a_coef e /\ a_cov (fst (fit_args c e)) = a_cov e /\ a_info (fst (fit_args c e)) = a_info e.
Proof. unfold fit_args. destruct (f_kind c), (f_spec_ok c), (f_args_ok c); cbn; auto. Qed.
Lemma fit_start_keeps c e : a_cov (fit_start c e) = a_cov e /\ a_info (fit_start c e) = a_info e.
Proof. unfold fit_start. destruct (f_warm c); [|auto]. destruct (f_clip c); [|auto]. destruct (a_coef e) as [[b0 b]|] eqn:E; cbn; auto. Qed.
Lemma fit_info c e : a_info (fst (fit c e)) = a_info e.
Proof.
  unfold fit. destruct (f_valid c); cbn [negb]; [|reflexivity]. pose proof (fit_args_keeps c e) as [_ [_ HI]].
  destruct (fit_args c e) as [e1 ok]. cbn [fst] in HI. destruct ok; [|exact HI]. destruct (f_fl c) as [fl|]; [|exact HI].
  destruct (negb _); [exact HI|]. pose proof (fit_start_keeps c (set_famlink fl (f_n c) e1)) as [_ HS].
  destruct (f_solve c _) as [b|]; [|cbn [fst]; rewrite HS; exact HI].
  destruct (f_store c) as [cv|]; [destruct (cv fl b)|]; cbn; rewrite HS; exact HI.
Qed.
Lemma step_info e o c : a_info e = Some c -> a_info (step e o) = Some c.
Proof.
  intros H. destruct o as [fc|ic w q|s cv|x]; cbn.
  - rewrite fit_info. exact H.
  - unfold criterion. destruct (a_coef e); [|exact H]. rewrite H. exact H.
  - unfold covariance. destruct (a_famlink e), (a_coef e); try exact H. destruct (cv _ _); [|exact H]. destruct s; exact H.
  - exact H.
Qed.

(** Once a criterion has been computed, every later query returns it, whatever has been fitted since and
    whatever data is passed. *)
Lemma sticky h c h' : a_info (run h) = Some c -> a_info (run (h ++ h')) = Some c.
Proof.
  intros H. rewrite run_app. revert H. generalize (run h). induction h' as [|o h' IH]; intros e H; [exact H|]. cbn [fold_left]. apply IH, step_info, H.
Qed.
Lemma sticky_query h c h' ic q : a_info (run h) = Some c -> a_coef (run (h ++ h')) <> None ->
  snd (criterion lg tw fd ic AIC q (run (h ++ h'))) = Some (cr_aic c) /\ snd (criterion lg tw fd ic BIC q (run (h ++ h'))) = Some (cr_bic c).
Proof.
  intros H HC. pose proof (sticky h c h' H) as HS. unfold criterion. destruct (a_coef (run (h ++ h'))); [|congruence]. rewrite HS. split; reflexivity.
Qed.

(** coefficients are never lost *)
Lemma step_coef e o : a_coef e <> None -> a_coef (step e o) <> None.
Proof.
  intros H. destruct o as [c|ic w q|s cv|x]; cbn.
  - unfold fit. destruct (f_valid c); cbn [negb]; [|exact H]. pose proof (fit_args_keeps c e) as [HC _]. destruct (fit_args c e) as [e1 ok]. cbn [fst] in HC.
    destruct ok; [|cbn; congruence]. destruct (f_fl c) as [fl|]; [|cbn; congruence]. destruct (negb _); [cbn; congruence|].
    assert (HS : a_coef (fit_start c (set_famlink fl (f_n c) e1)) <> None).
    { unfold fit_start. destruct (f_warm c); [|cbn; congruence]. destruct (f_clip c); [|cbn; congruence]. cbn. destruct (a_coef e1) as [[b0 b]|] eqn:E; cbn; congruence. }
    destruct (f_solve c _) as [b|]; [|exact HS]. destruct (f_store c) as [cv|]; [destruct (cv fl b)|]; cbn; discriminate.
  - unfold criterion. destruct (a_coef e) eqn:E; [|congruence]. destruct (a_info e) eqn:EI; [cbn; congruence|]. destruct (compute_criteria _ _ _ _ _ _); cbn; congruence.
  - unfold covariance. destruct (a_famlink e), (a_coef e) eqn:E; try congruence; try (cbn; congruence). destruct (cv _ _); [|cbn; congruence]. destruct s; cbn; congruence.
  - exact H.
Qed.
Lemma info_coef h c : a_info (run h) = Some c -> a_coef (run h) <> None.
Proof.
  revert c. induction h as [|o h IH] using rev_ind; intros c; [discriminate|]. rewrite run_snoc. intros HI.
  destruct (a_info (run h)) as [c'|] eqn:E; [apply step_coef, (IH c' eq_refl)|].
  destruct o as [fc|ic w q|s cv|x]; cbn in HI.
  - rewrite fit_info in HI. congruence.
  - cbn. unfold criterion in *. destruct (a_coef (run h)) eqn:EC; [|cbn in HI; congruence]. rewrite E in *.
    destruct (compute_criteria _ _ _ _ _ _); cbn; congruence.
  - exfalso. unfold covariance in HI. destruct (a_famlink (run h)), (a_coef (run h)); try (cbn in HI; congruence). destruct (cv _ _); [|cbn in HI; congruence]. destruct s; cbn in HI; congruence.
  - congruence.
Qed.
Lemma run_coef h h' : a_coef (run h) <> None -> a_coef (run (h ++ h')) <> None.
Proof.
  rewrite run_app. generalize (run h). induction h' as [|o h' IH]; intros e He; [exact He|]. cbn [fold_left]. apply IH, step_coef, He.
Qed.
End H.


(** C49 as stated ("the values belong to the most recent fit") is false: the cache is never dropped
    (finding F10).  After any further history the old values are returned; a refit example. *)
Definition ex_fit (b0 : R) : fit_call :=
  mkFit true KArray true ["x"%string] true 1 (Some (BinomialF, IdentityL)) true true false None (fun _ => Some (b0, [0])) None.
Definition ex_query : query := mkQ (XArray [[0]]) [1] None.
Lemma ex_criteria lg tw fd b0 e : 0 < b0 < 1 -> a_famlink e = Some (BinomialF, IdentityL) -> a_coef e = Some (b0, [0]) -> a_nobs e = Some 1%nat ->
  exists a b, compute_criteria lg tw fd true e ex_query = Some (mkCrit (-2 * ln b0 + 2) a b).
Proof.
  intros Hb E1 E2 E3. unfold compute_criteria. rewrite E1, E2, E3. cbn [q_x ex_query convert length Nat.eqb negb].
  unfold predict_est. rewrite E1, E2. cbn [convert forallb length Nat.eqb andb map combine].
  cbn [q_y q_w ex_query length Nat.eqb andb negb]. cbn [query_obs combine repeat length map fst snd].
  cbn [filter]. replace (Rltb feps (Rabs 0)) with false by (symmetry; apply Rltb_false; rewrite Rabs_R0; unfold feps; left; apply Rinv_0_lt_compat; apply pow_lt; lra).
  cbn [length Nat.add]. unfold log_likelihood, binomial_ll. rewrite !lsumf_cons, lsumf_nil. cbn [oy omu ow fst snd].
  replace (inverse1 IdentityL (b0 + (0 * 0 + 0))) with b0 by (cbn; ring).
  eexists. eexists. f_equal. f_equal. unfold xlogy. destruct (Req_EM_T 1 0); [lra|]. destruct (Req_EM_T (1 - 1) 0) as [_|F]; [|lra]. cbn. ring.
Qed.
Theorem C49_current_refuted :
  (forall lg tw fd h c h' ic q, a_info (run lg tw fd h) = Some c ->
     snd (criterion lg tw fd ic AIC q (run lg tw fd (h ++ h'))) = Some (cr_aic c) /\
     snd (criterion lg tw fd ic BIC q (run lg tw fd (h ++ h'))) = Some (cr_bic c)) /\
  exists c1 c2 q v, forall lg tw fd,
    let h := [OFit c1; OCrit true AIC q; OFit c2] in
    snd (fit c1 new_est) = true /\ snd (fit c2 (run lg tw fd [OFit c1; OCrit true AIC q])) = true /\
    (* after the refit the query returns the old value ... *)
    snd (criterion lg tw fd true AIC q (run lg tw fd h)) = Some v /\
    (* ... which is not the value a fresh estimator reports *)
    exists v', snd (criterion lg tw fd true AIC q (run lg tw fd [OFit c2])) = Some v' /\ v' <> v.
Proof.
  split.
  - intros lg tw fd h c h' ic q H. apply sticky_query; [exact H|]. apply run_coef. exact (info_coef lg tw fd h c H).
  - exists (ex_fit (/ 2)), (ex_fit (/ 4)), ex_query, (-2 * ln (/ 2) + 2). intros lg tw fd. cbn zeta.
    set (e1 := fst (fit (ex_fit (/ 2)) new_est)). destruct (ex_criteria lg tw fd (/ 2) e1) as [a [b HC]]; [lra|reflexivity|reflexivity|reflexivity|].
    assert (HI : a_info (run lg tw fd [OFit (ex_fit (/ 2)); OCrit true AIC ex_query]) = Some (mkCrit (-2 * ln (/ 2) + 2) a b)).
    { change (run lg tw fd [OFit (ex_fit (/ 2)); OCrit true AIC ex_query]) with (fst (criterion lg tw fd true AIC ex_query e1)).
      unfold criterion. change (a_coef e1) with (Some (/ 2, [0])). change (a_info e1) with (@None criteria). rewrite HC. reflexivity. }
    split; [reflexivity|]. split; [reflexivity|]. split.
    + apply (sticky_query lg tw fd [OFit (ex_fit (/ 2)); OCrit true AIC ex_query] _ [OFit (ex_fit (/ 4))] true ex_query HI). discriminate.
    + set (e2 := run lg tw fd [OFit (ex_fit (/ 4))]). destruct (ex_criteria lg tw fd (/ 4) e2) as [a2 [b2 HC2]]; [lra|reflexivity|reflexivity|reflexivity|].
      exists (-2 * ln (/ 4) + 2). split.
      * unfold criterion. change (a_coef e2) with (Some (/ 4, [0])). change (a_info e2) with (@None criteria). rewrite HC2. reflexivity.
      * assert (ln (/ 4) < ln (/ 2)) by (apply ln_increasing; lra). lra.
Qed.
Print Assumptions C49_current_refuted.

(** What does hold: if no criterion has been computed before the fit, then after it, and until the next
    fit, a query returns the criteria of that fit (for the data of the first query). *)
Theorem C49_current_partial : forall lg tw fd pre c mid ic w q v,
  (forall o, In o pre -> ~ is_crit o) -> snd (fit c (run lg tw fd pre)) = true -> (forall o, In o mid -> ~ is_fit o /\ ~ is_crit o) ->
  snd (criterion lg tw fd ic w q (run lg tw fd (pre ++ OFit c :: mid))) = Some v ->
  exists fl b cr e, f_fl c = Some fl /\ (exists s, f_solve c s = Some b) /\
    a_famlink e = Some fl /\ a_coef e = Some b /\ a_nobs e = Some (f_n c) /\ a_names e = Some (f_names c) /\
    compute_criteria lg tw fd ic e q = Some cr /\
    match w with AIC => v = cr_aic cr | BIC => v = cr_bic cr | AICc => cr_aicc cr = Some v end.
Proof.
  intros lg tw fd pre c mid ic w q v Hpre Hfit Hmid Hq.
  assert (N0 : a_info (run lg tw fd pre) = None).
  { clear -Hpre. induction pre as [|o h IH] using rev_ind; [reflexivity|]. rewrite run_snoc.
    assert (E : a_info (run lg tw fd h) = None) by (apply IH; intros o' Ho; apply Hpre, in_or_app; left; exact Ho).
    destruct o as [fc|ic w q|s cv|x]; cbn.
    - rewrite fit_info. exact E.
    - exfalso. apply (Hpre (OCrit ic w q)); [apply in_or_app; right; left; reflexivity|]. exists ic, w, q. reflexivity.
    - unfold covariance. destruct (a_famlink (run lg tw fd h)), (a_coef (run lg tw fd h)); try exact E. destruct (cv _ _); [|exact E]. destruct s; exact E.
    - exact E. }
  set (e1 := fst (fit c (run lg tw fd pre))).
  assert (F1 : exists fl b, f_fl c = Some fl /\ (exists s, f_solve c s = Some b) /\ a_famlink e1 = Some fl /\ a_coef e1 = Some b /\ a_nobs e1 = Some (f_n c) /\ a_names e1 = Some (f_names c)).
  { unfold e1. revert Hfit. unfold fit. destruct (f_valid c); cbn [negb]; [|discriminate].
    assert (HN : snd (fit_args c (run lg tw fd pre)) = true -> a_names (fst (fit_args c (run lg tw fd pre))) = Some (f_names c)).
    { unfold fit_args. destruct (f_kind c), (f_spec_ok c), (f_args_ok c); cbn; congruence. }
    destruct (fit_args c (run lg tw fd pre)) as [e' ok]. cbn [fst snd] in HN. destruct ok; [|discriminate]. specialize (HN eq_refl).
    destruct (f_fl c) as [fl|]; [|discriminate]. destruct (negb _); [discriminate|].
    set (e3 := fit_start c (set_famlink fl (f_n c) e')).
    assert (H3 : a_famlink e3 = Some fl /\ a_nobs e3 = Some (f_n c) /\ a_names e3 = Some (f_names c)).
    { unfold e3, fit_start. destruct (f_warm c); [|cbn; auto]. destruct (f_clip c); [|cbn; auto]. cbn. destruct (a_coef e') as [[b0 b]|]; cbn; auto. }
    destruct H3 as [H31 [H32 H33]].
    destruct (f_solve c _) as [b|] eqn:ES; [|discriminate]. destruct (f_store c) as [cv|].
    - destruct (cv fl b) as [V|]; [|discriminate]. intros _. exists fl, b. cbn. repeat (split; [first [reflexivity|eauto|assumption]|]). assumption.
    - intros _. exists fl, b. cbn. repeat (split; [first [reflexivity|eauto|assumption]|]). assumption. }
  assert (N1 : a_info e1 = None) by (unfold e1; rewrite fit_info; exact N0).
  assert (E2 : let e2 := run lg tw fd (pre ++ OFit c :: mid) in a_info e2 = None /\ a_famlink e2 = a_famlink e1 /\ a_coef e2 = a_coef e1 /\ a_nobs e2 = a_nobs e1 /\ a_names e2 = a_names e1).
  { cbn zeta. replace (pre ++ OFit c :: mid) with ((pre ++ [OFit c]) ++ mid) by (rewrite <- app_assoc; reflexivity). rewrite run_app, run_snoc. change (step lg tw fd (run lg tw fd pre) (OFit c)) with e1.
    clear -N1 Hmid. induction mid as [|o h IH] using rev_ind; [cbn; auto|]. rewrite fold_left_app. cbn [fold_left].
    assert (IH' : let e2 := fold_left (step lg tw fd) h e1 in a_info e2 = None /\ a_famlink e2 = a_famlink e1 /\ a_coef e2 = a_coef e1 /\ a_nobs e2 = a_nobs e1 /\ a_names e2 = a_names e1)
      by (apply IH; intros o' Ho; apply Hmid, in_or_app; left; exact Ho).
    clear IH. cbn zeta in *. set (e2 := fold_left (step lg tw fd) h e1) in *. clearbody e2.
    destruct (Hmid o ltac:(apply in_or_app; right; left; reflexivity)) as [NF NC].
    destruct o as [fc|ic w q|s cv|x]; cbn.
    - exfalso. apply NF. exists fc. reflexivity.
    - exfalso. apply NC. exists ic, w, q. reflexivity.
    - destruct IH' as [J1 [J2 [J3 [J4 J5]]]]. unfold covariance. destruct (a_famlink e2) eqn:A1; [|cbn [fst]; repeat split; congruence].
      destruct (a_coef e2) eqn:A2; [|cbn [fst]; repeat split; congruence].
      destruct (cv _ _); [|cbn [fst]; repeat split; congruence]. destruct s; cbn [fst a_info a_famlink a_coef a_nobs a_names set_cov]; repeat split; congruence.
    - exact IH'. }
  cbn zeta in E2. set (e2 := run lg tw fd (pre ++ OFit c :: mid)) in *. destruct E2 as [I2 [B1 [B2 [B3 B4]]]]. destruct F1 as [fl [b [F1 [F2 [F3 [F4 [F5 F6]]]]]]].
  unfold criterion in Hq. rewrite B2, F4, I2 in Hq. destruct (compute_criteria lg tw fd ic e2 q) as [cr|] eqn:EC; [|discriminate]. cbn [snd] in Hq.
  exists fl, b, cr, e2. rewrite B1, B2, B3, B4. repeat (split; [assumption|]). destruct w.
  - injection Hq as <-. reflexivity.
  - destruct (cr_aicc cr) as [u|]; [|discriminate]. destruct (Reqb u 0); [discriminate|]. exact Hq.
  - injection Hq as <-. reflexivity.
Qed.
Print Assumptions C49_current_partial.

(** C49, exactly what a query returns after any history: the criteria of the state and the data of the
    first query whose computation succeeded (possibly this very one); all queries before it failed. *)
Lemma info_first lg tw fd h c : a_info (run lg tw fd h) = Some c ->
  exists h1 ic1 w1 q1 h2, h = h1 ++ OCrit ic1 w1 q1 :: h2 /\ compute_criteria lg tw fd ic1 (run lg tw fd h1) q1 = Some c /\ a_info (run lg tw fd h1) = None.
Proof.
  revert c. induction h as [|o h IH] using rev_ind; intros c; [discriminate|]. rewrite run_snoc. intros HI.
  destruct (a_info (run lg tw fd h)) as [c'|] eqn:E.
  - rewrite (step_info lg tw fd _ o c' E) in HI. injection HI as ->. destruct (IH c eq_refl) as [h1 [ic1 [w1 [q1 [h2 [-> [A B]]]]]]].
    exists h1, ic1, w1, q1, (h2 ++ [o]). rewrite <- app_assoc. auto.
  - destruct o as [fc|ic w q|s cv|x]; cbn in HI.
    + rewrite fit_info in HI. congruence.
    + unfold criterion in HI. destruct (a_coef (run lg tw fd h)) eqn:EC; [|cbn in HI; congruence]. rewrite E in HI.
      destruct (compute_criteria lg tw fd ic (run lg tw fd h) q) as [c2|] eqn:E2; [|cbn in HI; congruence]. cbn in HI. injection HI as <-.
      exists h, ic, w, q, []. auto.
    + exfalso. unfold covariance in HI. destruct (a_famlink (run lg tw fd h)), (a_coef (run lg tw fd h)); try (cbn in HI; congruence). destruct (cv _ _); [|cbn in HI; congruence]. destruct s; cbn in HI; congruence.
    + congruence.
Qed.
Lemma no_info_failed lg tw fd h0 ic0 w0 q0 rest : a_info (run lg tw fd (h0 ++ OCrit ic0 w0 q0 :: rest)) = None ->
  snd (criterion lg tw fd ic0 w0 q0 (run lg tw fd h0)) = None.
Proof.
  intros H. destruct (a_info (run lg tw fd (h0 ++ [OCrit ic0 w0 q0]))) as [c|] eqn:E.
  - replace (h0 ++ OCrit ic0 w0 q0 :: rest) with ((h0 ++ [OCrit ic0 w0 q0]) ++ rest) in H by (rewrite <- app_assoc; reflexivity).
    rewrite (sticky lg tw fd _ c rest E) in H. discriminate.
  - rewrite run_snoc in E. cbn in E. unfold criterion in *. destruct (a_coef (run lg tw fd h0)); [|reflexivity].
    destruct (a_info (run lg tw fd h0)) eqn:E1; [cbn in E; congruence|]. destruct (compute_criteria _ _ _ _ _ _); [discriminate|reflexivity].
Qed.
Theorem C49_first_query_decides : forall lg tw fd h ic w q v,
  snd (criterion lg tw fd ic w q (run lg tw fd h)) = Some v ->
  exists h1 ic1 w1 q1 c,
    (* the first successful query: an earlier one of the history, or this one *)
    ((exists h2, h = h1 ++ OCrit ic1 w1 q1 :: h2) \/ (h1 = h /\ ic1 = ic /\ w1 = w /\ q1 = q)) /\
    (forall h0 ic0 w0 q0 rest, h1 = h0 ++ OCrit ic0 w0 q0 :: rest -> snd (criterion lg tw fd ic0 w0 q0 (run lg tw fd h0)) = None) /\
    compute_criteria lg tw fd ic1 (run lg tw fd h1) q1 = Some c /\
    match w with AIC => v = cr_aic c | BIC => v = cr_bic c | AICc => cr_aicc c = Some v end.
Proof.
  intros lg tw fd h ic w q v Hq.
  assert (Rd : forall c, match w with AIC => Some (cr_aic c) | BIC => Some (cr_bic c) | AICc => match cr_aicc c with Some u => if Reqb u 0 then None else Some u | None => None end end = Some v ->
    match w with AIC => v = cr_aic c | BIC => v = cr_bic c | AICc => cr_aicc c = Some v end).
  { intros c Hc. destruct w; [congruence| |congruence]. destruct (cr_aicc c) as [u|]; [|discriminate]. destruct (Reqb u 0); [discriminate|exact Hc]. }
  unfold criterion in Hq. destruct (a_coef (run lg tw fd h)) eqn:EC; [|discriminate]. destruct (a_info (run lg tw fd h)) as [c|] eqn:EI.
  - destruct (info_first lg tw fd h c EI) as [h1 [ic1 [w1 [q1 [h2 [-> [A B]]]]]]]. exists h1, ic1, w1, q1, c.
    split; [left; exists h2; reflexivity|]. split; [|split; [exact A|apply Rd, Hq]].
    intros h0 ic0 w0 q0 rest ->. eapply no_info_failed, B.
  - destruct (compute_criteria lg tw fd ic (run lg tw fd h) q) as [c|] eqn:E2; [|discriminate]. exists h, ic, w, q, c.
    split; [right; auto|]. split; [|split; [exact E2|apply Rd, Hq]].
    intros h0 ic0 w0 q0 rest ->. eapply no_info_failed, EI.
Qed.
Print Assumptions C49_first_query_decides.

Example C49_nonvacuous : forall lg tw fd, exists v,
  snd (criterion lg tw fd true BIC ex_query (run lg tw fd ([OFit (ex_fit (/ 4))] ++ OFit (ex_fit (/ 2)) :: [OPred (XArray [[0]])]))) = Some v.
Proof.
  intros lg tw fd. set (e := run lg tw fd _). destruct (ex_criteria lg tw fd (/ 2) e) as [a [b HC]]; [lra|reflexivity|reflexivity|reflexivity|].
  exists b. unfold criterion. change (a_coef e) with (Some (/ 2, [0])). change (a_info e) with (@None criteria). rewrite HC. reflexivity.
Qed.

(** C59: a stored covariance matrix was computed at the coefficients that are stored now, whatever calls,
    failing ones included, have been made; a fit drops the one of the fit before. *)
Theorem C59_covariance_current : forall lg tw fd h V, (forall o, In o h -> ~ clips o) -> a_cov (run lg tw fd h) = Some V ->
  exists fl b o cv, a_coef (run lg tw fd h) = Some b /\ In o h /\ cov_request o cv /\ cv fl b = Some V.
Proof.
  intros lg tw fd h. induction h as [|o h IH] using rev_ind; intros V Hn; [discriminate|]. rewrite run_snoc. intros HV.
  assert (Hn' : forall o', In o' h -> ~ clips o') by (intros o' Ho; apply Hn, in_or_app; left; exact Ho).
  assert (IN : In o (h ++ [o])) by (apply in_or_app; right; left; reflexivity).
  assert (IH' : forall V', a_cov (run lg tw fd h) = Some V' -> exists fl b o' cv, a_coef (run lg tw fd h) = Some b /\ In o' (h ++ [o]) /\ cov_request o' cv /\ cv fl b = Some V').
  { intros V' H'. destruct (IH V' Hn' H') as [fl [b [o' [cv [A1 [A2 [A3 A4]]]]]]]. exists fl, b, o', cv. repeat split; try assumption. apply in_or_app. left. exact A2. }
  set (e := run lg tw fd h) in *. clearbody e. clear IH.
  destruct o as [c|ic w q|s cv|x].
  - cbn [step] in *. assert (NC : f_warm c = true -> f_clip c = None).
    { intros HW. destruct (f_clip c) as [g|] eqn:EG; [|reflexivity]. exfalso. apply (Hn (OFit c) IN). exists c, g. auto. }
    revert HV. unfold fit. destruct (f_valid c); cbn [negb]; [|apply IH'].
    pose proof (fit_args_keeps c e) as [K1 [K2 _]]. destruct (fit_args c e) as [e1 ok]. cbn [fst] in K1, K2.
    destruct ok; [|cbn [fst]; rewrite K1, K2; apply IH']. destruct (f_fl c) as [fl|]; [|cbn [fst]; rewrite K1, K2; apply IH'].
    destruct (negb _); [cbn [fst a_cov a_coef set_famlink]; rewrite K1, K2; apply IH'|].
    assert (ES : fit_start c (set_famlink fl (f_n c) e1) = set_famlink fl (f_n c) e1) by (unfold fit_start; destruct (f_warm c); [rewrite NC by reflexivity|]; reflexivity).
    rewrite ES. destruct (f_solve c _) as [b|]; [|cbn [fst a_cov a_coef set_famlink]; rewrite K1, K2; apply IH'].
    destruct (f_store c) as [cv|] eqn:EST; [|discriminate]. destruct (cv fl b) as [V'|] eqn:EV; [|discriminate]. cbn. intros HV. injection HV as ->.
    exists fl, b, (OFit c), cv. split; [reflexivity|]. split; [exact IN|]. split; [exact EST|exact EV].
  - cbn [step] in *. revert HV. unfold criterion. destruct (a_coef e) as [b'|] eqn:EB; [|cbn [fst]; rewrite EB; apply IH'].
    destruct (a_info e); [cbn [fst]; rewrite EB; apply IH'|]. destruct (compute_criteria _ _ _ _ _ _); cbn [fst a_cov a_coef set_info]; rewrite EB; apply IH'.
  - cbn [step] in *. revert HV. unfold covariance. destruct (a_famlink e) as [fl|] eqn:EF; [|cbn [fst]; apply IH']. destruct (a_coef e) as [b'|] eqn:EB; [|cbn [fst]; rewrite EB; apply IH'].
    destruct (cv fl b') as [V'|] eqn:EV; [|cbn [fst]; rewrite EB; apply IH']. destruct s; cbn [fst a_cov a_coef set_cov]; rewrite EB; [|apply IH'].
    intros HV. injection HV as ->. exists fl, b', (OCov true cv), cv. split; [reflexivity|]. split; [exact IN|]. split; [reflexivity|exact EV].
  - apply IH'. exact HV.
Qed.
Print Assumptions C59_covariance_current.

(** finding F25: with warm_start, fit_intercept=False and bounds, the start vector is coef_ itself and is
    clipped in place; if that fit then raises, coef_ has changed and the stored covariance is stale. *)
Theorem C59_clip_refuted : exists c1 c2 cv V, forall lg tw fd,
  let e := run lg tw fd [OFit c1; OFit c2] in
  snd (fit c1 new_est) = true /\ snd (fit c2 (run lg tw fd [OFit c1])) = false /\
  a_coef (run lg tw fd [OFit c1]) = Some (0, [-1]) /\ a_coef e = Some (0, [0]) /\
  a_cov e = Some V /\ f_store c1 = Some cv /\ cv (NormalF, IdentityL) (0, [-1]) = Some V /\ cv (NormalF, IdentityL) (0, [0]) <> Some V.
Proof.
  pose (cv := fun (_ : family * link) (b : R * list R) => Some (fun _ _ : nat => nth 0 (snd b) 0)).
  exists (mkFit true KArray true ["x"%string] true 1 (Some (NormalF, IdentityL)) true true true None (fun _ => Some (0, [-1])) (Some cv)).
  exists (mkFit true KArray true ["x"%string] true 1 (Some (NormalF, IdentityL)) true true true (Some (Rmax 0)) (fun _ => None) None).
  exists cv, (fun _ _ => -1). intros lg tw fd. cbn. repeat apply conj; try reflexivity.
  - f_equal. f_equal. f_equal. apply Rmax_left. lra.
  - intros H. apply (f_equal (fun o : option vcov => match o with Some f => f 0%nat 0%nat | None => 5 end)) in H. cbn in H. lra.
Qed.
Print Assumptions C59_clip_refuted.

(** C60: a fit that raises.  Rejected hyper-parameters leave everything as it was.  Otherwise estimates,
    covariance and criteria are unchanged, or (if only the covariance computation failed) the estimates are
    the new ones and no covariance is stored. *)
Theorem C60_failed_fit : forall c e e', fit c e = (e', false) -> ~ (f_warm c = true /\ f_clip c <> None) ->
  (f_valid c = false -> e' = e) /\
  a_info e' = a_info e /\
  ((a_coef e' = a_coef e /\ a_cov e' = a_cov e) \/
   (f_store c <> None /\ a_cov e' = None /\ exists s b, f_solve c s = Some b /\ a_coef e' = Some b)).
Proof.
  intros c e e' E NC. split.
  { intros HV. unfold fit in E. rewrite HV in E. cbn in E. congruence. }
  split; [replace e' with (fst (fit c e)) by (rewrite E; reflexivity); apply fit_info|].
  unfold fit in E. destruct (f_valid c); cbn [negb] in E; [|left; replace e' with e by congruence; auto].
  pose proof (fit_args_keeps c e) as [K1 [K2 _]]. destruct (fit_args c e) as [e1 ok]. cbn [fst] in K1, K2.
  destruct ok; [|left; replace e' with e1 by congruence; auto]. destruct (f_fl c) as [fl|]; [|left; replace e' with e1 by congruence; auto].
  destruct (negb _); [left; replace e' with (set_famlink fl (f_n c) e1) by congruence; auto|].
  assert (ES : fit_start c (set_famlink fl (f_n c) e1) = set_famlink fl (f_n c) e1).
  { unfold fit_start. destruct (f_warm c); [|reflexivity]. destruct (f_clip c) as [g|] eqn:EG; [|reflexivity]. exfalso. apply NC. split; [reflexivity|discriminate]. }
  rewrite ES in E. destruct (f_solve c _) as [b|] eqn:EB; [|left; replace e' with (set_famlink fl (f_n c) e1) by congruence; auto].
  destruct (f_store c) as [cv|]; [|discriminate]. destruct (cv fl b) as [V|]; [discriminate|]. right. injection E as <-. split; [discriminate|]. split; [reflexivity|]. eauto.
Qed.
Print Assumptions C60_failed_fit.

(** finding F26: a failed fit on a data frame still replaces the categorical levels (likewise the model spec, the
    feature names, family and link): the old model then predicts differently on the same frame. *)
Theorem C60_atomic_refuted : exists c1 c2 x mu mu', forall lg tw fd,
  snd (fit c1 new_est) = true /\ snd (fit c2 (run lg tw fd [OFit c1])) = false /\
  predict_est fd (run lg tw fd [OFit c1]) x = Some mu /\
  predict_est fd (run lg tw fd [OFit c1; OFit c2]) x = Some mu' /\ mu <> mu'.
Proof.
  (* levels {0,1} resp. {1,0} of column "c", one-hot without the first *)
  pose (cv1 := fun f : frame => Some (map (fun r => [r "c"%string]) f) : option design).
  pose (cv2 := fun f : frame => Some (map (fun r => [1 - r "c"%string]) f) : option design).
  exists (mkFit true (KFrame cv1) true ["c[1]"%string] true 2 (Some (NormalF, IdentityL)) true true false None (fun _ => Some (0, [1])) None).
  exists (mkFit true (KFrame cv2) true ["c[0]"%string] false 2 (Some (NormalF, IdentityL)) true true false None (fun _ => None) None).
  exists (XFrame [fun _ => 1]), [1], [0]. intros lg tw fd. cbn. split; [reflexivity|]. split; [reflexivity|].
  split; [unfold predict_est; cbn; f_equal; f_equal; ring|]. split; [unfold predict_est; cbn; f_equal; f_equal; ring|]. intros H. injection H as H. lra.
Qed.
Print Assumptions C60_atomic_refuted.

(** C61: a refit without warm_start is as good as a fit of a new estimator: same outcome, estimates,
    names, covariance and predictions, after any history without formulas. *)
Theorem C61_refit_fresh : forall lg tw fd h c, f_warm c = false -> (forall o, In o h -> ~ uses_formula o) ->
  let e0 := fst (fit c new_est) in let e1 := fst (fit c (run lg tw fd h)) in
  snd (fit c (run lg tw fd h)) = snd (fit c new_est) /\
  (snd (fit c new_est) = true ->
    a_coef e1 = a_coef e0 /\ a_famlink e1 = a_famlink e0 /\ a_nobs e1 = a_nobs e0 /\ a_names e1 = a_names e0 /\ a_cov e1 = a_cov e0 /\
    (forall d, predict_est fd e1 (XArray d) = predict_est fd e0 (XArray d)) /\
    (f_kind c <> KArray -> forall f, predict_est fd e1 (XFrame f) = predict_est fd e0 (XFrame f))).
Proof.
  intros lg tw fd h c HW HF. cbn zeta.
  assert (NX : a_xspec (run lg tw fd h) = None).
  { clear -HF. induction h as [|o h IH] using rev_ind; [reflexivity|]. rewrite run_snoc.
    assert (E : a_xspec (run lg tw fd h) = None) by (apply IH; intros o' Ho; apply HF, in_or_app; left; exact Ho). set (e := run lg tw fd h) in *. clearbody e.
    destruct o as [c|ic w q|s cv|x]; cbn.
    - assert (NK : forall cv, f_kind c <> KFormula cv).
      { intros cv HK. apply (HF (OFit c)); [apply in_or_app; right; left; reflexivity|]. exists c, cv. auto. }
      unfold fit. destruct (f_valid c); cbn [negb]; [|exact E].
      assert (KA : a_xspec (fst (fit_args c e)) = None).
      { unfold fit_args. destruct (f_kind c) as [cv|cv|] eqn:EK; [exfalso; apply (NK cv); reflexivity| |]; destruct (f_args_ok c); exact E. }
      destruct (fit_args c e) as [e1 ok]. cbn [fst] in KA. destruct ok; [|exact KA]. destruct (f_fl c) as [fl|]; [|exact KA]. destruct (negb _); [exact KA|].
      assert (KS : a_xspec (fit_start c (set_famlink fl (f_n c) e1)) = None).
      { unfold fit_start. destruct (f_warm c); [|exact KA]. destruct (f_clip c); [|exact KA]. destruct (a_coef _) as [[b0 b]|]; exact KA. }
      destruct (f_solve c _); [|exact KS]. destruct (f_store c) as [cv|]; [destruct (cv fl p)|]; exact KS.
    - unfold criterion. destruct (a_coef e); [|exact E]. destruct (a_info e); [exact E|]. destruct (compute_criteria _ _ _ _ _ _); exact E.
    - unfold covariance. destruct (a_famlink e), (a_coef e); try exact E. destruct (cv _ _); [|exact E]. destruct s; exact E.
    - exact E. }
  set (e := run lg tw fd h) in *. clearbody e. unfold fit. destruct (f_valid c); cbn [negb snd]; [|split; [reflexivity|discriminate]].
  assert (SA : snd (fit_args c e) = snd (fit_args c new_est)) by (unfold fit_args; destruct (f_kind c), (f_spec_ok c), (f_args_ok c); reflexivity).
  assert (NA : snd (fit_args c new_est) = true -> a_names (fst (fit_args c e)) = a_names (fst (fit_args c new_est)) /\ a_xspec (fst (fit_args c e)) = a_xspec (fst (fit_args c new_est)) /\
            (f_kind c <> KArray -> convert fd (fst (fit_args c e)) = convert fd (fst (fit_args c new_est)))).
  { unfold fit_args. destruct (f_kind c) as [cv|cv|], (f_spec_ok c), (f_args_ok c); cbn; try discriminate; intros _; (split; [reflexivity|split; [first [reflexivity|exact NX]|]]); intros HK; try congruence;
      apply functional_extensionality; intros [d|f]; cbn; rewrite ?NX; reflexivity. }
  pose proof (fit_args_keeps c e) as _. 
  destruct (fit_args c e) as [e1 ok], (fit_args c new_est) as [e0 ok0]. cbn [fst snd] in *. subst ok0.
  destruct ok; [|split; [reflexivity|discriminate]]. destruct (NA eq_refl) as [N1 [N2 N3]].
  destruct (f_fl c) as [fl|]; [|split; [reflexivity|discriminate]]. destruct (negb _); [split; [reflexivity|discriminate]|].
  unfold fit_start. rewrite HW. destruct (f_solve c None) as [[b0 b]|]; [|split; [reflexivity|discriminate]].
  assert (FIN : forall V, let x1 := set_cov V (set_coef (b0, b) (set_famlink fl (f_n c) e1)) in let x0 := set_cov V (set_coef (b0, b) (set_famlink fl (f_n c) e0)) in
     (forall d, predict_est fd x1 (XArray d) = predict_est fd x0 (XArray d)) /\ (f_kind c <> KArray -> forall f, predict_est fd x1 (XFrame f) = predict_est fd x0 (XFrame f))).
  { intros V. cbn zeta. split; [reflexivity|]. intros HK f. specialize (N3 HK). unfold predict_est. cbn [a_coef a_famlink set_cov set_coef set_famlink].
    replace (convert fd (set_cov V (set_coef (b0, b) (set_famlink fl (f_n c) e1))) (XFrame f)) with (convert fd e1 (XFrame f)) by reflexivity.
    replace (convert fd (set_cov V (set_coef (b0, b) (set_famlink fl (f_n c) e0))) (XFrame f)) with (convert fd e0 (XFrame f)) by reflexivity. rewrite N3. reflexivity. }
  destruct (f_store c) as [cv|].
  - destruct (cv fl (b0, b)) as [V|]; [|split; [reflexivity|discriminate]]. split; [reflexivity|]. intros _. cbn [fst a_coef a_famlink a_nobs a_names a_cov set_cov set_coef set_famlink].
    repeat (split; [first [reflexivity|exact N1]|]). apply (FIN (Some V)).
  - split; [reflexivity|]. intros _. cbn [fst a_coef a_famlink a_nobs a_names a_cov set_cov set_coef set_famlink]. repeat (split; [first [reflexivity|exact N1]|]). apply (FIN None).
Qed.
Print Assumptions C61_refit_fresh.

(** finding F12: after a fit with a formula, a refit without one keeps using the old model spec for data
    frames. *)
Theorem C61_formula_refuted : exists c1 c2 x mu mu', f_warm c2 = false /\ forall lg tw fd,
  snd (fit c1 new_est) = true /\ snd (fit c2 (run lg tw fd [OFit c1])) = true /\ snd (fit c2 new_est) = true /\
  predict_est fd (run lg tw fd [OFit c1; OFit c2]) x = Some mu /\ predict_est fd (run lg tw fd [OFit c2]) x = Some mu' /\ mu <> mu'.
Proof.
  pose (cv1 := fun f : frame => Some (map (fun r => [r "u"%string]) f) : option design).
  pose (cv2 := fun f : frame => Some (map (fun r => [r "v"%string]) f) : option design).
  exists (mkFit true (KFormula cv1) true ["u"%string] true 2 (Some (NormalF, IdentityL)) true true false None (fun _ => Some (0, [1])) None).
  exists (mkFit true (KFrame cv2) true ["v"%string] true 2 (Some (NormalF, IdentityL)) true true false None (fun _ => Some (0, [1])) None).
  exists (XFrame [fun s => if String.eqb s "u" then 1 else 0]), [1], [0]. split; [reflexivity|]. intros lg tw fd. cbn. repeat (split; [reflexivity|]).
  split; [unfold predict_est; cbn; f_equal; f_equal; ring|]. split; [unfold predict_est; cbn; f_equal; f_equal; ring|]. intros H. injection H as H. lra.
Qed.
Print Assumptions C61_formula_refuted.

Example C59_C61_nonvacuous : forall lg tw fd,
  (forall o, In o [OFit (ex_fit (/ 4)); OCrit true AIC ex_query] -> ~ clips o /\ ~ uses_formula o) /\ snd (fit (ex_fit (/ 2)) (run lg tw fd [OFit (ex_fit (/ 4)); OCrit true AIC ex_query])) = true.
Proof.
  intros lg tw fd. split; [|reflexivity]. intros o [<-|[<-|[]]]; (split; [intros [c [g [E [W C]]]]|intros [c [cv [E K]]]]); try discriminate; injection E as <-; discriminate.
Qed.
