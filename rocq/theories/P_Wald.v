(** Theorems C46: Wald tests; C48: coefficient table. *)
From Verif Require Import M_Cov S_Cov L_Lin L_CV L_Cov L_Wald.
From Coq Require Import FunctionalExtensionality String List Sorted.
Import ListNotations.
From Verif Require Import M_Solver S_Solver.
Local Open Scope R_scope.

(** R b = r: a result (s, q) is returned iff the shapes fit and R V R' is invertible; q is the number of
    rows and s = (Rb - r)' (R V R')^-1 (Rb - r). *)
Theorem C46_statistic : forall nb ic V beta fn tn R0 r s q,
  wald_test nb ic V beta fn tn (by_matrix R0) (Some r) = Some (s, q) <->
  rcols R0 = nb /\ length r = rq R0 /\ q = rq R0 /\
  inv_form q (restr_cov nb R0 V) (resid nb R0 (fun i => nth i r 0) beta) s.
Proof. intros. cbn. apply wald_matrix_iff. Qed.
Print Assumptions C46_statistic.

(** With a covariance matrix the statistic is non-negative, and zero exactly when the estimate satisfies
    the restrictions. *)
Theorem C46_nonneg : forall nb ic V beta fn tn R0 r s q, sym nb V -> psd nb V ->
  wald_test nb ic V beta fn tn (by_matrix R0) (Some r) = Some (s, q) ->
  0 <= s /\ (s = 0 <-> forall i, (i < rq R0)%nat -> rsum nb (fun j => rR R0 i j * beta j) = nth i r 0).
Proof.
  intros nb ic V beta fn tn R0 r s q HS HP E. apply C46_statistic in E as [_ [_ [-> F]]]. apply inv_form_iff in F as [NS [x [Hx ->]]].
  pose proof (restr_cov_psd nb R0 V (rq R0) HP) as PA. pose proof (restr_cov_sym nb R0 V (rq R0) HS) as SA. set (A := restr_cov nb R0 V) in *.
  assert (E : rsum (rq R0) (fun i => resid nb R0 (fun i => nth i r 0) beta i * x i) = quad (rq R0) A x).
  { rewrite quad_mulv. apply rsum_ext. intros i Hi. rewrite Hx by exact Hi. ring. }
  rewrite E. split; [apply PA|]. split.
  - intros H0 i Hi. pose proof (psd_kernel _ _ _ SA PA H0 i Hi) as K. rewrite Hx in K by exact Hi. unfold resid in K. lra.
  - intros H. rewrite <- E. apply rsum_zero. intros i Hi. unfold resid. rewrite H by exact Hi. ring.
Qed.
Print Assumptions C46_nonneg.

(** (M R, M r) is the same hypothesis as (R, r), and gives the same result, for an invertible M. *)
Theorem C46_invariance : forall nb ic V beta fn tn R0 r M, invertible (rq R0) M ->
  wald_test nb ic V beta fn tn (by_matrix (left_mul M R0)) (Some (left_mul_rhs M r)) =
  wald_test nb ic V beta fn tn (by_matrix R0) (Some r).
Proof.
  intros nb ic V beta fn tn R0 r M HM. apply wald_some_eq. intros s q. rewrite !C46_statistic. unfold left_mul_rhs at 1. rewrite map_length, seq_length. cbn [left_mul rq rcols].
  split; intros [H1 [H2 [-> F]]]; (split; [exact H1|split; [exact H2|split; [reflexivity|]]]).
  - eapply left_mul_form; [exact HM| |exact F]. intros a Ha. unfold left_mul_rhs. rewrite H2. rewrite (nth_indep _ 0 ((fun q0 => rsum (rq R0) (fun s0 => M q0 s0 * nth s0 r 0)) 0%nat)) by (rewrite map_length, seq_length; exact Ha).
    rewrite (map_nth (fun q0 => rsum (rq R0) (fun s0 => M q0 s0 * nth s0 r 0))). rewrite seq_nth by exact Ha. reflexivity.
  - eapply left_mul_form in F; [exact F|exact HM|]. intros a Ha. unfold left_mul_rhs. rewrite H2. rewrite (nth_indep _ 0 ((fun q0 => rsum (rq R0) (fun s0 => M q0 s0 * nth s0 r 0)) 0%nat)) by (rewrite map_length, seq_length; exact Ha).
    rewrite (map_nth (fun q0 => rsum (rq R0) (fun s0 => M q0 s0 * nth s0 r 0))). rewrite seq_nth by exact Ha. reflexivity.
Qed.
Print Assumptions C46_invariance.

(** Features by name ([names] = "intercept" first, if there is one): the hypothesis is that the
    coefficients at the first positions of the names equal the values (default zero).  Unknown names and a
    wrong number of values raise. *)
Theorem C46_features : forall nb ic V beta fn tn fs r s q, length (coef_names ic fn) = nb ->
  wald_test nb ic V beta fn tn (by_features fs) r = Some (s, q) <->
  rhs_fits r (length fs) /\
  exists js, Forall2 (fun f j => first_position f (coef_names ic fn) j) fs js /\ q = length fs /\
    inv_form q (sub_mat V js) (sub_diff beta js (rhs_of r)) s.
Proof.
  intros nb ic V beta fn tn fs r s q HN. cbn. unfold wald_features.
  assert (HR : (if match r with Some l => negb (Nat.eqb (length fs) (length l)) | None => false end then true else false) = false <-> rhs_fits r (length fs)).
  { unfold rhs_fits. destruct r as [l|]; [|split; [intros _ l H; discriminate|reflexivity]].
    destruct (Nat.eqb_spec (length fs) (length l)) as [E|E]; cbn; split; intros H; try discriminate; try reflexivity.
    - intros l' H'. injection H' as <-. congruence.
    - exfalso. apply E. symmetry. apply H. reflexivity. }
  destruct (match r with Some l => negb (Nat.eqb (length fs) (length l)) | None => false end).
  { split; [discriminate|]. intros [H _]. apply HR in H. discriminate. }
  apply proj1 in HR. specialize (HR eq_refl).
  destruct (all_opt _) as [js|] eqn:EJ.
  - pose proof (proj1 (indices_spec _ _ _) EJ) as F2. pose proof (forall2_len _ _ _ F2) as HL. rewrite wald_matrix_iff. cbn [rcols rq].
    assert (HB : forall j, In j js -> (j < nb)%nat).
    { intros j Hj. rewrite <- HN. clear -F2 Hj. induction F2 as [|f j' fs js H1 H2 IH]; [destruct Hj|]. destruct Hj as [<-|Hj]; [|apply IH, Hj].
      apply nth_error_Some. rewrite (proj1 H1). discriminate. }
    assert (ER : alen (rhs_arr (mkRestr (length fs) nb (fun i j => if Nat.eqb j (nth i js O) then 1 else 0)) (option_map arr_of r)) = length fs /\
                 aval (rhs_arr (mkRestr (length fs) nb (fun i j => if Nat.eqb j (nth i js O) then 1 else 0)) (option_map arr_of r)) = rhs_of r).
    { destruct r as [l|]; cbn; split; auto. }
    destruct ER as [ER1 ER2]. rewrite ER1, ER2. clear ER1 ER2.
    replace (mkRestr (length fs) nb (fun i j => if Nat.eqb j (nth i js O) then 1 else 0)) with (selection nb js) by (unfold selection; rewrite HL; reflexivity).
    split.
    + intros [_ [_ [-> F]]]. split; [exact HR|]. exists js. split; [exact F2|]. split; [reflexivity|]. rewrite HL in *. apply selection_form in F; assumption.
    + intros [_ [js' [F2' [-> F]]]]. repeat (split; [reflexivity|]). replace js' with js in *.
      * rewrite HL in *. apply selection_form; assumption.
      * apply indices_spec in F2'. congruence.
  - split; [discriminate|]. intros [_ [js [F2 _]]]. apply indices_spec in F2. congruence.
Qed.
Print Assumptions C46_features.

(** Terms by name: all coefficients of the terms, the value of a term repeated for each of them. *)
Theorem C46_terms : forall nb ic V beta fn tn ts r s q, length (coef_names ic tn) = nb ->
  wald_test nb ic V beta fn tn (by_terms ts) r = Some (s, q) <->
  ts <> [] /\ rhs_fits r (length ts) /\
  exists jss, Forall2 (all_positions (coef_names ic tn)) ts jss /\ (forall js, In js jss -> js <> []) /\
    let js := concat jss in q = length js /\ inv_form q (sub_mat V js) (sub_diff beta js (rhs_of (repeat_rhs jss r))) s.
Proof.
  intros nb ic V beta fn tn ts r s q HN. cbn. unfold wald_terms.
  assert (HR : (if match r with Some l => negb (Nat.eqb (length ts) (length l)) | None => false end then true else false) = false <-> rhs_fits r (length ts)).
  { unfold rhs_fits. destruct r as [l|]; [|split; [intros _ l H; discriminate|reflexivity]].
    destruct (Nat.eqb_spec (length ts) (length l)) as [E|E]; cbn; split; intros H; try discriminate; try reflexivity.
    - intros l' H'. injection H' as <-. congruence.
    - exfalso. apply E. symmetry. apply H. reflexivity. }
  destruct (match r with Some l => negb (Nat.eqb (length ts) (length l)) | None => false end).
  { split; [discriminate|]. intros [_ [H _]]. apply HR in H. discriminate. }
  apply proj1 in HR. specialize (HR eq_refl). set (names := coef_names ic tn) in *. cbn zeta.
  assert (HE : existsb (fun l => Nat.eqb (length l) 0) (map (fun t => positions t names) ts) = false <-> forall js, In js (map (fun t => positions t names) ts) -> js <> []).
  { split.
    - intros H js Hj ->. assert (existsb (fun l : list nat => Nat.eqb (length l) 0) (map (fun t => positions t names) ts) = true); [|congruence]. apply existsb_exists. exists []. split; [exact Hj|reflexivity].
    - intros H. destruct (existsb _ _) eqn:E; [|reflexivity]. apply existsb_exists in E as [l [Hl El]]. exfalso. apply (H l Hl). destruct l; [reflexivity|discriminate]. }
  destruct (existsb _ _).
  { split; [discriminate|]. intros [_ [_ [jss [H1 [H2 _]]]]]. apply terms_positions in H1 as ->. apply HE in H2. discriminate. }
  destruct ts as [|t ts0]; [split; [discriminate|intros [H _]; congruence]|]. cbn [map]. set (ts := t :: ts0) in *.
  change (positions t names :: map (fun t => positions t names) ts0) with (map (fun t => positions t names) ts) in *. set (jss := map (fun t => positions t names) ts) in *.
  set (js := concat jss).
  assert (HB : forall j, In j js -> (j < nb)%nat).
  { intros j Hj. unfold js in Hj. apply in_concat in Hj as [l [Hl Hj]]. unfold jss in Hl. apply in_map_iff in Hl as [t' [<- _]]. apply (positions_spec names t') in Hj.
    rewrite <- HN. apply nth_error_Some. rewrite Hj. discriminate. }
  fold (selection nb js). rewrite wald_matrix_iff. change (rcols (selection nb js)) with nb. change (rq (selection nb js)) with (length js).
  set (ro := match r with Some l => Some (arr_of (concat (map (fun lv => repeat (snd lv) (length (fst lv))) (combine jss l)))) | None => None end).
  assert (ER : alen (rhs_arr (selection nb js) ro) = length js /\ aval (rhs_arr (selection nb js) ro) = rhs_of (repeat_rhs jss r)).
  { unfold ro. destruct r as [l|]; [|split; reflexivity]. split; [|reflexivity].
    assert (HL : length l = length jss) by (unfold jss; rewrite map_length; apply HR; reflexivity).
    exact (repeat_rhs_len jss l HL). }
  destruct ER as [ER1 ER2]. rewrite ER1, ER2.
  split.
  - intros [_ [_ [-> F]]]. split; [discriminate|]. split; [exact HR|]. exists jss. split; [apply terms_positions; reflexivity|]. split; [apply HE; reflexivity|].
    split; [reflexivity|]. apply selection_form in F; assumption.
  - intros [_ [_ [jss' [H1 [_ [-> F]]]]]]. apply terms_positions in H1. fold jss in H1. subst jss'. repeat (split; [reflexivity|]). apply selection_form; assumption.
Qed.
Print Assumptions C46_terms.

(** A formula gives the result of the matrix form that the parser returns; R, features, terms and formula
    are mutually exclusive, and one is needed; a formula excludes r. *)
Theorem C46_formula : forall nb ic V beta fn tn R0 r0,
  wald_test nb ic V beta fn tn (by_formula R0 (arr_of r0)) None = wald_test nb ic V beta fn tn (by_matrix R0) (Some r0).
Proof. reflexivity. Qed.
Print Assumptions C46_formula.
Theorem C46_one_specification : forall nb ic V beta fn tn a r o, wald_test nb ic V beta fn tn a r = Some o ->
  (exists R0 l, a = by_matrix R0 /\ r = Some l) \/ (exists fs, a = by_features fs) \/ (exists ts, a = by_terms ts) \/ (exists R0 r0, a = by_formula R0 r0 /\ r = None).
Proof.
  intros nb ic V beta fn tn [[R0|] [fs|] [ts|] [[R1 r1]|]] r o; cbn; intros H; try discriminate.
  - destruct r as [l|]; [|discriminate]. left. exists R0, l. split; reflexivity.
  - right. left. exists fs. reflexivity.
  - right. right. left. exists ts. reflexivity.
  - destruct r as [l|]; [discriminate|]. right. right. right. exists R1, r1. split; reflexivity.
Qed.
Print Assumptions C46_one_specification.

(** One coefficient: the statistic is (b_j - r)^2 / V_jj, the square of the table's t value for r = 0. *)
Theorem C46_single : forall nb ic V beta fn tn f j v, length (coef_names ic fn) = nb -> first_position f (coef_names ic fn) j -> 0 < V j j ->
  wald_test nb ic V beta fn tn (by_features [f]) (Some [v]) = Some ((beta j - v) ^ 2 / V j j, 1%nat) /\
  forall cdf ppf conf, wald_test nb ic V beta fn tn (by_features [f]) None = Some (ct_t (coef_table cdf ppf conf beta V j) ^ 2, 1%nat).
Proof.
  intros nb ic V beta fn tn f j v HN HF HV.
  assert (G : forall r, rhs_fits r 1 -> wald_test nb ic V beta fn tn (by_features [f]) r = Some ((beta j - rhs_of r O) ^ 2 / V j j, 1%nat)).
  { intros r Hr. apply C46_features; [exact HN|]. split; [exact Hr|]. exists [j]. split; [constructor; [exact HF|constructor]|]. split; [reflexivity|].
    apply inv_form_iff. split.
    - intros x Hx i Hi. replace i with 0%nat by (cbn in Hi; lia). specialize (Hx 0%nat ltac:(cbn; lia)). unfold mulv in Hx. cbn in Hx. unfold sub_mat in Hx. cbn in Hx.
      assert (V j j * x 0%nat = 0) by lra. destruct (Rmult_integral _ _ H); [lra|assumption].
    - exists (fun _ => (beta j - rhs_of r O) / V j j). split.
      + intros i Hi. replace i with 0%nat by (cbn in Hi; lia). unfold mulv. cbn. unfold sub_mat, sub_diff. cbn. field. lra.
      + cbn. unfold sub_diff. cbn. field. lra. }
  split; [apply G; intros l H; injection H as <-; reflexivity|]. intros cdf ppf conf. rewrite G by (intros l H; discriminate). cbn [rhs_of]. f_equal. f_equal.
  cbn. rewrite Rmult_1_r. pose proof (sqrt_sqrt (V j j) ltac:(lra)) as HS. pose proof (sqrt_lt_R0 _ HV) as HQ. set (q := sqrt (V j j)) in *. rewrite <- HS. field. lra.
Qed.
Print Assumptions C46_single.

(** finding F8: the documented default r = 0 does not work for R: with R and no r the call always raises. *)
Theorem C46_R_needs_r_refuted : forall nb ic V beta fn tn R0, wald_test nb ic V beta fn tn (by_matrix R0) None = None.
Proof. reflexivity. Qed.
Print Assumptions C46_R_needs_r_refuted.

Definition ex46_V : mat := fun i j => if Nat.eqb i j then INR (S i) else 0.
Example C46_nonvacuous :
  sym 3 ex46_V /\ psd 3 ex46_V /\ invertible 2 (fun i j => if Nat.eqb i j then 2 else if Nat.ltb j i then 1 else 0) /\
  first_position "x"%string (coef_names true ["x"; "z"]%string) 1%nat /\ 0 < ex46_V 1%nat 1%nat /\
  exists s, wald_test 3 true ex46_V (fun j => INR j) ["x"; "z"]%string ["t"; "t"]%string (by_terms ["t"]%string) (Some [1]) = Some (s, 2%nat).
Proof.
  split. { intros i j _ _. unfold ex46_V. destruct (Nat.eqb_spec i j) as [->|H]; [rewrite Nat.eqb_refl; reflexivity|]. destruct (Nat.eqb_spec j i); [congruence|reflexivity]. }
  split. { intros z. unfold quad, ex46_V. cbn. nra. }
  split. { apply nonsingular_invertible. intros x Hx. pose proof (Hx 0%nat ltac:(lia)) as H0. pose proof (Hx 1%nat ltac:(lia)) as H1. unfold mulv in H0, H1. cbn in H0, H1.
           intros [|[|j]] Hj; [lra|lra|lia]. }
  split. { split; [reflexivity|]. intros [|i] Hi; [cbn; intros H; discriminate|lia]. }
  split. { unfold ex46_V. cbn. lra. }
  eexists. apply C46_terms; [reflexivity|]. split; [discriminate|]. split; [intros l H; injection H as <-; reflexivity|].
  exists [[1; 2]]%nat. split; [apply terms_positions; reflexivity|]. split; [intros js [<-|[]]; discriminate|].
  split; [reflexivity|]. apply inv_form_iff. split.
  - intros x Hx. pose proof (Hx 0%nat ltac:(cbn; lia)) as H0. pose proof (Hx 1%nat ltac:(cbn; lia)) as H1. unfold mulv, sub_mat, ex46_V in H0, H1. cbn in H0, H1.
    intros [|[|j]] Hj; [lra|lra|cbn in Hj; lia].
  - exists (fun i => match i with O => 0 | _ => / 3 end). split; [|reflexivity]. intros [|[|i]] Hi; [| |cbn in Hi; lia]; unfold mulv, sub_mat, sub_diff, ex46_V; cbn; field.
Qed.

(** C48: the table's row for a coefficient, for a symmetric distribution function [cdf] with quantile
    function [ppf] (scipy's normal). *)
Theorem C48_row : forall cdf ppf conf beta V j, normal_like_cdf cdf ppf -> 0 < conf < 1 -> 0 < V j j ->
  let t := coef_table cdf ppf conf beta V j in
  ct_coef t = beta j /\ 0 < ct_se t /\ ct_se t ^ 2 = V j j /\ ct_t t = beta j / ct_se t /\
  (* centred interval of the stated coverage *)
  (ct_lo t + ct_hi t) / 2 = beta j /\ ct_lo t < beta j < ct_hi t /\
  cdf ((ct_hi t - beta j) / ct_se t) - cdf ((ct_lo t - beta j) / ct_se t) = conf /\
  (* two-sided p-value *)
  ct_p t = cdf (- Rabs (ct_t t)) + (1 - cdf (Rabs (ct_t t))) /\ 0 < ct_p t <= 1 /\
  (* zero outside the closed interval iff p < 1 - conf *)
  (ct_p t < 1 - conf <-> 0 < ct_lo t \/ ct_hi t < 0).
Proof.
  intros cdf ppf conf beta V j HC Hc HV. cbn zeta. destruct HC as [BND [HM [HS HQ]]].
  pose proof (sqrt_sqrt (V j j) ltac:(lra)) as H2. pose proof (sqrt_lt_R0 _ HV) as H0. unfold coef_table. cbn [ct_coef ct_se ct_t ct_p ct_lo ct_hi].
  set (se := sqrt (V j j)) in *. set (b := beta j). replace (1 - (1 - conf)) with conf by ring.
  assert (L0 : 0 < (1 - conf) / 2 < 1) by lra. assert (L1 : 0 < 1 - (1 - conf) / 2 < 1) by lra.
  pose proof (HQ _ L0) as Q0. pose proof (HQ _ L1) as Q1. set (z := ppf (1 - (1 - conf) / 2)) in *. set (z0 := ppf ((1 - conf) / 2)) in *.
  assert (INJ : forall x y, cdf x = cdf y -> x = y).
  { intros x y E. destruct (Rtotal_order x y) as [H|[H|H]]; [apply HM in H; lra|exact H|apply HM in H; lra]. }
  assert (Ez : z0 = - z) by (apply INJ; rewrite HS, Q0, Q1; ring).
  assert (C0 : cdf 0 = 1 / 2) by (pose proof (HS 0) as H; rewrite Ropp_0 in H; lra).
  assert (Hz : 0 < z).
  { destruct (Rle_or_lt z 0) as [H|H]; [|exact H]. exfalso. destruct H as [H|H]; [apply HM in H; lra|]. rewrite H in Q1. lra. }
  assert (MONO : forall x y, cdf x < cdf y <-> x < y).
  { intros x y. split; [|apply HM]. intros H. destruct (Rtotal_order x y) as [A|[A|A]]; [exact A|subst; lra|apply HM in A; lra]. }
  rewrite Ez.
  split; [reflexivity|]. split; [exact H0|]. split; [simpl; rewrite Rmult_1_r; exact H2|]. split; [reflexivity|].
  split; [lra|]. split; [nra|].
  split.
  { replace ((b + z * se - b) / se) with z by (field; lra). replace ((b + - z * se - b) / se) with (- z) by (field; lra). rewrite HS, Q1. lra. }
  split; [rewrite HS; ring|].
  assert (PA : 0 <= Rabs (b / se)) by apply Rabs_pos.
  split.
  { split.
    - destruct (BND (Rabs (b / se))). lra.
    - assert (1 / 2 <= cdf (Rabs (b / se))); [|lra]. destruct PA as [PA|PA]; [apply HM in PA; lra|rewrite <- PA; lra]. }
  assert (E1 : 2 * (1 - cdf (Rabs (b / se))) < 1 - conf <-> z < Rabs (b / se)) by (rewrite <- (MONO z (Rabs (b / se))), Q1; lra).
  rewrite E1. assert (E2 : Rabs (b / se) = Rabs b / se) by (unfold Rdiv; rewrite Rabs_mult, (Rabs_pos_eq (/ se)); [reflexivity|left; apply Rinv_0_lt_compat; exact H0]).
  rewrite E2. assert (E3 : z < Rabs b / se <-> z * se < Rabs b).
  { split; intros H.
    - apply (Rmult_lt_compat_r se) in H; [|exact H0]. replace (Rabs b / se * se) with (Rabs b) in H by (field; lra). exact H.
    - apply (Rmult_lt_reg_r se); [exact H0|]. replace (Rabs b / se * se) with (Rabs b) by (field; lra). exact H. }
  rewrite E3. unfold Rabs. destruct (Rcase_abs b); split; intros H; nra.
Qed.
Print Assumptions C48_row.

(** Higher confidence, wider interval. *)
Theorem C48_nested : forall cdf ppf conf conf' beta V j, normal_like_cdf cdf ppf -> 0 < conf -> conf < conf' -> conf' < 1 -> 0 < V j j ->
  let t := coef_table cdf ppf conf beta V j in let t' := coef_table cdf ppf conf' beta V j in
  ct_lo t' < ct_lo t /\ ct_hi t < ct_hi t' /\ ct_p t' = ct_p t /\ ct_se t' = ct_se t.
Proof.
  intros cdf ppf conf conf' beta V j [BND [HM [HS HQ]]] H1 H2 H3 HV. cbn. pose proof (sqrt_lt_R0 _ HV) as H0. set (se := sqrt (V j j)) in *.
  assert (MONO : forall x y, cdf x < cdf y -> x < y).
  { intros x y H. destruct (Rtotal_order x y) as [A|[A|A]]; [exact A|subst; lra|apply HM in A; lra]. }
  assert (A : ppf ((1 - conf') / 2) < ppf ((1 - conf) / 2)) by (apply MONO; rewrite !HQ by lra; lra).
  assert (B : ppf (1 - (1 - conf) / 2) < ppf (1 - (1 - conf') / 2)) by (apply MONO; rewrite !HQ by lra; lra).
  split; [|split]; [nra|nra|split; reflexivity].
Qed.
Print Assumptions C48_nested.

Definition ex48_cdf (x : R) : R := / (1 + exp (- x)).
Definition ex48_ppf (q : R) : R := ln (q / (1 - q)).
Example C48_nonvacuous : normal_like_cdf ex48_cdf ex48_ppf /\ 0 < ex46_V 1%nat 1%nat.
Proof.
  assert (P : forall x, 0 < 1 + exp (- x)) by (intros x; pose proof (exp_pos (- x)); lra).
  split; [|unfold ex46_V; cbn; lra]. split; [|split; [|split]].
  - intros x. unfold ex48_cdf. pose proof (exp_pos (- x)). split; [apply Rinv_0_lt_compat, P|]. rewrite <- Rinv_1. apply Rinv_lt_contravar; lra.
  - intros x y H. unfold ex48_cdf. apply Rinv_lt_contravar; [apply Rmult_lt_0_compat; apply P|]. apply Rplus_lt_compat_l, exp_increasing. lra.
  - intros x. unfold ex48_cdf. rewrite Ropp_involutive, exp_Ropp. pose proof (exp_pos x). field. split; lra.
  - intros q Hq. unfold ex48_cdf, ex48_ppf. rewrite exp_Ropp, exp_ln by (apply Rdiv_lt_0_compat; lra). field. split; lra.
Qed.
