(** C68 (exposure) and C69 (units of the response). *)
From Verif Require Import M_Std S_Std L_Link L_Dist L_Dist2 L_Dist4 L_CD L_KKT L_Hess L_Solver L_Solver2 L_Solver3 L_Obj L_Std L_Fit L_Rows P_Solver P_Obj P_Std P_Fit L_Score P_Score.
From Verif Require Import M_Solver S_Solver S_Fit S_Scale.
Local Open Scope R_scope.

Lemma npow_mult e y a : 0 < e -> 0 <= y -> a <> 0 -> npow (e * y) a = Rpower e a * npow y a.
Proof.
  intros He Hy Ha. unfold npow. destruct (Req_EM_T y 0) as [E|E].
  - subst y. rewrite Rmult_0_r. destruct (Req_EM_T 0 0); [|lra]. destruct (Req_EM_T a 0); [lra|ring].
  - assert (0 < e * y) by (apply Rmult_lt_0_compat; lra). destruct (Req_EM_T (e * y) 0); [lra|]. symmetry. apply Rpower_mult_distr; lra.
Qed.
(** Power variance functions have homogeneous unit deviances. *)
Lemma ud_homog f p e y m : variance_power f p -> family_ok f -> 0 < e -> 0 < m -> support f y ->
  unit_deviance f (e * y) (e * m) = Rpower e (2 - p) * unit_deviance f y m.
Proof.
  intros HV HF He Hm HS.
  assert (E2 : Rpower e 2 = e * e) by (apply Rpower_2; exact He).
  assert (N : (e * y - e * m) ^ 2 = Rpower e (2 - 0) * (y - m) ^ 2) by (rewrite Rminus_0_r, E2; ring).
  assert (P : 0 <= y -> 2 * (xlogy (e * y) (e * y / (e * m)) - e * y + e * m) = Rpower e (2 - 1) * (2 * (xlogy y (y / m) - y + m))).
  { intros Hy. replace (2 - 1) with 1 by ring. rewrite Rpower_1 by exact He. unfold xlogy. destruct (Req_EM_T y 0) as [E|E].
    - subst y. rewrite Rmult_0_r. destruct (Req_EM_T 0 0); [ring|lra].
    - destruct (Req_EM_T (e * y) 0) as [X|X]; [apply Rmult_integral in X; destruct X; lra|]. replace (e * y / (e * m)) with (y / m) by (field; lra). ring. }
  assert (G : 0 < y -> 2 * (ln (e * m / (e * y)) + e * y / (e * m) - 1) = Rpower e (2 - 2) * (2 * (ln (m / y) + y / m - 1))).
  { intros Hy. replace (2 - 2) with 0 by ring. rewrite Rpower_O by exact He. replace (e * m / (e * y)) with (m / y) by (field; lra). replace (e * y / (e * m)) with (y / m) by (field; lra). ring. }
  assert (I0 : Rpower e (2 - 3) = / e) by (replace (2 - 3) with (-1) by ring; apply Rpower_m1; exact He).
  destruct f; cbn [variance_power] in HV; try tauto; subst p; cbn [unit_deviance]; cbn [support] in HS.
  - destruct (Req_EM_T p0 0) as [-> |]; [exact N|]. destruct (Req_EM_T p0 1) as [-> |]; [apply P; lra|]. destruct (Req_EM_T p0 2) as [-> |]; [apply G; lra|].
    destruct (Req_EM_T p0 3) as [-> |]; [rewrite I0; field; lra|]. cbv zeta.
    assert (RM : Rmax (e * y) 0 = e * Rmax y 0).
    { unfold Rmax. destruct (Rle_dec (e * y) 0), (Rle_dec y 0); try ring; [nra|]. assert (e * y <= 0) by nra. lra. }
    assert (M0 : 0 <= Rmax y 0) by apply Rmax_r.
    rewrite RM, npow_mult by (assumption || lra). rewrite <- Rpower_mult_distr by assumption.
    assert (EE : Rpower e (2 - p0) = e * Rpower e (1 - p0)) by (replace (2 - p0) with (1 + (1 - p0)) by ring; rewrite Rpower_plus, Rpower_1 by exact He; reflexivity).
    rewrite EE. field. split; lra.
  - exact N.
  - apply P. exact HS.
  - apply G. exact HS.
  - rewrite I0. field. lra.
Qed.

(** the half deviance of a row list in the user's objective *)
Lemma rows_half_dev u rows b0 b : u_link u = LogL -> family_ok (u_fam u) -> (forall p, u_fam u = TweedieF p -> 0 <= p) ->
  (forall r, In r rows -> support (u_fam u) (r_y r)) -> u_fam u <> BinomialF -> weight_total rows <> 0 ->
  user_half_dev (with_rows u rows) b0 b
  = / 2 * (lsum (map (fun r => r_w r * unit_deviance (u_fam u) (r_y r) (exp (row_eta (u_p u) b0 b r))) rows) / weight_total rows).
Proof.
  intros HL HF HP HS HB HW. unfold user_half_dev. f_equal.
  change (u_fam (with_rows u rows)) with (u_fam u). change (u_link (with_rows u rows)) with (u_link u). rewrite HL.
  assert (SM : forall eta, search_mean (u_fam u) LogL eta = exp eta) by (intros; unfold search_mean; destruct (u_fam u); reflexivity).
  assert (D : forall l, (forall o, In o l -> support (u_fam u) (oy o) /\ 0 < omu o) -> deviance (u_fam u) l = lsumf (fun o => ow o * unit_deviance (u_fam u) (oy o) (omu o)) l).
  { intros l Hl. destruct (u_fam u) eqn:Ef; try congruence; apply deviance_sum; auto; intros; try (destruct (Hl o) as [A B]; [assumption|]; split; [exact A|cbn; auto]).
    - intros. cbn in HF. exfalso. specialize (HP p0). assert (p = p0) by congruence. subst. specialize (HP eq_refl). lra.
    - congruence. - congruence. - congruence. - congruence. - congruence. - congruence. }
  rewrite D.
  - rewrite lsumf_map, lsumf_seq. cbn [oy ow omu].
    rewrite (rsum_ext _ _ (fun i => u_w (with_rows u rows) i * unit_deviance (u_fam u) (u_y (with_rows u rows) i) (exp (user_eta (with_rows u rows) b0 b i)))) by (intros; rewrite SM; reflexivity).
    rewrite (rows_sum u rows b0 b (fun y eta _ => unit_deviance (u_fam u) y (exp eta))) by (rewrite wtot_lsum; exact HW). reflexivity.
  - intros o Ho. apply in_map_iff in Ho. destruct Ho as [i [<- Hi]]. cbn [oy omu]. apply in_seq in Hi. split; [|rewrite SM; apply exp_pos].
    apply HS. apply nth_In. cbn in Hi. lia.
Qed.
Lemma obj_split u k b0 b : user_obj u k b0 b = user_half_dev u b0 b + user_pen u k b.
Proof. unfold user_obj, user_half_dev, user_pen, user_l2. ring. Qed.
Lemma pen_alpha u rows rows' al k b : user_pen (with_rows (at_alpha u al) rows) k b = al * user_pen (with_rows u rows') k b.
Proof.
  unfold user_pen, user_l2. cbn [with_rows at_alpha u_p u_P1 u_P2].
  match goal with |- / 2 * ?A + ?B = al * (/ 2 * ?C + ?D) => cut (A = al * C /\ B = al * D); [intros [-> ->]; ring|] end. split.
  - rewrite <- rsum_scal. apply rsum_ext. intros i _. rewrite <- rsum_scal. apply rsum_ext. intros j _.
    destruct (u_P2 u); cbn [p2_entry]; [destruct (Nat.eqb i j)|]; ring.
  - rewrite <- rsum_scal. apply rsum_ext. intros. ring.
Qed.
Lemma half_dev_alpha u rows al b0 b : user_half_dev (with_rows (at_alpha u al) rows) b0 b = user_half_dev (with_rows u rows) b0 b.
Proof. reflexivity. Qed.

Section Exposure.
Variables (u : user) (p : R) (l : list (R * row)).
Hypothesis HL : u_link u = LogL.
Hypothesis HF : family_ok (u_fam u).
Hypothesis HV : variance_power (u_fam u) p.
Hypothesis HP : 0 <= p.
Hypothesis HE : forall e r, In (e, r) l -> 0 < e /\ support (u_fam u) (r_y r) /\ 0 <= r_w r.
Hypothesis HW : 0 < weight_total (map by_offset l).
Let c := weight_total (map (by_rate p) l) / weight_total (map by_offset l).

Lemma not_binomial : u_fam u <> BinomialF.
Proof. intros E. rewrite E in HV. exact HV. Qed.
Lemma tw_nonneg q : u_fam u = TweedieF q -> 0 <= q.
Proof. intros E. rewrite E in HV. cbn in HV. lra. Qed.
Lemma support_scale s y : 0 < s -> support (u_fam u) y -> support (u_fam u) (s * y).
Proof.
  clear HE HW c l HL HF HP. intros Hs H. pose proof not_binomial as NB. destruct (u_fam u); cbn in *; try exact I; try tauto; try (apply Rmult_lt_0_compat; lra); try (apply Rmult_le_pos; lra).
  destruct H as [A B]. split; intros X; [apply Rmult_le_pos; [lra|auto]|apply Rmult_lt_0_compat; [lra|auto]].
Qed.
Lemma rate_weights_pos : 0 < weight_total (map (by_rate p) l).
Proof.
  assert (G : forall l, (forall e r, In (e, r) l -> 0 < e /\ 0 <= r_w r) -> 0 < weight_total (map by_offset l) -> 0 < weight_total (map (by_rate p) l)).
  { induction l0 as [|[e r] l0 IH]; intros H0 W; unfold weight_total in *; cbn [map] in *; [cbn in *; lra|].
    change (0 < r_w r + lsum (map r_w (map by_offset l0))) in W. change (0 < r_w r * Rpower e (2 - p) + lsum (map r_w (map (by_rate p) l0))). destruct (H0 e r (or_introl eq_refl)) as [He Hw].
    pose proof (Rpower_pos e (2 - p)).
    destruct (Rle_lt_or_eq_dec _ _ Hw) as [P0|P0].
    - assert (0 < r_w r * Rpower e (2 - p)) by (apply Rmult_lt_0_compat; lra).
      assert (0 <= lsum (map r_w (map (by_rate p) l0))); [|lra].
      rewrite lsum_lsumf, !lsumf_map. apply lsumf_nonneg. intros [e' r'] Hin. cbn. destruct (H0 e' r' (or_intror Hin)). apply Rmult_le_pos; [lra|apply Rlt_le, Rpower_pos].
    - rewrite <- P0, Rplus_0_l in W. rewrite <- P0, Rmult_0_l, Rplus_0_l. apply IH; [|exact W]. intros e' r' Hin. apply (H0 e' r'). right. exact Hin. }
  apply G; [|exact HW]. intros e r Hin. destruct (HE e r Hin) as [A [_ B]]. auto.
Qed.
Lemma exposure_half_dev b0 b : user_half_dev (with_rows u (map by_offset l)) b0 b = c * user_half_dev (with_rows u (map (by_rate p) l)) b0 b.
Proof.
  pose proof rate_weights_pos as RW.
  rewrite !rows_half_dev; try assumption; try exact not_binomial; try exact tw_nonneg; try lra.
  - unfold c. rewrite !map_map.
    assert (E : lsum (map (fun x => r_w (by_offset x) * unit_deviance (u_fam u) (r_y (by_offset x)) (exp (row_eta (u_p u) b0 b (by_offset x)))) l)
              = lsum (map (fun x => r_w (by_rate p x) * unit_deviance (u_fam u) (r_y (by_rate p x)) (exp (row_eta (u_p u) b0 b (by_rate p x)))) l)).
    { f_equal. apply map_ext_in. intros [e r] Hin. destruct (HE e r Hin) as [He [Hs _]]. cbn [by_offset by_rate r_w r_y].
      set (eta := row_eta (u_p u) b0 b (mkRow (r_x r) (r_y r / e) (r_w r * Rpower e (2 - p)) (r_off r))).
      assert (EX : exp (row_eta (u_p u) b0 b (mkRow (r_x r) (r_y r) (r_w r) (r_off r + ln e))) = e * exp eta).
      { unfold eta, row_eta. cbn [r_x r_off]. rewrite <- (exp_ln e He) at 2. rewrite <- exp_plus. f_equal. ring. }
      rewrite EX. replace (r_y r) with (e * (r_y r / e)) at 1 by (field; lra).
      assert (SS : support (u_fam u) (r_y r / e)) by (unfold Rdiv; rewrite Rmult_comm; apply support_scale; [apply Rinv_0_lt_compat; exact He|exact Hs]).
      rewrite (ud_homog (u_fam u) p) by (assumption || apply exp_pos). ring. }
    rewrite E. field. lra.
  - intros r Hin. apply in_map_iff in Hin. destruct Hin as [[e r'] [<- Hin]]. destruct (HE e r' Hin) as [He [Hs _]]. cbn [by_rate r_y].
    unfold Rdiv. rewrite Rmult_comm. apply support_scale; [apply Rinv_0_lt_compat; exact He|exact Hs].
  - intros r Hin. apply in_map_iff in Hin. destruct Hin as [[e r'] [<- Hin]]. destruct (HE e r' Hin) as [He [Hs _]]. exact Hs.
Qed.
End Exposure.

(** C68: with a log link, totals with offset log(exposure) and rates weighted by exposure^(2-p) pose the same
    problem once alpha is divided by the mean exposure weight c. *)
Theorem C68_exposure : forall u p l k b0 b, u_link u = LogL -> family_ok (u_fam u) -> variance_power (u_fam u) p -> 0 <= p ->
  (forall e r, In (e, r) l -> 0 < e /\ support (u_fam u) (r_y r) /\ 0 <= r_w r) -> 0 < weight_total (map by_offset l) ->
  let c := weight_total (map (by_rate p) l) / weight_total (map by_offset l) in
  0 < c /\
  user_obj (with_rows u (map by_offset l)) k b0 b = c * user_obj (with_rows (at_alpha u (/ c)) (map (by_rate p) l)) k b0 b.
Proof.
  intros u p l k b0 b HL HF HV HP HE HW c.
  pose proof (rate_weights_pos u p l HE HW) as RW. assert (HC : 0 < c) by (apply Rdiv_lt_0_compat; assumption). split; [exact HC|].
  rewrite !obj_split, half_dev_alpha, (pen_alpha u _ (map by_offset l)), (exposure_half_dev u p l HL HF HV HP HE HW).
  fold c. field. lra.
Qed.
Print Assumptions C68_exposure.
(** A silent fit of the rate model is near-optimal for the model with offsets. *)
Theorem C68_fit : forall u p l se seed ho a b0 b, u_link u = LogL -> family_ok (u_fam u) -> variance_power (u_fam u) p -> 0 <= p ->
  (forall e r, In (e, r) l -> 0 < e /\ support (u_fam u) (r_y r) /\ 0 <= r_w r) -> 0 < weight_total (map by_offset l) ->
  u_scale u = false -> convex_pair (u_fam u) (u_link u) ->
  let c := weight_total (map (by_rate p) l) / weight_total (map by_offset l) in
  let rate := with_rows (at_alpha u (/ c)) (map (by_rate p) l) in let off := with_rows u (map by_offset l) in
  user_ok rate -> 0 <= se_approx se -> seeds_ok seed -> se_stol se = None -> start_ok rate a ->
  fit_rows (at_alpha u (/ c)) se seed ho (map (by_rate p) l) a = Some (b0, b, false) ->
  user_feasible off b /\ (u_ic off = false -> b0 = 0) /\
  forall b0' b' D, user_feasible off b' -> (u_ic off = false -> b0' = 0) -> 0 <= D -> std_close rate D b0 b b0' b' ->
    user_obj off (pen_scale off) b0 b <= user_obj off (pen_scale off) b0' b' + c * se_gtol se * D.
Proof.
  intros u p l se seed ho a b0 b HL HF HV HP HE HW HS HX c rate off Ok HC Hs Hst Ha E.
  destruct (fit_rows_cd _ _ _ _ _ _ _ E) as [g Eg].
  destruct (C56_fit_near_optimal rate se seed g a b0 b Ok HC Hs HX Hst Ha Eg) as [F [I O]].
  split; [exact F|]. split; [exact I|]. intros b0' b' D F' I' HD [X1 X2].
  specialize (O b0' b' D F' I' HD X1 X2).
  assert (PS : pen_scale off = fun _ => 1) by (unfold pen_scale; change (u_scale off) with (u_scale u); rewrite HS; reflexivity).
  assert (PS' : pen_scale rate = fun _ => 1) by (unfold pen_scale; change (u_scale rate) with (u_scale u); rewrite HS; reflexivity).
  rewrite PS' in O. rewrite PS.
  destruct (C68_exposure u p l (fun _ => 1) b0 b HL HF HV HP HE HW) as [Hc Q1].
  destruct (C68_exposure u p l (fun _ => 1) b0' b' HL HF HV HP HE HW) as [_ Q2]. fold c in Hc, Q1, Q2. fold off in Q1, Q2. fold rate in Q1, Q2.
  rewrite Q1, Q2. apply (Rmult_le_compat_l c) in O; lra.
Qed.
Print Assumptions C68_fit.

(** C69: units of the response.  With a log link and variance power p, multiplying y by s moves the intercept by
    log s and leaves the other coefficients, if alpha is multiplied by s^(2-p). *)
Theorem C69_log_link_units : forall u p s rows k b0 b, u_link u = LogL -> family_ok (u_fam u) -> variance_power (u_fam u) p -> 0 <= p ->
  (forall r, In r rows -> support (u_fam u) (r_y r) /\ 0 <= r_w r) -> 0 < weight_total rows -> 0 < s ->
  user_obj (with_rows (at_alpha u (Rpower s (2 - p))) (map (rescale_y s) rows)) k (b0 + ln s) b
  = Rpower s (2 - p) * user_obj (with_rows u rows) k b0 b.
Proof.
  intros u p s rows k b0 b HL HF HV HP HR HW Hs.
  rewrite !obj_split, half_dev_alpha, (pen_alpha u _ rows). rewrite Rmult_plus_distr_l. f_equal.
  assert (TW : weight_total (map (rescale_y s) rows) = weight_total rows) by (unfold weight_total; rewrite map_map; reflexivity).
  pose proof (not_binomial u p HV) as NB. pose proof (tw_nonneg u p HV HP) as TN.
  rewrite !rows_half_dev; try assumption; try lra.
  - rewrite TW, map_map.
    assert (E : lsum (map (fun x => r_w (rescale_y s x) * unit_deviance (u_fam u) (r_y (rescale_y s x)) (exp (row_eta (u_p u) (b0 + ln s) b (rescale_y s x)))) rows)
              = Rpower s (2 - p) * lsum (map (fun r => r_w r * unit_deviance (u_fam u) (r_y r) (exp (row_eta (u_p u) b0 b r))) rows)).
    { rewrite !lsum_lsumf, !lsumf_map, <- lsumf_scal. apply lsumf_ext. intros r Hin. destruct (HR r Hin) as [Hy _]. cbn [rescale_y r_w r_y].
      assert (EX : exp (row_eta (u_p u) (b0 + ln s) b (rescale_y s r)) = s * exp (row_eta (u_p u) b0 b r)).
      { rewrite <- (exp_ln s Hs) at 3. rewrite <- exp_plus. f_equal. unfold row_eta, rescale_y. cbn [r_x r_off]. ring. }
      change (mkRow (r_x r) (s * r_y r) (r_w r) (r_off r)) with (rescale_y s r). rewrite EX. rewrite (ud_homog (u_fam u) p) by (assumption || apply exp_pos). ring. }
    rewrite E. field. lra.
  - intros r Hin. apply (HR r Hin).
  - intros r Hin. apply in_map_iff in Hin. destruct Hin as [r' [<- Hin]]. cbn [rescale_y r_y]. apply (support_scale u p HV); [exact Hs|apply (HR r' Hin)].
Qed.
Print Assumptions C69_log_link_units.
(** A silent fit to the responses in other units is, after moving the intercept back by log s, near-optimal for
    the original responses. *)
Theorem C69_fit : forall u p s rows se seed ho a b0 b, u_link u = LogL -> family_ok (u_fam u) -> variance_power (u_fam u) p -> 0 <= p ->
  (forall r, In r rows -> support (u_fam u) (r_y r) /\ 0 <= r_w r) -> 0 < weight_total rows -> 0 < s ->
  u_scale u = false -> u_ic u = true -> convex_pair (u_fam u) (u_link u) ->
  let scaled := with_rows (at_alpha u (Rpower s (2 - p))) (map (rescale_y s) rows) in let orig := with_rows u rows in
  user_ok scaled -> 0 <= se_approx se -> seeds_ok seed -> se_stol se = None -> start_ok scaled a ->
  fit_rows (at_alpha u (Rpower s (2 - p))) se seed ho (map (rescale_y s) rows) a = Some (b0, b, false) ->
  user_feasible orig b /\
  forall b0' b' D, user_feasible orig b' -> 0 <= D -> std_close scaled D b0 b (b0' + ln s) b' ->
    user_obj orig (pen_scale orig) (b0 - ln s) b <= user_obj orig (pen_scale orig) b0' b' + Rpower s (p - 2) * se_gtol se * D.
Proof.
  intros u p s rows se seed ho a b0 b HL HF HV HP HR HW Hs HS HI HX scaled orig Ok HC Hsd Hst Ha E.
  destruct (fit_rows_cd _ _ _ _ _ _ _ E) as [g Eg].
  destruct (C56_fit_near_optimal scaled se seed g a b0 b Ok HC Hsd HX Hst Ha Eg) as [F [I O]].
  split; [exact F|]. intros b0' b' D F' HD [X1 X2].
  specialize (O (b0' + ln s) b' D F' ltac:(change (u_ic scaled) with (u_ic u); congruence) HD X1 X2).
  assert (PS : pen_scale orig = fun _ => 1) by (unfold pen_scale; change (u_scale orig) with (u_scale u); rewrite HS; reflexivity).
  assert (PS' : pen_scale scaled = fun _ => 1) by (unfold pen_scale; change (u_scale scaled) with (u_scale u); rewrite HS; reflexivity).
  rewrite PS' in O. rewrite PS.
  pose proof (C69_log_link_units u p s rows (fun _ => 1) (b0 - ln s) b HL HF HV HP HR HW Hs) as Q1.
  pose proof (C69_log_link_units u p s rows (fun _ => 1) b0' b' HL HF HV HP HR HW Hs) as Q2. fold scaled in Q1, Q2. fold orig in Q1, Q2.
  replace (b0 - ln s + ln s) with b0 in Q1 by ring. rewrite Q1, Q2 in O.
  assert (K : Rpower s (p - 2) * Rpower s (2 - p) = 1).
  { rewrite <- Rpower_plus. replace (p - 2 + (2 - p)) with 0 by ring. apply Rpower_O. exact Hs. }
  apply (Rmult_le_compat_l (Rpower s (p - 2))) in O; [|apply Rlt_le, Rpower_pos].
  rewrite Rmult_plus_distr_l, <- !Rmult_assoc, !K, !Rmult_1_l in O. exact O.
Qed.
Print Assumptions C69_fit.
(** Normal family, identity link: y and offset times s gives coefficients times s, with the L1 weights times s. *)
Theorem C69_normal_units : forall u s rows k b0 b, u_link u = IdentityL -> u_fam u = NormalF -> 0 < weight_total rows -> 0 < s ->
  user_obj (with_rows (scale_l1 u s) (map (rescale_y_off s) rows)) k (s * b0) (fun j => s * b j)
  = s ^ 2 * user_obj (with_rows u rows) k b0 b.
Proof.
  intros u s rows k b0 b HL HF HW Hs. rewrite !obj_split, Rmult_plus_distr_l. f_equal.
  - unfold user_half_dev. cbn [with_rows scale_l1 u_fam u_link u_n]. rewrite HF, HL. cbn [deviance]. unfold normal_deviance.
    rewrite !lsumf_map, !map_length.
    transitivity (/ 2 * (s ^ 2 * lsumf (fun o => ow o * (oy o - omu o) ^ 2) (map (fun i => mkobs (u_y (with_rows u rows) i) (u_w (with_rows u rows) i) (search_mean NormalF IdentityL (user_eta (with_rows u rows) b0 b i))) (seq 0 (length rows))))).
    + f_equal. rewrite lsumf_map, <- lsumf_scal. apply lsumf_ext. intros i Hi. apply in_seq in Hi. cbn [ow oy omu].
      assert (NR : nth i (map (rescale_y_off s) rows) row0 = rescale_y_off s (nth i rows row0)).
      { rewrite (nth_indep _ row0 (rescale_y_off s row0)) by (rewrite map_length; lia). apply map_nth. }
      assert (WN : u_w (with_rows (scale_l1 u s) (map (rescale_y_off s) rows)) i = u_w (with_rows u rows) i).
      { cbn [with_rows u_w]. rewrite map_map. reflexivity. }
      rewrite WN. cbn [with_rows scale_l1 u_y u_w]. rewrite NR. cbn [rescale_y_off r_y].
      unfold search_mean. cbn [inverse1]. 
      assert (EE : user_eta (with_rows (scale_l1 u s) (map (rescale_y_off s) rows)) (s * b0) (fun j => s * b j) i = s * user_eta (with_rows u rows) b0 b i).
      { unfold user_eta. cbn [with_rows scale_l1 u_p u_X u_off]. rewrite NR. cbn [rescale_y_off r_x r_off].
        rewrite (rsum_ext _ _ (fun j => s * (r_x (nth i rows row0) j * b j))) by (intros; ring). rewrite rsum_scal. ring. }
      rewrite EE. cbn [with_rows u_y u_w]. unfold raw_inverse. ring.
    + rewrite !lsumf_map. ring.
  - unfold user_pen, user_l2. cbn [with_rows scale_l1 u_p u_P1 u_P2]. 
    match goal with |- / 2 * ?A + ?B = s ^ 2 * (/ 2 * ?C + ?D) => cut (A = s ^ 2 * C /\ B = s ^ 2 * D); [intros [-> ->]; ring|] end. split.
    + rewrite <- rsum_scal. apply rsum_ext. intros i _. rewrite <- rsum_scal. apply rsum_ext. intros j _. ring.
    + rewrite <- rsum_scal. apply rsum_ext. intros j _. replace (k j * (s * b j)) with (s * (k j * b j)) by ring. rewrite Rabs_mult, (Rabs_right s) by lra. ring.
Qed.
Print Assumptions C69_normal_units.

Example C68_nonvacuous : forall e r, In (e, r) [(2, mkRow (fun _ => 1) 3 1 0); (1/2, mkRow (fun _ => 0) 0 2 (1/3))] ->
  0 < e /\ support (TweedieF (3/2)) (r_y r) /\ 0 <= r_w r.
Proof. intros e r [H|[H|[]]]; injection H as <- <-; cbn; repeat split; intros; lra. Qed.

Example C69_nonvacuous : forall r, In r [mkRow (fun _ => 1) 3 1 0; mkRow (fun _ => 0) 0 2 (1/3)] -> support PoissonF (r_y r) /\ 0 <= r_w r.
Proof. intros r [H|[H|[]]]; subst r; cbn; repeat split; intros; lra. Qed.
