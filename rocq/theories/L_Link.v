From Verif Require Import Base M_Link S_Link.

Lemma eps50_bounds : 0 < eps50 < 1/4.
Proof. unfold eps50, eps64. split.
  - apply Rmult_lt_0_compat; [lra|]. apply Rinv_0_lt_compat. apply pow_lt. lra.
  - assert (E: (2 ^ 52 = 4503599627370496)) by (simpl; lra). rewrite E. lra. Qed.

Lemma expit_bounds x : 0 < expit x < 1.
Proof. unfold expit. assert (0 < exp (- x)) by apply exp_pos. split.
  - apply Rdiv_lt_0_compat; lra.
  - apply Rmult_lt_reg_r with (1 + exp (-x)); [lra|]. field_simplify; lra. Qed.

Lemma one_minus_expit x : 1 - expit x = exp (-x) / (1 + exp (-x)).
Proof. unfold expit. assert (0 < exp (- x)) by apply exp_pos. field. lra. Qed.

Lemma logit_expit x : logit (expit x) = x.
Proof. unfold logit. rewrite one_minus_expit. unfold expit.
  assert (0 < exp (- x)) by apply exp_pos.
  replace (1 / (1 + exp (- x)) / (exp (- x) / (1 + exp (- x)))) with (/ exp (-x)) by (field; lra).
  rewrite <- exp_Ropp, Ropp_involutive. apply ln_exp. Qed.

Lemma expit_logit m : 0 < m < 1 -> expit (logit m) = m.
Proof. intros H. unfold expit, logit. rewrite exp_Ropp, exp_ln.
  - field. lra.
  - apply Rdiv_lt_0_compat; lra. Qed.

Lemma raw_cloglog_bounds x : 0 < raw_inverse CloglogL x < 1.
Proof. simpl. unfold expm1. assert (0 < exp x) by apply exp_pos.
  assert (0 < exp (- exp x)) by apply exp_pos.
  assert (exp (- exp x) < exp 0) by (apply exp_increasing; lra).
  rewrite exp_0 in *. lra. Qed.

Lemma raw_inverse_link l mu : mean_domain l mu -> raw_inverse l (link_fn l mu) = mu.
Proof.
  destruct l as [p| | | |]; simpl; intros H.
  - destruct (Req_EM_T p 0); auto. specialize (H n).
    destruct (Req_EM_T p 1); [apply exp_ln; auto|].
    rewrite Rpower_mult. replace ((1 - p) * (1 / (1 - p))) with 1 by (field; lra).
    apply Rpower_1; auto.
  - auto.
  - apply exp_ln; auto.
  - apply expit_logit; auto.
  - unfold expm1, log1p. rewrite exp_ln.
    + rewrite Ropp_involutive, exp_ln; lra.
    + assert (ln (1 + - mu) < ln 1) by (apply ln_increasing; lra). rewrite ln_1 in *. lra.
Qed.

Lemma link_raw_inverse l eta : lin_domain l eta -> link_fn l (raw_inverse l eta) = eta.
Proof.
  destruct l as [p| | | |]; simpl; intros H.
  - destruct (Req_EM_T p 0); auto. 
    destruct (Req_EM_T p 1); [apply ln_exp|].
    rewrite Rpower_mult. replace (1 / (1 - p) * (1 - p)) with 1 by (field; lra).
    apply Rpower_1; auto.
  - auto.
  - apply ln_exp.
  - apply logit_expit.
  - unfold expm1, log1p. 
    replace (1 + - - (exp (- exp eta) - 1)) with (exp (- exp eta)) by ring.
    rewrite ln_exp, Ropp_involutive. apply ln_exp.
Qed.

Lemma existsb_false_forall A (f : A -> bool) l : existsb f l = false <-> forall a, In a l -> f a = false.
Proof. induction l; simpl; split; intros; auto; try contradiction.
  - apply orb_false_elim in H. destruct H0 as [->|]; [tauto|]. apply IHl; tauto.
  - rewrite H by auto. simpl. apply IHl. intros. apply H; auto. Qed.

Definition clips (l : link) : Prop := match l with LogitL | CloglogL => True | _ => False end.

Lemma link_inverse_elementwise l lin : fst (link_inverse l lin) = map (inverse1 l) lin.
Proof.
  destruct l; try reflexivity; unfold link_inverse;
    destruct (existsb _ _ || existsb _ _)%bool eqn:E; cbn [fst]; 
    rewrite ?map_map; try reflexivity;
    apply orb_false_elim in E; destruct E as [E1 E2];
    rewrite existsb_false_forall in E1, E2;
    apply map_ext_in; intros a Ha; unfold inverse1; rewrite clip_id; auto;
    specialize (E1 _ (in_map (raw_inverse _) _ _ Ha));
    specialize (E2 _ (in_map (raw_inverse _) _ _ Ha));
    apply Rltb_false in E1; apply Rltb_false in E2; lra.
Qed.

Lemma link_inverse_warn l lin :
  snd (link_inverse l lin) = true <->
  (exists eta, In eta lin /\ ~ in_band l (raw_inverse l eta)).
Proof.
  destruct l; try (simpl; split; [discriminate|]; intros [e [_ Hn]]; exfalso; apply Hn; exact I);
  unfold link_inverse;
  (destruct (existsb _ _ || existsb _ _)%bool eqn:E; cbn [snd]; split; intros H; try discriminate; auto;
   [ apply orb_prop in E; destruct E as [E|E]; apply existsb_exists in E;
     destruct E as [v [Hv Hlt]]; apply in_map_iff in Hv; destruct Hv as [e [<- He]];
     exists e; split; auto; apply Rltb_true in Hlt; unfold in_band; lra
   | exfalso; apply orb_false_elim in E; destruct E as [E1 E2];
     rewrite existsb_false_forall in E1, E2; destruct H as [e [He Hn]]; apply Hn;
     specialize (E1 _ (in_map (raw_inverse _) _ _ He));
     specialize (E2 _ (in_map (raw_inverse _) _ _ He));
     apply Rltb_false in E1; apply Rltb_false in E2; unfold in_band; lra ]).
Qed.

Lemma link_inverse_nowarn l lin :
  (forall eta, In eta lin -> in_band l (raw_inverse l eta)) ->
  link_inverse l lin = (map (raw_inverse l) lin, false).
Proof.
  intros H. destruct (link_inverse l lin) as [v b] eqn:E.
  assert (Hb : b = false).
  { destruct b; auto. assert (Hs : snd (link_inverse l lin) = true) by (rewrite E; auto).
    apply link_inverse_warn in Hs. destruct Hs as [e [He Hn]]. exfalso; auto. }
  subst b. f_equal. assert (Hv : v = fst (link_inverse l lin)) by (rewrite E; auto).
  rewrite Hv, link_inverse_elementwise. apply map_ext_in. intros a Ha.
  specialize (H a Ha). destruct l; auto; unfold inverse1; apply clip_id; exact H.
Qed.

Lemma inverse_of_link l mus :
  (forall mu, In mu mus -> mean_domain l mu /\ in_band l mu) ->
  link_inverse l (map (link_fn l) mus) = (mus, false).
Proof.
  intros H. rewrite link_inverse_nowarn.
  - f_equal. rewrite map_map. rewrite <- (map_id mus) at 2. apply map_ext_in.
    intros a Ha. apply raw_inverse_link. apply H; auto.
  - intros e He. apply in_map_iff in He. destruct He as [m [<- Hm]].
    rewrite raw_inverse_link; apply H; auto.
Qed.

Lemma link_of_inverse l etas :
  (forall eta, In eta etas -> lin_domain l eta) ->
  snd (link_inverse l etas) = false ->
  map (link_fn l) (fst (link_inverse l etas)) = etas.
Proof.
  intros H Hw.
  rewrite link_inverse_nowarn.
  - cbn [fst]. rewrite map_map. rewrite <- (map_id etas) at 2. apply map_ext_in.
    intros a Ha. apply link_raw_inverse; auto.
  - intros e He. destruct l; try exact I; unfold in_band;
    match goal with |- ?a <= ?x <= ?b => destruct (Rle_dec a x); [destruct (Rle_dec x b); [lra|]|] end;
    exfalso; match type of Hw with snd (link_inverse ?l _) = _ =>
      assert (Ht : snd (link_inverse l etas) = true) by
        (apply link_inverse_warn; exists e; split; auto; unfold in_band; lra) end; congruence.
Qed.

Lemma raw_inverse_in_mean_domain l eta : lin_domain l eta -> mean_domain l (raw_inverse l eta).
Proof.
  destruct l as [p| | | |]; simpl; intros H; auto.
  - intros Hp. destruct (Req_EM_T p 0); [contradiction|].
    destruct (Req_EM_T p 1); [apply exp_pos|apply exp_pos].
  - apply exp_pos.
  - apply expit_bounds.
  - apply (raw_cloglog_bounds eta).
Qed.

(** Derivatives *)
Lemma is_derive_link l mu : mean_domain l mu -> is_derive (link_fn l) mu (link_derivative l mu).
Proof.
  destruct l as [p| | | |]; unfold link_fn, link_derivative, mean_domain; intros H.
  - destruct (Req_EM_T p 0).
    + apply dR_id.
    + specialize (H n). destruct (Req_EM_T p 1).
      * auto_derive; auto. 
      * replace (- p) with (1 - p - 1) by ring. apply is_derive_Rpower; auto.
  - apply dR_id.
  - unfold link_fn. auto_derive; auto.
  - unfold link_fn, logit. auto_derive.
    + repeat split; try lra. apply Rdiv_lt_0_compat; lra.
    + field. lra.
  - assert (Hl : ln (1 + - mu) < 0).
    { rewrite <- ln_1. apply ln_increasing; lra. }
    unfold link_fn, log1p. auto_derive.
    + repeat split; lra.
    + field. split; lra.
Qed.

Lemma expit_deriv eta : is_derive expit eta (expit eta * (1 - expit eta)).
Proof. unfold expit. assert (0 < exp (- eta)) by apply exp_pos.
  auto_derive; [lra|]. field. lra. Qed.

Lemma is_derive_inverse l eta : lin_domain l eta ->
  is_derive (raw_inverse l) eta (inverse_derivative l eta).
Proof.
  destruct l as [p| | | |]; intros H.
  - unfold raw_inverse, inverse_derivative, lin_domain in *. destruct (Req_EM_T p 0); [apply dR_id|].
    destruct (Req_EM_T p 1).
    + auto_derive; auto. ring.
    + specialize (H n n0).
      replace (p / (1 - p)) with (1 / (1 - p) - 1) by (field; lra).
      apply is_derive_Rpower; auto.
  - apply dR_id.
  - unfold raw_inverse, inverse_derivative. auto_derive; auto. ring.
  - apply expit_deriv.
  - unfold raw_inverse, inverse_derivative, expm1. auto_derive; auto.
    unfold Rminus. rewrite exp_plus. ring.
Qed.

Lemma is_derive_inverse2 l eta : lin_domain l eta ->
  is_derive (inverse_derivative l) eta (inverse_derivative2 l eta).
Proof.
  destruct l as [p| | | |]; intros H.
  - unfold inverse_derivative, inverse_derivative2, lin_domain in *. destruct (Req_EM_T p 0); [apply dR_const|].
    destruct (Req_EM_T p 1).
    + auto_derive; auto. ring.
    + specialize (H n n0).
      evar_last. 
      * apply (is_derive_scal (fun t => Rpower t (p / (1 - p)))). apply is_derive_Rpower; auto.
      * replace ((2 * p - 1) / (1 - p)) with (p / (1 - p) - 1) by (field; lra).
        field. lra.
  - apply dR_const.
  - unfold inverse_derivative2, inverse_derivative. auto_derive; auto. ring.
  - unfold inverse_derivative2, inverse_derivative. cbn zeta.
    eapply dR_eq.
    + apply (dR_mult expit (fun x => 1 - expit x)); [apply expit_deriv|].
      apply (dR_minus (fun _ => 1) expit); [apply dR_const|apply expit_deriv].
    + ring.
  - unfold inverse_derivative2, inverse_derivative, expm1. auto_derive; auto. unfold Rminus. ring.
Qed.

Lemma inverse_derivative_link l mu : mean_domain l mu ->
  inverse_derivative l (link_fn l mu) * link_derivative l mu = 1.
Proof.
  destruct l as [p| | | |]; intros H; simpl in *.
  - destruct (Req_EM_T p 0); [lra|]. specialize (H n). destruct (Req_EM_T p 1).
    + rewrite exp_ln by auto. field. lra.
    + rewrite Rpower_mult. replace ((1 - p) * (p / (1 - p))) with p by (field; lra).
      rewrite Rpower_Ropp. assert (0 < Rpower mu p) by apply Rpower_pos. field. lra.
  - lra.
  - rewrite exp_ln by auto. field. lra.
  - rewrite expit_logit by auto. field. lra.
  - assert (Hl : ln (1 + - mu) < 0).
    { rewrite <- ln_1. apply ln_increasing; lra. }
    unfold log1p. unfold Rminus at 1. rewrite exp_plus, exp_ln by lra.
    rewrite Ropp_involutive, exp_ln by lra. field. split; lra.
Qed.

(** Monotonicity and range *)
Lemma raw_inverse_mono l a b : (forall p, l <> TweedieL p) -> a < b -> raw_inverse l a < raw_inverse l b.
Proof.
  intros Hl Hab. destruct l as [p| | | |]; simpl; try lra.
  - exfalso; eapply Hl; eauto.
  - apply exp_increasing; auto.
  - unfold expit. assert (exp (-b) < exp (-a)) by (apply exp_increasing; lra).
    assert (0 < exp (-b)) by apply exp_pos.
    unfold Rdiv. rewrite !Rmult_1_l. apply Rinv_lt_contravar; [apply Rmult_lt_0_compat|]; lra.
  - unfold expm1. assert (exp a < exp b) by (apply exp_increasing; lra).
    assert (exp (- exp b) < exp (- exp a)) by (apply exp_increasing; lra). lra.
Qed.

Lemma inverse1_mono l a b : (forall p, l <> TweedieL p) -> a <= b -> inverse1 l a <= inverse1 l b.
Proof.
  intros Hl Hab. assert (Hr : raw_inverse l a <= raw_inverse l b).
  { destruct (Req_dec a b) as [->|]; [lra|]. left. apply raw_inverse_mono; auto. lra. }
  destruct l; auto; apply clip_mono; auto.
Qed.

Lemma link_inverse_range l lin mu :
  In mu (fst (link_inverse l lin)) ->
  match l with
  | IdentityL => True
  | LogL => 0 < mu
  | LogitL | CloglogL => eps50 <= mu <= 1 - eps50
  | TweedieL p => p <> 0 -> 0 < mu
  end.
Proof.
  rewrite link_inverse_elementwise. intros H. apply in_map_iff in H. destruct H as [e [<- _]].
  assert (He := eps50_bounds).
  destruct l as [p| | | |]; simpl; auto.
  - intros Hp. destruct (Req_EM_T p 0); [contradiction|]. 
    destruct (Req_EM_T p 1); apply exp_pos.
  - apply exp_pos.
  - apply clip_range. lra.
  - apply clip_range. lra.
Qed.

Lemma link_inverse_mono l lin i j a b ma mb :
  (forall p, l <> TweedieL p) ->
  nth_error lin i = Some a -> nth_error lin j = Some b -> a <= b ->
  nth_error (fst (link_inverse l lin)) i = Some ma ->
  nth_error (fst (link_inverse l lin)) j = Some mb -> ma <= mb.
Proof.
  intros Hl Ha Hb Hab Hma Hmb. rewrite link_inverse_elementwise in Hma, Hmb.
  erewrite map_nth_error in Hma by eauto. erewrite map_nth_error in Hmb by eauto.
  inversion Hma; inversion Hmb; subst. apply inverse1_mono; auto.
Qed.
