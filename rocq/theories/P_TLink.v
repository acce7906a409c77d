(** C87: the power link on linear predictors of any sign. *)
From Coq Require Import List ZArith Lia Lra. Import ListNotations.
From Verif Require Import Base M_Link S_Link L_Link M_TLink.
Import ListNotations. Local Open Scope R_scope. Local Open Scope list_scope.

(** The powers 2, 3/2, 4/3, ...: the ones whose inverse link is a whole (negative) power of the linear predictor. *)
Definition reciprocal_power (p : R) : Prop := exists n : nat, (1 <= n)%nat /\ p = 1 + / INR n.

Lemma is_int_spec e : is_int e = true <-> exists k : Z, e = IZR k.
Proof.
  unfold is_int. rewrite Reqb_true. split.
  - intros H. exists (Int_part e). symmetry. exact H.
  - intros [k ->]. f_equal. unfold Int_part.
    assert (E : (k + 1)%Z = up (IZR k)) by (apply tech_up; rewrite plus_IZR; lra). lia.
Qed.
Lemma int_part_IZR k : Int_part (IZR k) = k.
Proof. unfold Int_part. assert (E : (k + 1)%Z = up (IZR k)) by (apply tech_up; rewrite plus_IZR; lra). lia. Qed.

Lemma np_pos b e : 0 < b -> np_power b e = Some (XFin (Rpower b e)).
Proof. intros H. unfold np_power. destruct (Rltb 0 b) eqn:E; auto. apply Rltb_false in E. lra. Qed.
Lemma np_neg b e : b < 0 -> np_power b e = if is_int e then Some (XFin (powerRZ b (Int_part e))) else None.
Proof. intros H. unfold np_power. destruct (Rltb 0 b) eqn:E; [apply Rltb_true in E; lra|].
  destruct (Reqb b 0) eqn:E2; auto. apply Reqb_true in E2. lra. Qed.
Lemma np_neg_int b k : b < 0 -> np_power b (IZR k) = Some (XFin (powerRZ b k)).
Proof. intros H. rewrite np_neg by auto. rewrite (proj2 (is_int_spec _)) by eauto. now rewrite int_part_IZR. Qed.
Lemma np_none b e : np_power b e = None <-> b < 0 /\ forall k : Z, e <> IZR k.
Proof.
  destruct (Rlt_dec b 0) as [Hb|Hb].
  - rewrite np_neg by auto. destruct (is_int e) eqn:E.
    + split; [discriminate|]. intros [_ H]. apply is_int_spec in E as [k E]. now destruct (H k).
    + split; auto. intros _. split; auto. intros k H. assert (is_int e = true) by (apply is_int_spec; eauto). congruence.
  - split; [|intros [H _]; lra]. unfold np_power. destruct (Rltb 0 b) eqn:E1; [discriminate|].
    destruct (Reqb b 0) eqn:E2; [discriminate|]. apply Rltb_false in E1. apply Reqb_false in E2. lra.
Qed.

Lemma elementwise_none f l : elementwise f l = None <-> exists x, In x l /\ f x = None.
Proof.
  induction l as [|x l IH]; simpl.
  - split; [discriminate|intros [x [[] _]]].
  - destruct (f x) eqn:E.
    + destruct (elementwise f l).
      * split; [discriminate|]. intros [y [[<-|Hy] H]]; [congruence|]. exfalso. assert (Z : Some l0 = None) by (apply IH; eauto). discriminate Z.
      * split; auto. intros _. destruct (proj1 IH eq_refl) as [y [Hy H]]. eauto.
    + split; auto. intros _. eauto.
Qed.
Lemma elementwise_some f l ys : elementwise f l = Some ys ->
  length ys = length l /\ forall i x, nth_error l i = Some x -> exists y, nth_error ys i = Some y /\ f x = Some y.
Proof.
  revert ys. induction l as [|x l IH]; simpl; intros ys.
  - injection 1 as <-. split; auto. intros [|i] x; discriminate.
  - destruct (f x) eqn:E; [|discriminate]. destruct (elementwise f l) as [zs|]; [|discriminate].
    injection 1 as <-. destruct (IH _ eq_refl) as [HL H]. simpl. split; [lia|].
    intros [|i] y; simpl; [injection 1 as <-; eauto|apply H].
Qed.
Lemma elementwise_one f x : elementwise f (x :: nil) = match f x with Some y => Some (y :: nil) | None => None end.
Proof. simpl. now destruct (f x). Qed.

(** one element of each *)
Definition inv1 p eta := if Reqb p 0 then Some (XFin eta) else if Reqb p 1 then Some (XFin (exp eta)) else np_power eta (1 / (1 - p)).
Lemma inv1_eq p eta : p <> 0 -> p <> 1 -> inv1 p eta = np_power eta (1 / (1 - p)).
Proof. intros H0 H1. unfold inv1. destruct (Reqb p 0) eqn:E; [apply Reqb_true in E; lra|].
  destruct (Reqb p 1) eqn:E1; [apply Reqb_true in E1; lra|]. auto. Qed.
Definition der1 p eta := if Reqb p 0 then Some (XFin 1) else if Reqb p 1 then Some (XFin (exp eta))
  else option_map (xscale (1 / (1 - p))) (np_power eta (p / (1 - p))).
Lemma der1_eq p eta : p <> 0 -> p <> 1 -> der1 p eta = option_map (xscale (1 / (1 - p))) (np_power eta (p / (1 - p))).
Proof. intros H0 H1. unfold der1. destruct (Reqb p 0) eqn:E; [apply Reqb_true in E; lra|].
  destruct (Reqb p 1) eqn:E1; [apply Reqb_true in E1; lra|]. auto. Qed.
Definition der2 p eta := if Reqb p 0 then Some (XFin 0) else if Reqb p 1 then Some (XFin (exp eta))
  else option_map (xscale (p / (1 - p) ^ 2)) (np_power eta ((2 * p - 1) / (1 - p))).
Lemma der2_eq p eta : p <> 0 -> p <> 1 -> der2 p eta = option_map (xscale (p / (1 - p) ^ 2)) (np_power eta ((2 * p - 1) / (1 - p))).
Proof. intros H0 H1. unfold der2. destruct (Reqb p 0) eqn:E; [apply Reqb_true in E; lra|].
  destruct (Reqb p 1) eqn:E1; [apply Reqb_true in E1; lra|]. auto. Qed.

Lemma expo1 p : p <> 1 -> p / (1 - p) = 1 / (1 - p) - 1.
Proof. intros. field. lra. Qed.
Lemma expo2 p : p <> 1 -> (2 * p - 1) / (1 - p) = 1 / (1 - p) - 2.
Proof. intros. field. lra. Qed.
Lemma opt_none {A B} (f : A -> B) o : option_map f o = None <-> o = None.
Proof. destruct o; simpl; split; congruence. Qed.
Lemma shift_int e (c : Z) : (forall k, e - IZR c <> IZR k) <-> (forall k, e <> IZR k).
Proof.
  split; intros H k E.
  - apply (H (k - c)%Z). rewrite minus_IZR. lra.
  - apply (H (k + c)%Z). rewrite plus_IZR. lra.
Qed.
Lemma der_none p eta : (der1 p eta = None <-> inv1 p eta = None) /\ (der2 p eta = None <-> inv1 p eta = None).
Proof.
  destruct (Req_EM_T p 0) as [->|H0].
  { unfold inv1, der1, der2. replace (Reqb 0 0) with true by (symmetry; now apply Reqb_true). split; split; discriminate. }
  destruct (Req_EM_T p 1) as [->|H1].
  { unfold inv1, der1, der2. replace (Reqb 1 1) with true by (symmetry; now apply Reqb_true).
    destruct (Reqb 1 0); split; split; discriminate. }
  rewrite inv1_eq, der1_eq, der2_eq, !opt_none, !np_none, expo1, expo2 by auto.
  change 1 with (IZR 1) at 3. change 2 with (IZR 2). split.
  - rewrite (shift_int _ 1). tauto.
  - rewrite (shift_int _ 2). tauto.
Qed.

Lemma recip_int p : mk_tweedie_link p <> None -> p <> 0 -> p <> 1 ->
  (reciprocal_power p <-> exists k : Z, 1 / (1 - p) = IZR k).
Proof.
  intros Hc H0 H1. split.
  - intros [n [Hn ->]]. exists (- Z.of_nat n)%Z. rewrite opp_IZR, <- INR_IZR_INZ.
    assert (0 < INR n) by (apply lt_0_INR; lia). field. split; lra.
  - intros [k Hk].
    assert (Hp : p < 0 \/ 1 < p).
    { unfold mk_tweedie_link in Hc. destruct (Rlt_dec 0 p); [|lra]. destruct (Rlt_dec p 1); [congruence|lra]. }
    assert (Hk1 : IZR k * (1 - p) = 1) by (rewrite <- Hk; field; lra).
    assert (Hneg : (k < 0)%Z).
    { destruct (Z_lt_le_dec k 0) as [|Hge]; auto. exfalso.
      destruct (Z.eq_dec k 0) as [->|]; [lra|]. assert (1 <= IZR k) by (apply IZR_le; lia).
      destruct Hp; nra. }
    exists (Z.to_nat (- k)). split; [lia|].
    rewrite INR_IZR_INZ, Z2Nat.id by lia. rewrite opp_IZR.
    assert (IZR k < 0) by (apply IZR_lt; lia). apply (Rmult_eq_reg_l (IZR k)); [|lra].
    replace (IZR k * (1 + / - IZR k)) with (IZR k - 1) by (field; lra). lra.
Qed.

(** C87 *)
(** Which predictors raise ValueError: exactly those with a negative entry, unless the power is 2, 3/2, 4/3, ... *)
Theorem C87_accepts :
  forall (p : R) (lin : list R), mk_tweedie_link p <> None -> p <> 0 -> p <> 1 ->
    (tw_inverse p lin = None <-> (exists eta, In eta lin /\ eta < 0) /\ ~ reciprocal_power p).
Proof.
  intros p lin Hc H0 H1. unfold tw_inverse. rewrite elementwise_none, (recip_int p Hc H0 H1).
  split.
  - intros (x & Hx & H). change (inv1 p x = None) in H. rewrite inv1_eq, np_none in H by auto.
    destruct H as [Hn Hk]. split; eauto. intros [k Hk']. exact (Hk k Hk').
  - intros [(x & Hx & Hn) H]. exists x. split; auto. change (inv1 p x = None). rewrite inv1_eq, np_none by auto.
    split; auto. intros k E. apply H. eauto.
Qed.
Print Assumptions C87_accepts.

(** powers 0 and 1 accept everything *)
Theorem C87_accepts_all :
  forall (lin : list R), tw_inverse 0 lin = Some (map XFin lin) /\ tw_inverse 1 lin = Some (map (fun x => XFin (exp x)) lin).
Proof.
  intros lin. unfold tw_inverse.
  replace (Reqb 0 0) with true by (symmetry; now apply Reqb_true).
  replace (Reqb 1 1) with true by (symmetry; now apply Reqb_true).
  replace (Reqb 1 0) with false by (symmetry; apply Reqb_false; lra).
  induction lin as [|x l [IH1 IH2]]; [auto|]. cbn [elementwise map]. rewrite IH1, IH2. auto.
Qed.
Print Assumptions C87_accepts_all.

(** The three methods raise on the same predictors. *)
Theorem C87_together :
  forall (p : R) (lin : list R),
    (tw_inverse_derivative p lin = None <-> tw_inverse p lin = None) /\
    (tw_inverse_derivative2 p lin = None <-> tw_inverse p lin = None).
Proof.
  intros p lin. unfold tw_inverse, tw_inverse_derivative, tw_inverse_derivative2. rewrite !elementwise_none.
  split; split; intros (x & Hx & H); exists x; (split; [exact Hx|]).
  - exact (proj1 (proj1 (der_none p x)) H).
  - exact (proj2 (proj1 (der_none p x)) H).
  - exact (proj1 (proj2 (der_none p x)) H).
  - exact (proj2 (proj2 (der_none p x)) H).
Qed.
Print Assumptions C87_together.

(** On positive predictors nothing changes with respect to C01-C03. *)
Theorem C87_positive :
  forall (p : R) (lin : list R), (p <> 0 -> p <> 1 -> forall eta, In eta lin -> 0 < eta) ->
    tw_inverse p lin = Some (map XFin (fst (link_inverse (TweedieL p) lin))) /\
    tw_inverse_derivative p lin = Some (map (fun eta => XFin (inverse_derivative (TweedieL p) eta)) lin) /\
    tw_inverse_derivative2 p lin = Some (map (fun eta => XFin (inverse_derivative2 (TweedieL p) eta)) lin).
Proof.
  intros p lin Hd. cbn [link_inverse fst]. rewrite map_map.
  unfold tw_inverse, tw_inverse_derivative, tw_inverse_derivative2.
  assert (H : forall eta, In eta lin -> inv1 p eta = Some (XFin (raw_inverse (TweedieL p) eta)) /\
     der1 p eta = Some (XFin (inverse_derivative (TweedieL p) eta)) /\
     der2 p eta = Some (XFin (inverse_derivative2 (TweedieL p) eta))).
  { intros eta Hi. unfold inv1, der1, der2, raw_inverse, inverse_derivative, inverse_derivative2.
    destruct (Req_EM_T p 0) as [E|H0].
    { replace (Reqb p 0) with true by (symmetry; now apply Reqb_true). auto. }
    replace (Reqb p 0) with false by (symmetry; now apply Reqb_false).
    destruct (Req_EM_T p 1) as [E|H1].
    { replace (Reqb p 1) with true by (symmetry; now apply Reqb_true). auto. }
    replace (Reqb p 1) with false by (symmetry; now apply Reqb_false).
    rewrite !np_pos by (apply Hd; auto). cbn [option_map xscale]. repeat split. now rewrite Rmult_comm. }
  clear Hd. induction lin as [|x l IH]; [auto|].
  destruct (IH (fun e He => H e (or_intror He))) as (I1 & I2 & I3).
  destruct (H x (or_introl eq_refl)) as (J1 & J2 & J3).
  cbn [elementwise map]. rewrite I1, I2, I3.
  unfold inv1 in J1. unfold der1 in J2. unfold der2 in J3. rewrite J1, J2, J3. auto.
Qed.
Print Assumptions C87_positive.

(** Row by row: the answer for an array is the answer for each of its rows. *)
Theorem C87_rowwise :
  forall (p : R) (lin : list R) (ms : list xr), tw_inverse p lin = Some ms ->
    length ms = length lin /\
    forall i eta, nth_error lin i = Some eta -> exists m, nth_error ms i = Some m /\ tw_inverse p (eta :: nil) = Some (m :: nil).
Proof.
  intros p lin ms H. apply elementwise_some in H as [HL H]. split; auto. intros i eta Hi.
  destruct (H _ _ Hi) as (m & Hm & E). exists m. split; auto. unfold tw_inverse. rewrite elementwise_one.
  match goal with |- context [match ?x with _ => _ end] => replace x with (Some m) end. reflexivity.
Qed.
Print Assumptions C87_rowwise.

(** A zero predictor: mean 0 when the power is negative, +infinity when it is above 1; never an error. *)
Theorem C87_zero :
  forall p : R, p <> 0 -> p <> 1 ->
    tw_inverse p (0 :: nil) = Some ((if Rltb p 1 then XFin 0 else XInf) :: nil).
Proof.
  intros p H0 H1. unfold tw_inverse. rewrite elementwise_one. change (match inv1 p 0 with Some y => Some (y :: nil) | None => None end = Some ((if Rltb p 1 then XFin 0 else XInf) :: nil)).
  rewrite inv1_eq by auto. unfold np_power.
  replace (Rltb 0 0) with false by (symmetry; apply Rltb_false; lra).
  replace (Reqb 0 0) with true by (symmetry; now apply Reqb_true).
  destruct (Rltb p 1) eqn:E.
  - apply Rltb_true in E. replace (Rltb 0 (1 / (1 - p))) with true; auto.
    symmetry. apply Rltb_true. apply Rdiv_lt_0_compat; lra.
  - apply Rltb_false in E. assert (Hn : 1 / (1 - p) < 0).
    { replace (1 / (1 - p)) with (- (1 / (p - 1))) by (field; lra).
      assert (0 < 1 / (p - 1)) by (apply Rdiv_lt_0_compat; lra). lra. }
    replace (Rltb 0 (1 / (1 - p))) with false by (symmetry; apply Rltb_false; lra).
    replace (Reqb (1 / (1 - p)) 0) with false by (symmetry; apply Reqb_false; lra). reflexivity.
Qed.
Print Assumptions C87_zero.

(** ... and both derivatives are 0 or infinite there (or 2, for the second derivative of the square): infinite exactly when the mean has a
    vertical tangent or a pole at 0.  (In the code the infinity carries the sign of its factor, which is not modelled.) *)
Theorem C87_zero_derivatives : forall p : R, p <> 0 -> p <> 1 ->
  (0 < p < 1 -> tw_inverse_derivative p (0 :: nil) = Some (XFin 0 :: nil)) /\
  (p < 0 \/ 1 < p -> tw_inverse_derivative p (0 :: nil) = Some (XInf :: nil)) /\
  (1 / 2 < p < 1 -> tw_inverse_derivative2 p (0 :: nil) = Some (XFin 0 :: nil)) /\
  (p = 1 / 2 -> tw_inverse_derivative2 p (0 :: nil) = Some (XFin 2 :: nil)) /\
  (p < 1 / 2 \/ 1 < p -> tw_inverse_derivative2 p (0 :: nil) = Some (XInf :: nil)).
Proof.
  intros p H0 H1. unfold tw_inverse_derivative, tw_inverse_derivative2. rewrite !elementwise_one.
  change (if Reqb p 0 then Some (XFin 1) else if Reqb p 1 then Some (XFin (exp 0)) else option_map (xscale (1 / (1 - p))) (np_power 0 (p / (1 - p)))) with (der1 p 0).
  change (if Reqb p 0 then Some (XFin 0) else if Reqb p 1 then Some (XFin (exp 0)) else option_map (xscale (p / (1 - p) ^ 2)) (np_power 0 ((2 * p - 1) / (1 - p)))) with (der2 p 0).
  rewrite der1_eq, der2_eq by assumption.
  assert (NP : forall e, np_power 0 e = Some (if Rltb 0 e then XFin 0 else if Reqb e 0 then XFin 1 else XInf)).
  { intros e. unfold np_power. replace (Rltb 0 0) with false by (symmetry; apply Rltb_false; lra). replace (Reqb 0 0) with true by (symmetry; now apply Reqb_true). reflexivity. }
  rewrite !NP. cbn [option_map].
  assert (POS : forall a, 0 < a -> (if Rltb 0 a then XFin 0 else if Reqb a 0 then XFin 1 else XInf) = XFin 0).
  { intros a Ha. replace (Rltb 0 a) with true by (symmetry; now apply Rltb_true). reflexivity. }
  assert (NEG : forall a, a < 0 -> (if Rltb 0 a then XFin 0 else if Reqb a 0 then XFin 1 else XInf) = XInf).
  { intros a Ha. replace (Rltb 0 a) with false by (symmetry; apply Rltb_false; lra). replace (Reqb a 0) with false by (symmetry; apply Reqb_false; lra). reflexivity. }
  assert (E1 : p / (1 - p) * (1 - p) = p) by (field; lra). assert (E2 : (2 * p - 1) / (1 - p) * (1 - p) = 2 * p - 1) by (field; lra).
  repeat split.
  - intros Hp. rewrite POS by (apply Rdiv_lt_0_compat; lra). cbn [xscale]. now rewrite Rmult_0_r.
  - intros Hp. rewrite NEG by nra. reflexivity.
  - intros Hp. rewrite POS by (apply Rdiv_lt_0_compat; lra). cbn [xscale]. now rewrite Rmult_0_r.
  - intros ->. replace ((2 * (1 / 2) - 1) / (1 - 1 / 2)) with 0 by field. replace (Rltb 0 0) with false by (symmetry; apply Rltb_false; lra).
    replace (Reqb 0 0) with true by (symmetry; now apply Reqb_true). cbn [xscale]. do 3 f_equal. field.
  - intros Hp. rewrite NEG by nra. reflexivity.
Qed.
Print Assumptions C87_zero_derivatives.

(** The accepted negative predictors: the mean is 1 / eta^n. *)
Lemma recip_ne n : (1 <= n)%nat -> 0 < INR n /\ 1 + / INR n <> 0 /\ 1 + / INR n <> 1 /\
   1 / (1 - (1 + / INR n)) = IZR (- Z.of_nat n).
Proof.
  intros Hn. assert (H : 0 < INR n) by (apply lt_0_INR; lia). assert (0 < / INR n) by (now apply Rinv_0_lt_compat).
  rewrite opp_IZR, <- INR_IZR_INZ. repeat split; try lra. field. split; lra.
Qed.
Lemma powerRZ_neg_nat b n : b <> 0 -> powerRZ b (- Z.of_nat n) = / b ^ n.
Proof. intros Hb. rewrite powerRZ_neg' by auto. now rewrite <- pow_powerRZ. Qed.
Theorem C87_negative_value :
  forall (n : nat) (eta : R), (1 <= n)%nat -> eta < 0 ->
    tw_inverse (1 + / INR n) (eta :: nil) = Some (XFin (/ eta ^ n) :: nil).
Proof.
  intros n eta Hn He. destruct (recip_ne n Hn) as (Hp & H0 & H1 & Hk). unfold tw_inverse. rewrite elementwise_one.
  change (match inv1 (1 + / INR n) eta with Some y => Some (y :: nil) | None => None end = Some (XFin (/ eta ^ n) :: nil)).
  rewrite inv1_eq, Hk, np_neg_int, powerRZ_neg_nat by lra. reflexivity.
Qed.
Print Assumptions C87_negative_value.

Lemma neg_pow_even b n : Nat.even n = true -> b ^ n = (- b) ^ n.
Proof. intros H. apply Nat.even_spec in H as [m ->]. rewrite !pow_mult. f_equal. ring. Qed.
Lemma neg_pow_odd b n : Nat.even n = false -> b ^ n = - (- b) ^ n.
Proof. intros H. assert (O : Nat.Odd n) by (apply Nat.odd_spec; unfold Nat.odd; now rewrite H).
  destruct O as [m ->]. rewrite !pow_add, !pow_mult. replace ((- b) ^ 2) with (b ^ 2) by ring. ring. Qed.
Lemma no_recip_int n : (2 <= n)%nat -> forall k : Z, 1 - (1 + / INR n) <> IZR k.
Proof.
  intros Hn k E. assert (H : 1 < INR n) by (apply (lt_INR 1); lia).
  assert (Hi : 0 < / INR n < 1). { split; [apply Rinv_0_lt_compat; lra|]. rewrite <- Rinv_1. apply Rinv_lt_contravar; lra. }
  assert (IZR k < 0) by lra. assert (k <= -1)%Z by (apply lt_IZR in H0; lia). apply IZR_le in H1. lra.
Qed.

(** Applying the link to such a mean gives the predictor back only for power 2. *)
Theorem C87_roundtrip :
  forall (n : nat) (eta m : R), (1 <= n)%nat -> eta < 0 ->
    tw_inverse (1 + / INR n) (eta :: nil) = Some (XFin m :: nil) ->
    (n = 1%nat -> m < 0 /\ tw_link (1 + / INR n) m = Some (XFin eta)) /\
    (Nat.even n = true -> 0 < m /\ tw_link (1 + / INR n) m = Some (XFin (- eta))) /\
    (Nat.even n = false -> n <> 1%nat -> m < 0 /\ tw_link (1 + / INR n) m = None).
Proof.
  intros n eta m Hn He Hm. rewrite C87_negative_value in Hm by auto. injection Hm as <-.
  destruct (recip_ne n Hn) as (Hp & H0 & H1 & Hk).
  assert (HL : forall mu, tw_link (1 + / INR n) mu = np_power mu (1 - (1 + / INR n))).
  { intros mu. unfold tw_link. replace (Reqb (1 + / INR n) 0) with false by (symmetry; now apply Reqb_false).
    replace (Reqb (1 + / INR n) 1) with false by (symmetry; now apply Reqb_false). reflexivity. }
  rewrite HL. assert (Hpos : 0 < (- eta) ^ n) by (apply pow_lt; lra).
  assert (Hodd : Nat.even n = false -> / eta ^ n < 0).
  { intros E. rewrite (neg_pow_odd eta n E), <- Ropp_inv_permute by lra.
    assert (0 < / (- eta) ^ n) by (now apply Rinv_0_lt_compat). lra. }
  repeat split.
  - apply Hodd. now subst.
  - subst n. simpl INR. replace (1 - (1 + / 1)) with (IZR (-1)) by (simpl; lra).
    assert (Hi : / eta ^ 1 < 0) by (apply Hodd; reflexivity). rewrite np_neg_int by auto. do 2 f_equal. simpl. field. lra.
  - rewrite (neg_pow_even eta n) by auto. now apply Rinv_0_lt_compat.
  - rewrite (neg_pow_even eta n) by auto. rewrite np_pos by (now apply Rinv_0_lt_compat). do 2 f_equal.
    rewrite <- Rpower_pow by lra. rewrite <- Rpower_Ropp, Rpower_mult.
    replace (- INR n * (1 - (1 + / INR n))) with 1 by (field; lra). rewrite Rpower_1 by lra. reflexivity.
  - now apply Hodd.
  - apply np_none. split; [now apply Hodd|]. apply no_recip_int. lia.
Qed.
Print Assumptions C87_roundtrip.

(** The reported derivatives are the derivatives of the values, for predictors of either sign. *)
Lemma inv_one p eta v : tw_inverse p (eta :: nil) = Some (v :: nil) <-> inv1 p eta = Some v.
Proof. unfold tw_inverse. rewrite elementwise_one. change ((match inv1 p eta with Some y => Some (y :: nil) | None => None end = Some (v :: nil)) <-> inv1 p eta = Some v).
  destruct (inv1 p eta); split; try congruence. Qed.
Lemma der_one p eta v : tw_inverse_derivative p (eta :: nil) = Some (v :: nil) <-> der1 p eta = Some v.
Proof. unfold tw_inverse_derivative. rewrite elementwise_one. change ((match der1 p eta with Some y => Some (y :: nil) | None => None end = Some (v :: nil)) <-> der1 p eta = Some v).
  destruct (der1 p eta); split; try congruence. Qed.
Lemma der2_one p eta v : tw_inverse_derivative2 p (eta :: nil) = Some (v :: nil) <-> der2 p eta = Some v.
Proof. unfold tw_inverse_derivative2. rewrite elementwise_one. change ((match der2 p eta with Some y => Some (y :: nil) | None => None end = Some (v :: nil)) <-> der2 p eta = Some v).
  destruct (der2 p eta); split; try congruence. Qed.

Lemma is_derive_inv_pow n x : x <> 0 -> is_derive (fun t => / t ^ n) x (- INR n * / x ^ (S n)).
Proof.
  intros Hx. evar_last.
  - apply (is_derive_inv (fun t => t ^ n) x). + apply (is_derive_pow (fun t => t) n x 1). apply @is_derive_id. + apply pow_nonzero. exact Hx.
  - assert (x ^ n <> 0) by (apply pow_nonzero; auto).
    destruct n as [|n]; [simpl; field; auto|].
    replace (Nat.pred (S n)) with n by reflexivity. assert (x ^ n <> 0) by (apply pow_nonzero; auto).
    cbn [pow] in *. field. split; auto.
Qed.
Lemma near_pos x : 0 < x -> locally x (fun t => 0 < t).
Proof. intros H. exists (mkposreal x H). intros y Hy. unfold ball in Hy; simpl in Hy. unfold AbsRing_ball, abs, minus, plus, opp in Hy; simpl in Hy.
  apply Rabs_def2 in Hy. simpl in *. lra. Qed.
Lemma near_neg x : x < 0 -> locally x (fun t => t < 0).
Proof. intros H. assert (H' : 0 < - x) by lra. exists (mkposreal (- x) H'). intros y Hy. unfold ball in Hy; simpl in Hy. unfold AbsRing_ball, abs, minus, plus, opp in Hy; simpl in Hy.
  apply Rabs_def2 in Hy. simpl in *. lra. Qed.
Lemma near_any x : locally x (fun _ : R => True).
Proof. exists (mkposreal 1 Rlt_0_1). auto. Qed.

Theorem C87_derivative :
  forall (p eta : R) (f : R -> R), mk_tweedie_link p <> None -> (p <> 0 -> p <> 1 -> eta <> 0) ->
    locally eta (fun x => tw_inverse p (x :: nil) = Some (XFin (f x) :: nil)) ->
    exists d, tw_inverse_derivative p (eta :: nil) = Some (XFin d :: nil) /\ is_derive f eta d.
Proof.
  intros p eta f Hc Hz Hf.
  assert (Hcase : (p <> 0 -> p <> 1 -> 0 < eta) \/ (p <> 0 /\ p <> 1 /\ eta < 0)).
  { destruct (Req_EM_T p 0); [left; intros; lra|]. destruct (Req_EM_T p 1); [left; intros; lra|].
    specialize (Hz n n0). destruct (Rtotal_order eta 0) as [|[|]]; [right|lra|left]; auto. }
  destruct Hcase as [Hpos|(H0 & H1 & Hneg)].
  - exists (inverse_derivative (TweedieL p) eta). split.
    { apply (C87_positive p (eta :: nil)). intros A B e [<-|[]]. auto. }
    apply (is_derive_ext_loc (raw_inverse (TweedieL p))).
    + assert (Hl : locally eta (fun t => p <> 0 -> p <> 1 -> 0 < t)).
      { destruct (Req_EM_T p 0); [apply filter_imp with (2 := near_any eta); intros; lra|].
        destruct (Req_EM_T p 1); [apply filter_imp with (2 := near_any eta); intros; lra|].
        apply filter_imp with (2 := near_pos eta (Hpos n n0)). auto. }
      apply (filter_imp (fun t => (p <> 0 -> p <> 1 -> 0 < t) /\ tw_inverse p (t :: nil) = Some (XFin (f t) :: nil))); [|now apply filter_and].
      intros t [Ht E]. destruct (C87_positive p (t :: nil)) as [E' _]; [intros A B e [<-|[]]; auto|].
      rewrite E' in E. cbn in E. injection E as E. exact E.
    + apply is_derive_inverse. simpl. destruct (Req_EM_T p 0); [intros; lra|]. destruct (Req_EM_T p 1); intros; auto.
  - assert (Hr : reciprocal_power p).
    { apply recip_int; auto. apply locally_singleton in Hf. apply inv_one in Hf. rewrite inv1_eq, np_neg in Hf by auto.
      destruct (is_int (1 / (1 - p))) eqn:E; [|discriminate]. now apply is_int_spec. }
    destruct Hr as (n & Hn & ->). destruct (recip_ne n Hn) as (Hp & _ & _ & Hk).
    exists (- INR n * / eta ^ (S n)). split.
    + apply der_one. rewrite der1_eq, expo1 by auto. rewrite Hk. change 1 with (IZR 1). rewrite <- minus_IZR.
      replace (- Z.of_nat n - 1)%Z with (- Z.of_nat (S n))%Z by lia. rewrite np_neg_int by auto.
      rewrite powerRZ_neg_nat by lra. cbn [option_map xscale]. rewrite opp_IZR, <- INR_IZR_INZ. reflexivity.
    + apply (is_derive_ext_loc (fun t => / t ^ n)); [|apply is_derive_inv_pow; lra].
      apply (filter_imp (fun t => t < 0 /\ tw_inverse (1 + / INR n) (t :: nil) = Some (XFin (f t) :: nil))).
      * intros t [Ht E]. rewrite C87_negative_value in E by auto. now injection E as E.
      * apply filter_and; [now apply near_neg|exact Hf].
Qed.
Print Assumptions C87_derivative.

Theorem C87_derivative2 :
  forall (p eta : R) (f : R -> R), mk_tweedie_link p <> None -> (p <> 0 -> p <> 1 -> eta <> 0) ->
    locally eta (fun x => tw_inverse_derivative p (x :: nil) = Some (XFin (f x) :: nil)) ->
    exists d, tw_inverse_derivative2 p (eta :: nil) = Some (XFin d :: nil) /\ is_derive f eta d.
Proof.
  intros p eta f Hc Hz Hf.
  assert (Hcase : (p <> 0 -> p <> 1 -> 0 < eta) \/ (p <> 0 /\ p <> 1 /\ eta < 0)).
  { destruct (Req_EM_T p 0); [left; intros; lra|]. destruct (Req_EM_T p 1); [left; intros; lra|].
    specialize (Hz n n0). destruct (Rtotal_order eta 0) as [|[|]]; [right|lra|left]; auto. }
  destruct Hcase as [Hpos|(H0 & H1 & Hneg)].
  - exists (inverse_derivative2 (TweedieL p) eta). split.
    { apply (C87_positive p (eta :: nil)). intros A B e [<-|[]]. auto. }
    apply (is_derive_ext_loc (inverse_derivative (TweedieL p))).
    + assert (Hl : locally eta (fun t => p <> 0 -> p <> 1 -> 0 < t)).
      { destruct (Req_EM_T p 0); [apply filter_imp with (2 := near_any eta); intros; lra|].
        destruct (Req_EM_T p 1); [apply filter_imp with (2 := near_any eta); intros; lra|].
        apply filter_imp with (2 := near_pos eta (Hpos n n0)). auto. }
      apply (filter_imp (fun t => (p <> 0 -> p <> 1 -> 0 < t) /\ tw_inverse_derivative p (t :: nil) = Some (XFin (f t) :: nil))); [|now apply filter_and].
      intros t [Ht E]. destruct (C87_positive p (t :: nil)) as (_ & E' & _); [intros A B e [<-|[]]; auto|].
      rewrite E' in E. cbn [map] in E. injection E as E. exact E.
    + apply is_derive_inverse2. simpl. destruct (Req_EM_T p 0); [intros; lra|]. destruct (Req_EM_T p 1); intros; auto.
  - assert (Hr : reciprocal_power p).
    { apply recip_int; auto. apply locally_singleton in Hf. apply der_one in Hf.
      assert (Hi : inv1 p eta <> None). { intros E. apply (proj1 (der_none p eta)) in E. congruence. }
      rewrite inv1_eq, np_neg in Hi by auto.
      destruct (is_int (1 / (1 - p))) eqn:E; [|congruence]. now apply is_int_spec. }
    destruct Hr as (n & Hn & ->). destruct (recip_ne n Hn) as (Hp & _ & _ & Hk).
    assert (Hd : forall t, t < 0 -> tw_inverse_derivative (1 + / INR n) (t :: nil) = Some (XFin (- INR n * / t ^ (S n)) :: nil)).
    { intros t Ht. apply der_one. rewrite der1_eq, expo1 by auto. rewrite Hk. change 1 with (IZR 1). rewrite <- minus_IZR.
      replace (- Z.of_nat n - 1)%Z with (- Z.of_nat (S n))%Z by lia. rewrite np_neg_int by auto.
      rewrite powerRZ_neg_nat by lra. cbn [option_map xscale]. rewrite opp_IZR, <- INR_IZR_INZ. reflexivity. }
    exists (- INR n * (- INR (S n) * / eta ^ (S (S n)))). split.
    + apply der2_one. rewrite der2_eq, expo2 by auto. rewrite Hk. change 2 with (IZR 2). rewrite <- minus_IZR.
      replace (- Z.of_nat n - 2)%Z with (- Z.of_nat (S (S n)))%Z by lia. rewrite np_neg_int by auto.
      rewrite powerRZ_neg_nat by lra. cbn [option_map xscale]. do 2 f_equal. rewrite S_INR.
      assert (eta ^ S (S n) <> 0) by (apply pow_nonzero; lra). field. split; [auto|lra].
    + apply (is_derive_ext_loc (fun t => - INR n * / t ^ (S n))); [|apply (is_derive_scal (fun t => / t ^ S n)); apply is_derive_inv_pow; lra].
      apply (filter_imp (fun t => t < 0 /\ tw_inverse_derivative (1 + / INR n) (t :: nil) = Some (XFin (f t) :: nil))).
      * intros t [Ht E]. rewrite Hd in E by auto. now injection E as E.
      * apply filter_and; [now apply near_neg|exact Hf].
Qed.
Print Assumptions C87_derivative2.

(** Means need not be positive, and different predictors may share a mean: the English claim "the inverse of a power
    link with p <> 0 returns positive means, one predictor per mean, or raises" is false. *)
Theorem C87_mean_range_refuted :
  (exists eta m, eta < 0 /\ tw_inverse 2 (eta :: nil) = Some (XFin m :: nil) /\ m < 0) /\
  (exists a b m, a <> b /\ tw_inverse (3 / 2) [a; b] = Some [XFin m; XFin m]).
Proof.
  split.
  - exists (-1), (-1). repeat split; try lra. assert (H := C87_negative_value 1 (-1) (le_n _) ltac:(lra)).
    replace (1 + / INR 1) with 2 in H by (simpl; lra). rewrite H. do 3 f_equal. simpl. field.
  - exists (-2), 2, (/ 4). split; [lra|]. unfold tw_inverse. cbn [elementwise].
    replace (Reqb (3 / 2) 0) with false by (symmetry; apply Reqb_false; lra).
    replace (Reqb (3 / 2) 1) with false by (symmetry; apply Reqb_false; lra).
    replace (1 / (1 - 3 / 2)) with (IZR (-2)) by lra. rewrite np_neg_int, np_pos by lra. replace (powerRZ (-2) (-2)) with (/ 4) by (simpl; field).
    replace (IZR (-2)) with (- INR 2) by (simpl; lra). rewrite Rpower_Ropp, Rpower_pow by lra.
    replace (/ 2 ^ 2) with (/ 4) by (simpl; field). reflexivity.
Qed.
Print Assumptions C87_mean_range_refuted.

(** non-vacuity: a power that raises, one that does not, and a neighbourhood as the derivative theorems ask for *)
Example C87_ex_raises : tw_inverse (-1) [1; -1] = None.
Proof.
  apply C87_accepts; [unfold mk_tweedie_link; destruct (Rlt_dec 0 (-1)); [lra|discriminate]|lra|lra|].
  split; [exists (-1); simpl; split; [auto|lra]|]. intros (n & Hn & E).
  assert (0 < / INR n) by (apply Rinv_0_lt_compat, lt_0_INR; lia). lra.
Qed.
Example C87_ex_near : mk_tweedie_link 2 <> None /\
  locally (-3) (fun x => tw_inverse 2 (x :: nil) = Some (XFin (/ x) :: nil)).
Proof.
  split; [unfold mk_tweedie_link; destruct (Rlt_dec 0 2), (Rlt_dec 2 1); try discriminate; lra|].
  apply filter_imp with (2 := near_neg (-3) ltac:(lra)). intros x Hx.
  assert (H := C87_negative_value 1 x (le_n _) Hx). replace (1 + / INR 1) with 2 in H by (simpl; lra).
  etransitivity; [exact H|]. do 3 f_equal. simpl. now rewrite Rmult_1_r.
Qed.
