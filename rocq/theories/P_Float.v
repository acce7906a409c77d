(** Theorems C82: the parameters of TweedieDistribution, TweedieLink and NegativeBinomialDistribution as stored. *)
From Coq Require Import Reals ZArith Lra Lia.
From Flocq Require Import Core.
From Verif Require Import Base M_Dist M_Float S_Float L_Float.
Local Open Scope R_scope.

Ltac num := unfold is_number; discriminate.
Lemma P24 : (1 < 24)%Z. Proof. lia. Qed.
Lemma f32_int z : (Z.abs z < 2 ^ 24)%Z -> float32 (IZR z).
Proof. intros H. exists z, 0%Z. split; [exact H|]. split; [lia|]. cbn. ring. Qed.
Lemma max32_float : float32 max32.
Proof. exists 1%Z, 128%Z. split; [reflexivity|]. split; [lia|]. unfold max32. rewrite bpow_powerRZ, Rmult_1_l. reflexivity. Qed.
(** the stored number of a finite value in terms of the rounding *)
Lemma cast_fin x : to_float32 (Fin x) = Fin (rnd32 x) /\ Rabs (rnd32 x) < max32 \/
  to_float32 (Fin x) = PInf /\ 0 < x /\ max32 <= rnd32 x \/ to_float32 (Fin x) = NInf /\ x < 0 /\ rnd32 x <= - max32.
Proof.
  unfold to_float32. destruct (Rltb (Rabs (rnd32 x)) max32) eqn:E.
  - left. apply Rltb_true in E. auto.
  - right. apply Rltb_false in E. assert (M : 0 < max32) by apply bpow_gt_0. destruct (Rltb 0 x) eqn:Z.
    + left. apply Rltb_true in Z. split; [reflexivity|]. split; [exact Z|].
      rewrite Rabs_right in E by (apply Rle_ge, (rnd_nonneg 24 (-149) P24); lra). exact E.
    + right. apply Rltb_false in Z. pose proof (rnd_nonpos 24 (-149) P24 x Z) as N. fold rnd32 in N.
      rewrite Rabs_left1 in E by exact N. split; [reflexivity|]. split; [|lra].
      destruct Z as [Z|Z]; [exact Z|]. subst x. unfold rnd32 in E. rewrite rnd_0 in E. lra.
Qed.
Lemma cast_idem v : cast32 (cast32 v) = cast32 v.
Proof.
  destruct v as [z|w|]; [reflexivity| |reflexivity]. destruct w as [x| | |]; try reflexivity. cbn [cast32].
  destruct (cast_fin x) as [[E B]|[[E _]|[E _]]]; rewrite E; try reflexivity.
  unfold to_float32. assert (I : rnd32 (rnd32 x) = rnd32 x) by (apply (rnd_id 24 (-149) P24), (rnd_float 24 (-149) P24)).
  rewrite I, (proj2 (Rltb_true _ _)) by exact B. reflexivity.
Qed.

(** Which powers are accepted. (NaN is: all comparisons with it are False.) *)
Theorem C82_power_accepted : forall v,
  (set_power v = TypeErr <-> ~ is_number v) /\
  (set_power v = ValueErr <-> exists x, value v = Some x /\ 0 < x < 1) /\
  (forall w, set_power v = Stored w <-> w = cast32 v /\ is_number v /\ forall x, value v = Some x -> x <= 0 \/ 1 <= x).
Proof.
  intros v. destruct v as [z|w|].
  - cbn. destruct (Rltb 0 (IZR z)) eqn:A, (Rltb (IZR z) 1) eqn:B; cbn;
      rewrite ?Rltb_true, ?Rltb_false in A; rewrite ?Rltb_true, ?Rltb_false in B.
    1:{ exfalso. apply lt_IZR in A, B. lia. }
    1-3: (split; [split; [intros Q; discriminate Q|intros H; exfalso; apply H; num]|]; split;
      [split; [discriminate|intros [x [E H]]; injection E as <-; lra]|];
      intros w; split; [intros E; injection E as <-; split; [reflexivity|]; split; [num|]; intros x E; injection E as <-; lra|intros [-> _]; reflexivity]).
  - cbn. destruct w as [x| | |]; cbn.
    + destruct (Rltb 0 x) eqn:A, (Rltb x 1) eqn:B; cbn; rewrite ?Rltb_true, ?Rltb_false in A; rewrite ?Rltb_true, ?Rltb_false in B.
      1:{ split; [split; [intros Q; discriminate Q|intros H; exfalso; apply H; num]|]. split.
          - split; [intros _; exists x; auto|reflexivity].
          - intros w. split; [discriminate|]. intros [_ [_ H]]. destruct (H x eq_refl); lra. }
      1-3: (split; [split; [intros Q; discriminate Q|intros H; exfalso; apply H; num]|]; split;
        [split; [discriminate|intros [y [E H]]; injection E as <-; lra]|];
        intros w; split; [intros E; injection E as <-; split; [reflexivity|]; split; [num|]; intros y E; injection E as <-; lra|intros [-> _]; reflexivity]).
    + split; [split; [intros Q; discriminate Q|intros H; exfalso; apply H; num]|]; split;
        [split; [discriminate|intros [y [E H]]; discriminate]|];
        intros w; split; [intros E; injection E as <-; split; [reflexivity|]; split; [num|]; intros y E; discriminate|intros [-> _]; reflexivity].
    + split; [split; [intros Q; discriminate Q|intros H; exfalso; apply H; num]|]; split;
        [split; [discriminate|intros [y [E H]]; discriminate]|];
        intros w; split; [intros E; injection E as <-; split; [reflexivity|]; split; [num|]; intros y E; discriminate|intros [-> _]; reflexivity].
    + split; [split; [intros Q; discriminate Q|intros H; exfalso; apply H; num]|]; split;
        [split; [discriminate|intros [y [E H]]; discriminate]|];
        intros w; split; [intros E; injection E as <-; split; [reflexivity|]; split; [num|]; intros y E; discriminate|intros [-> _]; reflexivity].
  - cbn. split; [split; [intros _ H; apply H; reflexivity|reflexivity]|]. split.
    + split; [discriminate|]. intros [x [E _]]. discriminate.
    + intros w. split; [discriminate|]. intros [_ [H _]]. exfalso. apply H. reflexivity.
Qed.
Print Assumptions C82_power_accepted.

(** What is stored: ints as they are, other numbers as the nearest binary32 number (or infinity beyond the
    largest); the stored power is admissible again, and storing it again changes nothing. *)
Theorem C82_stored_power : forall v w, set_power v = Stored w ->
  (forall z, v = PyInt z -> w = v) /\
  (forall x y, v = PyNum (Fin x) -> w = PyNum (Fin y) -> nearest float32 x y) /\
  (forall x, v = PyNum (Fin x) -> Rabs x <= 2 ^ 127 -> exists y, w = PyNum (Fin y)) /\
  (forall y, value w = Some y -> y <= 0 \/ 1 <= y) /\
  set_power w = Stored w.
Proof.
  intros v w E. destruct (C82_power_accepted v) as [_ [_ A]]. apply A in E. destruct E as [-> [N H]].
  split; [intros z ->; reflexivity|]. split.
  { intros x y -> E. change (PyNum (to_float32 (Fin x)) = PyNum (Fin y)) in E. destruct (cast_fin x) as [[Q _]|[[Q _]|[Q _]]]; rewrite Q in E; try discriminate. injection E as <-.
    apply (rnd_nearest 24 (-149) P24). }
  split.
  { intros x -> B. exists (rnd32 x). change (PyNum (to_float32 (Fin x)) = PyNum (Fin (rnd32 x))).
    assert (F : float32 (2 ^ 127) ).
    { exists 1%Z, 127%Z. split; [reflexivity|]. split; [lia|]. change 127%Z with (Z.of_nat 127). rewrite <- pow_powerRZ, Rmult_1_l. reflexivity. }
    assert (M : 2 ^ 127 < max32).
    { unfold max32. rewrite bpow_powerRZ. change 128%Z with (Z.of_nat 128). rewrite <- pow_powerRZ. change (IZR radix2) with 2.
      rewrite (pow_add 2 127 1 : 2 ^ 128 = _). assert (0 < 2 ^ 127) by (apply pow_lt; lra). lra. }
    apply Rabs_le_inv in B.
    pose proof (rnd_le 24 (-149) P24 x _ F (proj2 B)) as U.
    pose proof (rnd_ge 24 (-149) P24 x _ (float_opp _ _ _ F) (proj1 B)) as L. fold rnd32 in U, L.
    destruct (cast_fin x) as [[Q _]|[[_ [_ Q]]|[_ [_ Q]]]]; [rewrite Q; reflexivity|lra|lra]. }
  assert (ADM : forall y, value (cast32 v) = Some y -> y <= 0 \/ 1 <= y).
  { intros y E. destruct v as [z|u|]; [apply H; exact E| |discriminate]. destruct u as [x| | |]; try discriminate. change (value (PyNum (to_float32 (Fin x))) = Some y) in E.
    destruct (cast_fin x) as [[Q _]|[[Q _]|[Q _]]]; rewrite Q in E; try discriminate. injection E as <-.
    destruct (H x eq_refl) as [L|L]; [left; apply (rnd_nonpos 24 (-149) P24), L|right; apply (rnd_ge 24 (-149) P24); [apply (f32_int 1); reflexivity|exact L]]. }
  split; [exact ADM|].
  destruct (C82_power_accepted (cast32 v)) as [_ [_ A2]]. apply A2. split; [symmetry; apply cast_idem|]. split; [|exact ADM].
  destruct v; try num. exact N.
Qed.
Print Assumptions C82_stored_power.

(** The two ties that decide whether a power between 1 and 2 is stored as such. *)
Lemma round_half (e m : Z) x : (-149 <= e)%Z -> mag radix2 x = (e + 24)%Z :> Z \/ (e = -149 /\ mag radix2 x <= -125)%Z ->
  x * bpow radix2 (- e) = IZR m + / 2 -> rnd32 x = IZR (if Z.even m then m else m + 1) * bpow radix2 e.
Proof.
  intros He Hm Hx. unfold rnd32, rnd, round, scaled_mantissa, cexp.
  assert (C : FLT_exp (-149) 24 (mag radix2 x) = e).
  { unfold FLT_exp. destruct Hm as [->|[-> Hm]]; lia. }
  rewrite C, Hx. unfold F2R. cbn [Fnum Fexp]. f_equal. f_equal.
  assert (Fl : Zfloor (IZR m + / 2) = m) by (apply Zfloor_imp; rewrite plus_IZR; lra).
  assert (Ce : Zceil (IZR m + / 2) = (m + 1)%Z) by (apply Zceil_imp; replace (m + 1 - 1)%Z with m by lia; rewrite plus_IZR; lra).
  unfold Znearest. rewrite Fl, Ce. rewrite Rcompare_Eq by lra. destruct (Z.even m); reflexivity.
Qed.
Lemma pow_m k : bpow radix2 (- Z.of_nat k) = / 2 ^ k.
Proof. rewrite bpow_opp, bpow_powerRZ, <- pow_powerRZ. reflexivity. Qed.
Lemma tie_two : rnd32 (2 - / 2 ^ 24) = 2.
Proof.
  assert (P : 0 < / 2 ^ 24 < / 2) by (split; [apply Rinv_0_lt_compat, pow_lt; lra|apply Rinv_lt_contravar; [|lra]; assert (0 < 2 ^ 24) by (apply pow_lt; lra); lra]).
  rewrite (round_half (-23) 16777215); [change (if Z.even 16777215 then 16777215 else 16777215 + 1)%Z with 16777216%Z; change (bpow radix2 (-23)) with (/ IZR 8388608); lra|lia| |].
  - left. apply mag_unique. rewrite Rabs_right by lra. change (bpow radix2 (-23 + 24 - 1)) with 1. change (bpow radix2 (-23 + 24)) with 2. lra.
  - change (bpow radix2 (- -23)) with (IZR 8388608). cbn [pow]. lra.
Qed.
Lemma tie_one : rnd32 (1 + / 2 ^ 24) = 1.
Proof.
  assert (P : 0 < / 2 ^ 24 < / 2) by (split; [apply Rinv_0_lt_compat, pow_lt; lra|apply Rinv_lt_contravar; [|lra]; assert (0 < 2 ^ 24) by (apply pow_lt; lra); lra]).
  rewrite (round_half (-23) 8388608); [change (if Z.even 8388608 then 8388608 else 8388608 + 1)%Z with 8388608%Z; change (bpow radix2 (-23)) with (/ IZR 8388608); lra|lia| |].
  - left. apply mag_unique. rewrite Rabs_right by lra. change (bpow radix2 (-23 + 24 - 1)) with 1. change (bpow radix2 (-23 + 24)) with 2. lra.
  - change (bpow radix2 (- -23)) with (IZR 8388608). cbn [pow]. lra.
Qed.
Lemma tie_zero : rnd32 (/ 2 ^ 150) = 0.
Proof.
  rewrite <- (pow_m 150).
  rewrite (round_half (-149) 0); [change (if Z.even 0 then 0 else 0 + 1)%Z with 0%Z; ring|lia| |].
  - right. split; [reflexivity|]. rewrite mag_bpow. cbn. lia.
  - rewrite <- bpow_plus. change (bpow radix2 (- Z.of_nat 150 + - -149)) with (/ 2). ring.
Qed.
(** Powers between 1 and 2 stay between 1 and 2, move by at most 2^-24, and become 2 or 1 exactly within 2^-24
    of them. *)
Theorem C82_power_between : forall x, 1 < x < 2 -> exists y,
  set_power (PyNum (Fin x)) = Stored (PyNum (Fin y)) /\ 1 <= y <= 2 /\ Rabs (y - x) <= / 2 ^ 24 /\
  (y = 2 <-> 2 - / 2 ^ 24 <= x) /\ (y = 1 <-> x <= 1 + / 2 ^ 24).
Proof.
  intros x Hx. exists (rnd32 x).
  assert (F1 : float32 1) by (apply (f32_int 1); reflexivity). assert (F2 : float32 2) by (apply (f32_int 2); reflexivity).
  assert (B : 1 <= rnd32 x <= 2).
  { split; [apply (rnd_ge 24 (-149) P24 x 1 F1)|apply (rnd_le 24 (-149) P24 x 2 F2)]; lra. }
  assert (P : / 2 ^ 23 = 2 * / 2 ^ 24) by (cbn; field). assert (P0 : 0 < / 2 ^ 24) by (apply Rinv_0_lt_compat, pow_lt; lra).
  destruct (C82_power_accepted (PyNum (Fin x))) as [_ [_ A]].
  split.
  { apply A. split; [|split; [num|intros y E; injection E as <-; lra]]. change (PyNum (Fin (rnd32 x)) = PyNum (to_float32 (Fin x))). destruct (cast_fin x) as [[-> _]|[[_ [_ Q]]|[_ [Q _]]]]; [reflexivity|exfalso|lra].
    assert (max32 > 2); [|lra]. unfold max32. change 2 with (bpow radix2 1). apply bpow_lt. lia. }
  split; [exact B|].
  destruct (rnd_nearest 24 (-149) P24 x) as [RF RN]. fold rnd32 in RF, RN.
  assert (FP : float32 (2 - / 2 ^ 23)).
  { exists 16777215%Z, (-23)%Z. split; [reflexivity|]. split; [lia|]. change (powerRZ 2 (-23)) with (/ 2 ^ 23). cbn [pow]. lra. }
  assert (FS : float32 (1 + / 2 ^ 23)).
  { exists 8388609%Z, (-23)%Z. split; [reflexivity|]. split; [lia|]. change (powerRZ 2 (-23)) with (/ 2 ^ 23). cbn [pow]. lra. }
  split.
  { (* ulp / 2 in [1, 2) *)
    assert (PG : Prec_gt_0 24) by (unfold Prec_gt_0; lia).
    pose proof (@error_le_half_ulp radix2 (FLT_exp (-149) 24) (FLT_exp_valid (-149) 24) (fun t => negb (Z.even t)) x) as U.
    change (round radix2 (FLT_exp (-149) 24) (Znearest (fun t => negb (Z.even t))) x) with (rnd32 x) in U.
    assert (M : ulp radix2 (FLT_exp (-149) 24) x = / 2 ^ 23).
    { rewrite ulp_neq_0 by lra. unfold cexp. rewrite (mag_unique radix2 x 1).
      - change (FLT_exp (-149) 24 1) with (- Z.of_nat 23)%Z. apply pow_m.
      - rewrite Rabs_right by lra. change (bpow radix2 (1 - 1)) with 1. change (bpow radix2 1) with 2. lra. }
    rewrite M, P in U. lra. }
  split.
  - split.
    + intros E. specialize (RN _ FP). rewrite E in RN. apply Rnot_lt_le. intros L. destruct (Rle_lt_dec x (2 - / 2 ^ 23)) as [G|G].
      * rewrite Rabs_right in RN by lra. rewrite Rabs_right in RN by lra. lra.
      * rewrite Rabs_right in RN by lra. rewrite Rabs_left in RN by lra. lra.
    + intros L. apply (rnd_mono 24 (-149) P24) in L. fold rnd32 in L. rewrite tie_two in L. lra.
  - split.
    + intros E. specialize (RN _ FS). rewrite E in RN. apply Rnot_lt_le. intros L. destruct (Rle_lt_dec x (1 + / 2 ^ 23)) as [G|G].
      * rewrite Rabs_left in RN by lra. rewrite Rabs_right in RN by lra. lra.
      * rewrite Rabs_left in RN by lra. rewrite Rabs_left in RN by lra. lra.
    + intros L. apply (rnd_mono 24 (-149) P24) in L. fold rnd32 in L. rewrite tie_one in L. lra.
Qed.
Print Assumptions C82_power_between.
(** So a power between 1 and 2, whose support contains 0, can silently become the gamma family, which rejects 0. *)
Theorem C82_power_class_refuted : exists x y, 1 < x < 2 /\ set_power (PyNum (Fin x)) = Stored (PyNum (Fin y)) /\
  in_y_range (TweedieF x) 0 = true /\ in_y_range (TweedieF y) 0 = false.
Proof.
  assert (P0 : 0 < / 2 ^ 25 < / 2 ^ 24).
  { split; [apply Rinv_0_lt_compat, pow_lt; lra|]. replace (2 ^ 25) with (2 * 2 ^ 24) by (cbn; ring). rewrite Rinv_mult.
    assert (0 < / 2 ^ 24) by (apply Rinv_0_lt_compat, pow_lt; lra). lra. }
  assert (P1 : / 2 ^ 24 < 1 / 2) by (cbn; lra).
  destruct (C82_power_between (2 - / 2 ^ 25) ltac:(lra)) as [y [E [_ [_ [[_ T] _]]]]].
  exists (2 - / 2 ^ 25), y. split; [lra|]. split; [exact E|]. rewrite T by lra.
  unfold in_y_range, lower_bound, include_lower_bound, upper_bound. split.
  - destruct (Rle_dec _ 0); [lra|]. destruct (Rlt_dec _ 2); [|lra]. rewrite (proj2 (Rleb_true _ _)) by lra. reflexivity.
  - destruct (Rle_dec _ 0); [lra|]. destruct (Rlt_dec _ 2); [lra|]. rewrite (proj2 (Rltb_false _ _)) by lra. reflexivity.
Qed.
Print Assumptions C82_power_class_refuted.

(** theta: accepted exactly if positive; the stored theta is positive (hence accepted again, unchanged) unless
    it is a float of at most 2^-150, which is stored as 0. *)
Theorem C82_theta : forall v,
  (set_theta v = TypeErr <-> ~ is_number v) /\
  ((exists w, set_theta v = Stored w) <-> v = PyNum PInf \/ exists x, value v = Some x /\ 0 < x) /\
  (forall w, set_theta v = Stored w ->
     (forall x y, v = PyNum (Fin x) -> w = PyNum (Fin y) -> nearest float32 x y) /\
     ((exists x, v = PyNum (Fin x) /\ x <= / 2 ^ 150) /\ w = PyNum (Fin 0) /\ set_theta w = ValueErr \/
      (forall x, v = PyNum (Fin x) -> / 2 ^ 150 < x) /\ set_theta w = Stored w)).
Proof.
  assert (PP : 0 < / 2 ^ 150) by (apply Rinv_0_lt_compat, pow_lt; lra).
  assert (P149 : / 2 ^ 149 = 2 * / 2 ^ 150) by (replace (2 ^ 150) with (2 * 2 ^ 149) by (rewrite (pow_add 2 1 149 : 2 ^ 150 = _); ring); rewrite Rinv_mult; field; apply pow_nonzero; lra).
  intros v. split; [|split].
  - destruct v as [z|w|]; cbn; [destruct (Rltb 0 (IZR z))|destruct (fl_gt w 0)|];
      (split; [try (intros Q; discriminate Q)|intros H; try (exfalso; apply H; num)]); cbn; auto. 
  - split.
    + intros [w E]. destruct v as [z|u|]; cbn in E; [| |discriminate].
      * destruct (Rltb 0 (IZR z)) eqn:A; [|discriminate]. apply Rltb_true in A. right. exists (IZR z). auto.
      * destruct u as [x| | |]; cbn in E; try discriminate; [|left; reflexivity].
        destruct (Rltb 0 x) eqn:A; [|discriminate]. apply Rltb_true in A. right. exists x. auto.
    + intros [->|[x [E H]]]; [eexists; reflexivity|]. destruct v as [z|u|]; [| |discriminate].
      * injection E as <-. cbn. rewrite (proj2 (Rltb_true _ _)) by exact H. eexists; reflexivity.
      * destruct u as [y| | |]; try discriminate. injection E as <-. cbn. rewrite (proj2 (Rltb_true _ _)) by exact H. eexists; reflexivity.
  - intros w E. assert (W : w = cast32 v /\ num_gt v 0 = true).
    { destruct v as [z|u|]; cbn in E; [| |discriminate].
      - destruct (Rltb 0 (IZR z)) eqn:A; [|discriminate]. injection E as <-. split; [reflexivity|exact A].
      - destruct (fl_gt u 0) eqn:A; [|discriminate]. injection E as <-. split; [reflexivity|exact A]. }
    destruct W as [-> G]. split.
    { intros x y -> Q. change (PyNum (to_float32 (Fin x)) = PyNum (Fin y)) in Q. destruct (cast_fin x) as [[Z _]|[[Z _]|[Z _]]]; rewrite Z in Q; try discriminate. injection Q as <-.
      apply (rnd_nearest 24 (-149) P24). }
    destruct v as [z|u|]; [right|destruct u as [x| | |]|discriminate]; cbn [num_gt fl_gt] in G; try discriminate.
    + split; [intros; discriminate|]. cbn. rewrite G. reflexivity.
    + apply Rltb_true in G. destruct (Rle_lt_dec x (/ 2 ^ 150)) as [L|L].
      * left. split; [exists x; auto|].
        assert (Z : rnd32 x = 0).
        { apply Rle_antisym; [rewrite <- tie_zero; apply (rnd_mono 24 (-149) P24), L|apply (rnd_nonneg 24 (-149) P24); lra]. }
        assert (C : cast32 (PyNum (Fin x)) = PyNum (Fin 0)).
        { cbn [cast32 to_float32]. rewrite Z, Rabs_R0. rewrite (proj2 (Rltb_true _ _)) by apply bpow_gt_0. reflexivity. }
        rewrite C. split; [reflexivity|]. cbn. rewrite (proj2 (Rltb_false _ _)) by lra. reflexivity.
      * right. split; [intros y Q; injection Q as <-; exact L|].
        assert (N : forall c, c = cast32 (PyNum (Fin x)) -> num_gt c 0 = true -> set_theta c = Stored c).
        { intros c Ec Gc. destruct c as [zc|uc|]; [cbn in Gc |- *; rewrite Gc; reflexivity| |discriminate].
          cbn [set_theta]. rewrite Gc. cbn [negb]. rewrite Ec. rewrite cast_idem. reflexivity. }
        apply N; [reflexivity|]. change (num_gt (PyNum (to_float32 (Fin x))) 0 = true). destruct (cast_fin x) as [[-> _]|[[-> _]|[_ [Q _]]]]; [|reflexivity|lra].
        cbn. apply Rltb_true. pose proof (rnd_nonneg 24 (-149) P24 x ltac:(lra)) as NN. fold rnd32 in NN.
        destruct NN as [NN|NN]; [exact NN|exfalso]. destruct (rnd_nearest 24 (-149) P24 x) as [_ RN]. fold rnd32 in RN. rewrite <- NN in RN.
        assert (F : float32 (/ 2 ^ 149)).
        { exists 1%Z, (-149)%Z. split; [reflexivity|]. split; [lia|]. rewrite Rmult_1_l. reflexivity. }
        specialize (RN _ F). rewrite Rabs_left in RN by lra. destruct (Rle_lt_dec x (/ 2 ^ 149)).
        -- rewrite Rabs_right in RN by lra. lra.
        -- rewrite Rabs_left in RN by lra. lra.
    + right. split; [intros; discriminate|]. reflexivity.
Qed.
Print Assumptions C82_theta.
Example C82_nonvacuous : set_power (PyNum (Fin (3 / 2))) = Stored (PyNum (Fin (3 / 2))) /\ set_power (PyInt 2) = Stored (PyInt 2) /\
  set_theta (PyNum (Fin (/ 2 ^ 151))) = Stored (PyNum (Fin 0)).
Proof.
  split; [|split].
  - destruct (C82_power_between (3 / 2) ltac:(lra)) as [y [E _]]. rewrite E. f_equal. f_equal. f_equal.
    destruct (C82_stored_power _ _ E) as [_ [N _]]. destruct (N _ _ eq_refl eq_refl) as [_ Q].
    assert (F : float32 (3 / 2)). { exists 3%Z, (-1)%Z. split; [reflexivity|]. split; [lia|]. change (powerRZ 2 (-1)) with (/ (2 * 1)). lra. }
    specialize (Q _ F). replace (3 / 2 - 3 / 2) with 0 in Q by ring. rewrite Rabs_R0 in Q. pose proof (Rabs_pos (y - 3 / 2)).
    assert (Z : Rabs (y - 3 / 2) = 0) by lra. destruct (Req_dec (y - 3 / 2) 0) as [D|D]; [lra|]. apply Rabs_no_R0 in D. lra.
  - cbn. rewrite (proj2 (Rltb_false 2 1)) by lra. rewrite Bool.andb_false_r. reflexivity.
  - destruct (C82_theta (PyNum (Fin (/ 2 ^ 151)))) as [_ [[_ A] T]].
    assert (P : 0 < / 2 ^ 151) by (apply Rinv_0_lt_compat, pow_lt; lra).
    destruct (A (or_intror (ex_intro _ _ (conj eq_refl P)))) as [w E].
    destruct (T w E) as [_ [[_ [W _]]|[Q _]]]; [rewrite E, W; reflexivity|exfalso]. specialize (Q _ eq_refl).
    replace (2 ^ 151) with (2 * 2 ^ 150) in Q by (rewrite (pow_add 2 1 150 : 2 ^ 151 = _); ring). rewrite Rinv_mult in Q.
    assert (0 < / 2 ^ 150) by (apply Rinv_0_lt_compat, pow_lt; lra). lra.
Qed.
