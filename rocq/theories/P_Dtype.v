(** C99: a number as sample_weight. *)
From Coq Require Import List Lia Lra Arith ZArith. Import ListNotations.
From Verif Require Import Base M_Link M_Dist M_Std M_Path M_Float M_Shape M_Dtype S_Path S_Shape L_Dist4 L_Rows P_Pred P_Shape.
Local Open Scope R_scope.

Lemma lsum_repeat c n : lsum (repeat c n) = INR n * c.
Proof. induction n as [|n IH]; [cbn; ring|]. rewrite S_INR. cbn [repeat]. change (lsum (c :: repeat c n)) with (c + lsum (repeat c n)). rewrite IH. ring. Qed.
Lemma check_repeat c n : 0 < c -> (0 < n)%nat -> check_weights (WVector (repeat c n)) n = Some (repeat c n).
Proof.
  intros Hc Hn. cbn. rewrite repeat_length, Nat.eqb_refl. cbn [negb].
  replace (existsb (fun x => Rltb x 0) (repeat c n)) with false.
  - rewrite lsum_repeat. rewrite (proj2 (Reqb_false _ 0)); [reflexivity|]. intros E. apply Rmult_integral in E. destruct E as [E|E]; [|lra].
    apply (not_0_INR n); [lia|exact E].
  - symmetry. induction n as [|n IH]; [lia|]. cbn. rewrite (proj2 (Rltb_false c 0)) by lra. destruct n; [reflexivity|]. apply IH. lia.
Qed.

(** With data of type float64 a number means a vector of that number, for predict and for score. *)
Theorem C99_float : forall m f p X y o c idx, 0 < c -> (0 < length X)%nat ->
  predict_d m p F64 X o (WScalar c) idx SelNone = predict_d m p F64 X o (WVector (repeat c (length X))) idx SelNone /\
  (length y = length X -> score_method m f p F64 X y o (WScalar c) = score_method m f p F64 X y o (WVector (repeat c (length X)))).
Proof.
  intros m f p X y o c idx Hc Hn. assert (HL : Rleb c 0 = false) by (apply Rleb_false; lra). split.
  - unfold predict_d. destruct (linear_predictor m p X o idx SelNone) as [eta|]; [|reflexivity]. cbn [check_weights_d]. rewrite HL, check_repeat by assumption. reflexivity.
  - intros E. unfold score_method. cbn [check_weights_d]. rewrite HL, E, check_repeat by assumption. reflexivity.
Qed.
Print Assumptions C99_float.

(** The general rule: the number is converted to the type of X first. *)
Theorem C99_predict : forall m d X o c l, 0 < c -> offset_fits o (length X) ->
  predict m (m_p m) X o WNone SelNone SelNone = Some (PVec l) ->
  predict_d m (m_p m) d X o (WScalar c) SelNone SelNone = Some (PVec (map (fun mu => mu * cast d c) l)).
Proof.
  intros m d X o c l Hc Ho E. pose proof (C44_row_local m X o WNone SelNone (m_cur m) Ho I (or_introl eq_refl) eq_refl) as R0.
  rewrite E in R0. injection R0 as El. unfold predict in E. unfold predict_d.
  destruct (linear_predictor m (m_p m) X o SelNone SelNone) as [eta|]; [|discriminate]. injection E as E.
  cbn [check_weights_d]. rewrite (proj2 (Rleb_false c 0)) by lra. rewrite E. cbn [times_weights]. do 2 f_equal.
  assert (LL : length l = length X) by (rewrite El, map_length, seq_length; reflexivity). rewrite <- LL. clear.
  induction l as [|x l IH]; [reflexivity|]. cbn. rewrite IH. reflexivity.
Qed.
Print Assumptions C99_predict.
Lemma trunc_small c : 0 < c < 1 -> cast IntT c = 0.
Proof.
  intros [A B]. cbn. unfold Int_part. replace (up c) with 1%Z; [reflexivity|]. apply tech_up; cbn; lra.
Qed.

(** F54: if X is an array of integers, a weight between 0 and 1 makes every prediction zero, and 5/2 counts as 2; the same
    weights as a vector do what they say. *)
Theorem C99_predict_refuted : forall m X o c l, 0 < c < 1 -> offset_fits o (length X) ->
  predict m (m_p m) X o WNone SelNone SelNone = Some (PVec l) ->
  predict_d m (m_p m) IntT X o (WScalar c) SelNone SelNone = Some (PVec (map (fun _ => 0) l)) /\
  ((0 < length X)%nat -> predict_d m (m_p m) IntT X o (WVector (repeat c (length X))) SelNone SelNone = Some (PVec (map (fun mu => mu * c) l))) /\
  predict_d m (m_p m) IntT X o (WScalar (5 / 2)) SelNone SelNone = Some (PVec (map (fun mu => mu * 2) l)).
Proof.
  intros m X o c l Hc Ho E. split; [|split].
  - rewrite (C99_predict m IntT X o c l ltac:(lra) Ho E), (trunc_small c Hc). do 2 f_equal. apply map_ext. intros; ring.
  - intros Hn. pose proof (C99_predict m F64 X o c l ltac:(lra) Ho E) as P. rewrite (proj1 (C99_float m NormalF (m_p m) X nil o c SelNone ltac:(lra) Hn)) in P. exact P.
  - rewrite (C99_predict m IntT X o (5 / 2) l ltac:(lra) Ho E). do 2 f_equal. apply map_ext. intros. f_equal. cbn. unfold Int_part.
    replace (up (5 / 2)) with 3%Z; [cbn; lra|]. apply tech_up; cbn; lra.
Qed.
Print Assumptions C99_predict_refuted.

(** ** score *)
Definition score_table (m : fitted_model) (X : list (nat -> R)) (y : list R) (o : offset_arg) (w : nat -> R) : list obs :=
  map (fun i => mkobs (nth i y 0) (w i) (predicted m (m_cur m) (nth i X xrow0) (offset_at o i) 1)) (seq 0 (length X)).
Lemma per_row l n i : length l = n -> (i < n)%nat -> row_val (PerRow l) i = nth i l 0.
Proof. intros E Hi. cbn. destruct (Nat.eqb_spec (length l) 1); [replace i with 0%nat by lia|]; reflexivity. Qed.
Lemma sum_combine (y ws : list R) : length y = length ws ->
  lsumf (fun p => fst p * snd p) (combine y ws) = lsumf (fun i => nth i y 0 * nth i ws 0) (seq 0 (length y)).
Proof.
  revert ws. induction y as [|a y IH]; intros [|w ws] E; try discriminate; [reflexivity|]. injection E as E.
  cbn [combine length seq]. rewrite !lsumf_cons. cbn [fst snd nth]. f_equal. rewrite IH by exact E. rewrite <- seq_shift. unfold lsumf. rewrite map_map. reflexivity.
Qed.
Lemma sum_nth (ws : list R) : lsum ws = lsumf (fun i => nth i ws 0) (seq 0 (length ws)).
Proof.
  induction ws as [|w ws IH]; [reflexivity|]. cbn [length seq]. rewrite lsumf_cons. cbn [nth]. change (lsum (w :: ws)) with (w + lsum ws). f_equal.
  rewrite IH. rewrite <- seq_shift. unfold lsumf. rewrite map_map. reflexivity.
Qed.

(** score is 1 - D(y, mu) / D(y, mean of y) with the weights check_weights returns; it raises when these sum to zero. *)
Theorem C99_score_value : forall m f d X y o s ws, offset_fits o (length X) -> length y = length X ->
  check_weights_d s (length y) d = Some ws -> length ws = length y ->
  score_method m f (m_p m) d X y o s = if Reqb (lsum ws) 0 then None else Some (score f (score_table m X y o (fun i => nth i ws 0))).
Proof.
  intros m f d X y o s ws Ho Ey Ew El. unfold score_method. rewrite Ew.
  rewrite (C44_row_local m X o WNone SelNone (m_cur m) Ho I (or_introl eq_refl) eq_refl).
  destruct (Reqb (lsum ws) 0); [reflexivity|]. set (mus := map _ (seq 0 (length X))).
  assert (Em : length mus = length X) by (unfold mus; rewrite map_length, seq_length; reflexivity).
  set (ym := lsumf (fun p : R * R => fst p * snd p) (combine y ws) / lsum ws).
  assert (A : fam_deviance f (arr1 y) (arr1 mus) (Some (arr1 ws)) = Some (deviance f (score_table m X y o (fun i => nth i ws 0)))).
  { etransitivity; [apply (C98_deviance f (length X) (PerRow y) (PerRow mus) (Some (PerRow ws)))|].
    - intros a [[= <-]|[[= <-]|[[= <-]|[]]]]; left; congruence.
    - exists (PerRow y). split; [left; reflexivity|exact Ey].
    - do 2 f_equal. unfold table, score_table. apply map_ext_in. intros i Hi. apply in_seq in Hi. cbn [weight_val].
      rewrite !(per_row _ (length X)) by (congruence || lia). f_equal. unfold mus. symmetry.
      rewrite (nth_indep _ 0 (predicted m (m_cur m) (nth 0 X xrow0) (offset_at o 0) 1)) by (rewrite map_length, seq_length; lia).
      change (predicted m (m_cur m) (nth 0 X xrow0) (offset_at o 0) 1) with ((fun i => predicted m (m_cur m) (nth i X xrow0) (offset_at o i) 1) 0%nat).
      cbn [weight_at]. rewrite (map_nth (fun i => predicted m (m_cur m) (nth i X xrow0) (offset_at o i) 1)), seq_nth by lia. reflexivity. }
  assert (B : fam_deviance f (arr1 y) (Num ym) (Some (arr1 ws)) = Some (deviance f (with_mu ym (score_table m X y o (fun i => nth i ws 0))))).
  { etransitivity; [apply (C98_deviance f (length X) (PerRow y) (Same ym) (Some (PerRow ws)))|].
    - intros a [[= <-]|[[= <-]|[[= <-]|[]]]]; cbn; auto; left; congruence.
    - exists (PerRow y). split; [left; reflexivity|exact Ey].
    - do 2 f_equal. unfold table, score_table, with_mu. rewrite map_map. apply map_ext_in. intros i Hi. apply in_seq in Hi. cbn [weight_val oy ow].
      rewrite !(per_row _ (length X)) by (congruence || lia). reflexivity. }
  rewrite A, B. unfold score. do 5 f_equal. unfold ym, y_mean, score_table. rewrite sum_combine by congruence. rewrite sum_nth, El, Ey.
  unfold lsumf. rewrite !map_map. reflexivity.
Qed.
Print Assumptions C99_score_value.

Lemma dev_scale f l c : deviance f (map (fun o => mkobs (oy o) (c * ow o) (omu o)) l) = c * deviance f l.
Proof.
  rewrite !deviance_rows. unfold lsumf. rewrite map_map. induction l as [|o l IH]; [cbn; ring|].
  cbn [map]. change (lsum (?a :: ?b)) with (a + lsum b). rewrite IH. cbn [oy ow omu]. ring.
Qed.
(** score does not depend on the scale of the weights *)
Lemma score_scale f l c : c <> 0 -> score f (map (fun o => mkobs (oy o) (c * ow o) (omu o)) l) = score f l.
Proof.
  intros Hc. unfold score.
  assert (M : y_mean (map (fun o => mkobs (oy o) (c * ow o) (omu o)) l) = y_mean l).
  { unfold y_mean. 
    assert (A : lsumf (fun o => oy o * ow o) (map (fun o => mkobs (oy o) (c * ow o) (omu o)) l) = c * lsumf (fun o => oy o * ow o) l).
    { unfold lsumf. rewrite map_map. induction l as [|o l IH]; [cbn; ring|]. cbn [map]. change (lsum (?a :: ?b)) with (a + lsum b). rewrite IH. cbn. ring. }
    assert (B : lsumf ow (map (fun o => mkobs (oy o) (c * ow o) (omu o)) l) = c * lsumf ow l).
    { clear A. unfold lsumf. rewrite map_map. induction l as [|o l IH]; [cbn; ring|]. cbn [map]. change (lsum (?a :: ?b)) with (a + lsum b). rewrite IH. cbn. ring. }
    rewrite A, B. unfold Rdiv. rewrite Rinv_mult. rewrite (Rmult_comm c (lsumf (fun o => oy o * ow o) l)), !Rmult_assoc. f_equal. rewrite <- Rmult_assoc, Rinv_r by exact Hc. ring. }
  rewrite M. unfold with_mu. rewrite map_map. cbn [oy ow].
  replace (map (fun x => mkobs (oy x) (c * ow x) (y_mean l)) l) with (map (fun o => mkobs (oy o) (c * ow o) (omu o)) (map (fun o => mkobs (oy o) (ow o) (y_mean l)) l))
    by (rewrite map_map; apply map_ext; reflexivity).
  rewrite !dev_scale. f_equal. unfold Rdiv. rewrite Rinv_mult. rewrite (Rmult_comm c (deviance f l)), !Rmult_assoc. f_equal. f_equal. rewrite <- Rmult_assoc, Rinv_r by exact Hc. ring.
Qed.

(** A number as weight in score: it has no effect, unless it becomes zero in the type of y; then score raises.  For integer y
    this happens exactly below one. *)
Theorem C99_score : forall m f d X y o c, 0 < c -> (0 < length X)%nat -> offset_fits o (length X) -> length y = length X ->
  (cast d c <> 0 -> score_method m f (m_p m) d X y o (WScalar c) = score_method m f (m_p m) d X y o WNone) /\
  (cast d c = 0 -> score_method m f (m_p m) d X y o (WScalar c) = None) /\
  (cast IntT c = 0 <-> c < 1).
Proof.
  intros m f d X y o c Hc Hn Ho Ey.
  assert (HL : Rleb c 0 = false) by (apply Rleb_false; lra).
  assert (NZ : INR (length y) <> 0) by (rewrite Ey; apply not_0_INR; lia).
  split; [|split].
  - intros Hz.
    rewrite (C99_score_value m f d X y o (WScalar c) (repeat (cast d c) (length y)) Ho Ey); [|cbn [check_weights_d]; rewrite HL; reflexivity|apply repeat_length].
    rewrite (C99_score_value m f d X y o WNone (repeat 1 (length y)) Ho Ey); [|reflexivity|apply repeat_length].
    rewrite !lsum_repeat. rewrite (proj2 (Reqb_false (INR (length y) * cast d c) 0)) by (intros Z; apply Rmult_integral in Z; tauto).
    rewrite (proj2 (Reqb_false (INR (length y) * 1) 0)) by lra. f_equal.
    rewrite <- (score_scale f (score_table m X y o (fun i => nth i (repeat 1 (length y)) 0)) (cast d c) Hz). f_equal. unfold score_table. rewrite map_map.
    apply map_ext_in. intros i Hi. apply in_seq in Hi. cbn [oy ow omu]. f_equal.
    rewrite (nth_indep (repeat (cast d c) (length y)) 0 (cast d c)), (nth_indep (repeat 1 (length y)) 0 1) by (rewrite repeat_length; lia). rewrite !nth_repeat. ring.
  - intros Hz.
    rewrite (C99_score_value m f d X y o (WScalar c) (repeat (cast d c) (length y)) Ho Ey); [|cbn [check_weights_d]; rewrite HL; reflexivity|apply repeat_length].
    rewrite lsum_repeat, Hz, Rmult_0_r, (proj2 (Reqb_true 0 0)) by reflexivity. reflexivity.
  - split.
    + intros Z. cbn in Z. apply eq_IZR in Z. unfold Int_part in Z. destruct (archimed c) as [A B]. replace (up c) with 1%Z in A by lia. lra.
    + intros H. apply trunc_small. lra.
Qed.
Print Assumptions C99_score.

(** In fit the weights are divided by their sum, so a number has no effect there (in the float types fit converts X to). *)
Theorem C99_fit : forall d c n, (0 < n)%nat -> 0 < c -> cast d c <> 0 ->
  option_map normalise_weights (check_weights_d (WScalar c) n d) = option_map normalise_weights (check_weights_d WNone n d).
Proof.
  intros d c n Hn Hc Hz. cbn [check_weights_d]. rewrite (proj2 (Rleb_false c 0)) by lra. cbn [option_map]. f_equal. unfold normalise_weights.
  rewrite !lsum_repeat. assert (NZ : INR n <> 0) by (apply not_0_INR; lia).
  assert (E : forall x k, map (fun w => w / (INR n * x)) (repeat x k) = repeat (x / (INR n * x)) k) by (intros x k; induction k as [|k IH]; [reflexivity|]; cbn; rewrite IH; reflexivity).
  rewrite !E. f_equal. field. split; assumption.
Qed.
Print Assumptions C99_fit.

(** One row, identity link: the prediction 3 becomes 0 with weight 1/2 and integer data. *)
Definition ex99_m : fitted_model := mkFM 1 IdentityL false false nil nil (3, fun _ => 0).
Example ex99_nonvacuous :
  predict ex99_m 1 (xrow0 :: nil) ONone WNone SelNone SelNone = Some (PVec (3 :: nil)) /\
  predict_d ex99_m 1 IntT (xrow0 :: nil) ONone (WScalar (/ 2)) SelNone SelNone = Some (PVec (0 :: nil)) /\
  predict_d ex99_m 1 F64 (xrow0 :: nil) ONone (WScalar (/ 2)) SelNone SelNone = Some (PVec (3 * / 2 :: nil)) /\
  score_method ex99_m NormalF 1 IntT (xrow0 :: xrow0 :: nil) (1 :: 5 :: nil) ONone (WScalar (/ 2)) = None.
Proof.
  assert (P : predict ex99_m 1 (xrow0 :: nil) ONone WNone SelNone SelNone = Some (PVec (3 :: nil))).
  { etransitivity; [exact (C44_row_local ex99_m (xrow0 :: nil) ONone WNone SelNone (m_cur ex99_m) I I (or_introl eq_refl) eq_refl)|]. cbn. unfold predicted, eta_row. cbn. do 3 f_equal. ring. }
  split; [exact P|]. split; [|split].
  - etransitivity; [exact (C99_predict ex99_m IntT (xrow0 :: nil) ONone (/ 2) (3 :: nil) ltac:(lra) I P)|]. rewrite trunc_small by lra. cbn [map]. do 3 f_equal. ring.
  - exact (C99_predict ex99_m F64 (xrow0 :: nil) ONone (/ 2) (3 :: nil) ltac:(lra) I P).
  - destruct (C99_score ex99_m NormalF IntT (xrow0 :: xrow0 :: nil) (1 :: 5 :: nil) ONone (/ 2) ltac:(lra) ltac:(cbn; lia) I eq_refl) as [_ [Q _]].
    apply Q. apply trunc_small. lra.
Qed.
