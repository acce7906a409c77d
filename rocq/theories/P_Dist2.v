(** Theorem C19 for negative Tweedie powers: what constant predictions score. *)
From Verif Require Import Base M_Link S_Link L_Link M_Dist S_Dist L_Dist L_Dist2 L_Dist3 L_Dist4 P_Dist.
Import ListNotations.
Local Open Scope R_scope.

(** weighted mean of the observations with the negative ones replaced by zero *)
Definition y_mean_plus (l : list obs) : R := lsumf (fun o => Rmax (oy o) 0 * ow o) l / lsumf ow l.

Lemma deviance_constant p l m : p < 0 -> 0 < m -> 0 < lsumf ow l -> 0 < y_mean_plus l ->
  deviance (TweedieF p) (with_mu m l) = lsumf ow l * unit_deviance (TweedieF p) (y_mean_plus l) m +
   (2 * lsumf (fun o => ow o * (if Rlt_dec 0 (oy o) then Rpower (oy o) (1 - p) * (oy o / (1 - p)) / (2 - p) else 0)) l
    - lsumf ow l * (2 * (Rpower (y_mean_plus l) (2 - p) / ((1 - p) * (2 - p))))).
Proof.
  intros Hp Hm HW Hy. unfold deviance, unit_deviance.
  destruct (Req_EM_T p 0); [lra|]. destruct (Req_EM_T p 1); [lra|]. destruct (Req_EM_T p 2); [lra|]. destruct (Req_EM_T p 3); [lra|].
  unfold tweedie_deviance, with_mu. rewrite lsumf_map. cbn [oy ow omu]. cbv zeta. unfold npow. rewrite Rmax_left by lra.
  destruct (Req_EM_T (y_mean_plus l) 0); [lra|].
  set (q := Rpower m (1 - p)).
  rewrite (lsumf_ext _ _ (fun o => (q * m / (2 - p)) * ow o + (ow o * (if Rlt_dec 0 (oy o) then Rpower (oy o) (1 - p) * (oy o / (1 - p)) / (2 - p) else 0)
     + (- q / (1 - p)) * (Rmax (oy o) 0 * ow o)))).
  2:{ intros o _. destruct (Rlt_dec 0 (oy o)); [rewrite Rmax_left by lra; field; lra|rewrite Rmax_right by lra; field; lra]. }
  rewrite !lsumf_plus, !lsumf_scal.
  replace (lsumf (fun a => Rmax (oy a) 0 * ow a) l) with (y_mean_plus l * lsumf ow l) by (unfold y_mean_plus; field; lra).
  field. lra.
Qed.

(** Negative powers: the best constant is not the weighted mean but the weighted mean of max(y, 0); it
    scores above zero exactly if some observation below zero carries weight, so "constants score at most
    0" holds exactly if none does. *)
Theorem C19_negative_power : forall p l, p < 0 -> (forall o, In o l -> 0 <= ow o) -> 0 < lsumf ow l ->
  0 < y_mean l -> 0 < deviance (TweedieF p) (with_mu (y_mean l) l) ->
  let best := y_mean_plus l in
  0 < best /\
  (forall m, 0 < m -> score (TweedieF p) (with_mu m l) <= score (TweedieF p) (with_mu best l)) /\
  score (TweedieF p) (with_mu (y_mean l) l) = 0 /\
  (0 < score (TweedieF p) (with_mu best l) <-> exists o, In o l /\ 0 < ow o /\ oy o < 0) /\
  ((forall m, 0 < m -> score (TweedieF p) (with_mu m l) <= 0) <-> forall o, In o l -> 0 < ow o -> 0 <= oy o).
Proof.
  intros p l Hp Hw HW Hym HD best.
  assert (GE : forall o, In o l -> oy o * ow o <= Rmax (oy o) 0 * ow o) by (intros o Ho; apply Rmult_le_compat_r; [auto|apply Rmax_l]).
  assert (HB : y_mean l <= best) by (unfold best, y_mean_plus, y_mean; apply Rmult_le_compat_r; [left; apply Rinv_0_lt_compat; exact HW|apply lsumf_le, GE]).
  assert (HB0 : 0 < best) by lra. split; [exact HB0|].
  assert (FO : family_ok (TweedieF p)) by (simpl; lra).
  assert (YM : forall m, y_mean (with_mu m l) = y_mean l).
  { intros m. unfold y_mean, with_mu. rewrite !lsumf_map. reflexivity. }
  assert (WW : forall m m', with_mu m (with_mu m' l) = with_mu m l) by (intros; unfold with_mu; rewrite map_map; reflexivity).
  set (D := deviance (TweedieF p) (with_mu (y_mean l) l)) in *.
  assert (SC : forall m, score (TweedieF p) (with_mu m l) = 1 - deviance (TweedieF p) (with_mu m l) / D).
  { intros m. unfold score. rewrite YM, WW. reflexivity. }
  set (K := 2 * lsumf (fun o => ow o * (if Rlt_dec 0 (oy o) then Rpower (oy o) (1 - p) * (oy o / (1 - p)) / (2 - p) else 0)) l
    - lsumf ow l * (2 * (Rpower best (2 - p) / ((1 - p) * (2 - p))))).
  assert (DC : forall m, 0 < m -> deviance (TweedieF p) (with_mu m l) = lsumf ow l * unit_deviance (TweedieF p) best m + K) by (intros; apply deviance_constant; assumption).
  assert (UD : forall m, 0 < m -> 0 <= unit_deviance (TweedieF p) best m /\ (unit_deviance (TweedieF p) best m = 0 <-> best = m)).
  { intros m Hm. apply C04_unit_deviance_nonneg; [exact FO|discriminate|simpl; repeat split; intros; lra|simpl; lra]. }
  assert (DB : deviance (TweedieF p) (with_mu best l) = K) by (rewrite DC by exact HB0; rewrite (proj2 (proj2 (UD best HB0)) eq_refl); ring).
  assert (LE : forall m, 0 < m -> score (TweedieF p) (with_mu m l) <= score (TweedieF p) (with_mu best l)).
  { intros m Hm. rewrite !SC, DB, DC by exact Hm. apply Rplus_le_compat_l, Ropp_le_contravar. apply Rmult_le_compat_r; [left; apply Rinv_0_lt_compat; exact HD|].
    pose proof (proj1 (UD m Hm)). assert (0 <= lsumf ow l * unit_deviance (TweedieF p) best m) by (apply Rmult_le_pos; lra). lra. }
  split; [exact LE|].
  assert (S0 : score (TweedieF p) (with_mu (y_mean l) l) = 0) by (rewrite SC; fold D; field; lra).
  split; [exact S0|].
  assert (EQ : best = y_mean l <-> forall o, In o l -> 0 < ow o -> 0 <= oy o).
  { split.
    - intros E o Ho Hwo. assert (Z : lsumf (fun o => Rmax (oy o) 0 * ow o - oy o * ow o) l = 0).
      { rewrite lsumf_minus. unfold best, y_mean_plus, y_mean in E. apply (f_equal (fun x => x * lsumf ow l)) in E.
        replace (lsumf (fun o => Rmax (oy o) 0 * ow o) l / lsumf ow l * lsumf ow l) with (lsumf (fun o => Rmax (oy o) 0 * ow o) l) in E by (field; lra).
        replace (lsumf (fun o => oy o * ow o) l / lsumf ow l * lsumf ow l) with (lsumf (fun o => oy o * ow o) l) in E by (field; lra). lra. }
      assert (Zo : Rmax (oy o) 0 * ow o - oy o * ow o = 0).
      { apply (lsumf_zero_inv _ (fun o => Rmax (oy o) 0 * ow o - oy o * ow o) l); [intros a Ha; specialize (GE a Ha); lra|exact Z|exact Ho]. }
      assert (Zp : (Rmax (oy o) 0 - oy o) * ow o = 0) by lra. apply Rmult_integral in Zp as [Zp|Zp]; [|lra]. pose proof (Rmax_r (oy o) 0). lra.
    - intros H. unfold best, y_mean_plus, y_mean. f_equal. apply lsumf_ext. intros o Ho. destruct (Rle_lt_or_eq_dec 0 (ow o) (Hw o Ho)) as [P|<-]; [|ring].
      rewrite Rmax_left by (apply H; assumption). reflexivity. }
  assert (BP : 0 < score (TweedieF p) (with_mu best l) <-> best <> y_mean l).
  { assert (PD : 0 < lsumf ow l * unit_deviance (TweedieF p) best (y_mean l) + K) by (rewrite <- DC by exact Hym; exact HD).
    rewrite SC, DB. unfold D. rewrite (DC _ Hym). pose proof (UD _ Hym) as [U1 U2]. set (u := unit_deviance (TweedieF p) best (y_mean l)) in *.
    replace (1 - K / (lsumf ow l * u + K)) with (lsumf ow l * u / (lsumf ow l * u + K)) by (field; lra). split.
    - intros P E. assert (u = 0) by (apply U2; exact E). rewrite H in P. rewrite Rmult_0_r in P. unfold Rdiv in P. rewrite Rmult_0_l in P. lra.
    - intros N. assert (0 < u) by (destruct U1 as [U1|U1]; [exact U1|exfalso; apply N, U2; symmetry; exact U1]).
      apply Rdiv_lt_0_compat; [apply Rmult_lt_0_compat; assumption|exact PD]. }
  split.
  - rewrite BP. split.
    + intros N. apply Classical_Prop.NNPP. intros NE. apply N. apply EQ. intros o Ho Hwo. destruct (Rle_dec 0 (oy o)) as [|Q]; [assumption|].
      exfalso. apply NE. exists o. repeat split; [exact Ho|exact Hwo|lra].
    + intros [o [Ho [Hwo Hy]]] E. pose proof (proj1 EQ E o Ho Hwo). lra.
  - rewrite <- EQ. split.
    + intros H. destruct (Req_dec best (y_mean l)) as [|N]; [assumption|]. apply BP in N. specialize (H best HB0). lra.
    + intros E m Hm. specialize (LE m Hm). rewrite E, S0 in LE. exact LE.
Qed.
Print Assumptions C19_negative_power.
Example C19_negative_power_ex : let l := [mkobs (-1) 1 0; mkobs 3 1 0] in
  0 < lsumf ow l /\ 0 < y_mean l /\ 0 < deviance (TweedieF (-1)) (with_mu (y_mean l) l).
Proof.
  cbv zeta. assert (Em : y_mean [mkobs (-1) 1 0; mkobs 3 1 0] = 1) by (unfold y_mean; rewrite !lsumf_cons, !lsumf_nil; simpl; lra).
  split; [rewrite !lsumf_cons, lsumf_nil; simpl; lra|]. rewrite Em. split; [lra|].
  unfold deviance. destruct (Req_EM_T (-1) 0); [lra|]. destruct (Req_EM_T (-1) 1); [lra|]. destruct (Req_EM_T (-1) 2); [lra|]. destruct (Req_EM_T (-1) 3); [lra|].
  unfold tweedie_deviance, with_mu. simpl map. rewrite !lsumf_cons, lsumf_nil. cbn [oy ow omu]. cbv zeta.
  destruct (Rlt_dec 0 (-1)); [lra|]. destruct (Rlt_dec 0 3); [|lra]. replace (1 - -1) with 2 by ring. replace (2 - -1) with 3 by ring.
  assert (R2 : forall x, 0 < x -> Rpower x 2 = x * x) by (intros x Hx; replace 2 with (1 + 1) by ring; rewrite Rpower_plus, Rpower_1 by exact Hx; reflexivity).
  rewrite !R2 by lra. lra.
Qed.
