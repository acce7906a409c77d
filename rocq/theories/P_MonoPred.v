(** Theorems C85: monotonic constraints and predictions. *)
From Coq Require Import String Ascii Reals Lra Lia FunctionalExtensionality List Permutation Sorting.Sorted. Import ListNotations.
From Verif Require Import Base M_Link L_Link M_Std S_Std M_Formula S_Formula L_Formula P_Formula L_KKT L_Lstsq L_Solver L_Solver2 L_Solver3 L_Mono L_LS L_Std L_Fit L_FitAll L_Score P_Fit P_Score S_Fit M_Valid M_Fit S_FitAll P_FitAll P_Link S_MonoPred L_MonoPred L_Spline.
From Verif Require Import M_Solver S_Solver.
Local Open Scope R_scope.

(** The values of a factor move to later columns: the predictor moves in the direction of the constraint. *)
Theorem C85_predictor : forall pf cols f G d t b0 w z z', once f cols -> grouping pf cols f G -> 0 <= t ->
  nearly_monotone t pf cols f d w -> same_but f z z' ->
  (forall o l, In (o, l) G -> 0 <= col_value z o /\ moves_up f z z' l /\ anchored t d w f z z' l) ->
  dir_le_slack (t * total_shift f z z' G) d (predictor cols b0 w z) (predictor cols b0 w z').
Proof.
  intros pf cols f G d t b0 w z z' On Gr Ht [N1 N2] Hs HG. apply slack_sign. unfold predictor.
  set (sg := dir_sign d). set (n := List.length cols).
  assert (E : sg * (b0 + rsum n (fun j => w j * col_value z (nth j cols [])) - (b0 + rsum n (fun j => w j * col_value z' (nth j cols []))))
    = - rsum n (fun j => sg * w j * (col_value z' (nth j cols []) - col_value z (nth j cols [])))).
  { replace (b0 + rsum n (fun j => w j * col_value z (nth j cols [])) - (b0 + rsum n (fun j => w j * col_value z' (nth j cols []))))
      with (rsum n (fun j => w j * col_value z (nth j cols [])) - rsum n (fun j => w j * col_value z' (nth j cols []))) by ring.
    rewrite <- rsum_minus, <- rsum_scal, <- rsum_opp. apply rsum_ext. intros; ring. }
  rewrite E. clear E. unfold n. rewrite (group_sum pf cols f G _ Gr).
  2:{ intros j Hj No. assert (I : In (nth j cols []) cols) by (apply nth_In, Hj).
      destruct (On _ I) as [A|[o [x A]]]; [rewrite (col_same f z z' _ Hs A); ring|]. exfalso. apply (No o x). exists (nth j cols []).
      split; [apply nth_error_nth', Hj|exact A]. }
  unfold total_shift. rewrite <- lsumf_scal.
  match goal with |- - ?a <= ?b => assert (Q : - b <= a); [|lra] end.
  replace (- lsumf (fun g => t * (col_value z (fst g) * mass_shift f z z' (snd g))) G) with (lsumf (fun g => -1 * (t * (col_value z (fst g) * mass_shift f z z' (snd g)))) G) by (rewrite lsumf_scal; ring).
  apply lsumf_le. intros [o l] Hg. cbn [fst snd]. destruct (HG o l Hg) as [Po [Mv An]]. destruct Gr as [_ [GM _]]. destruct (GM o l Hg) as [Ne [So Me]].
  set (D := fun m : member => z' f (snd m) - z f (snd m)).
  assert (ES : lsumf (fun m : member => sg * w (fst m) * (col_value z' (nth (fst m) cols []) - col_value z (nth (fst m) cols []))) l
    = col_value z o * lsumf (fun m => sg * w (fst m) * D m) l).
  { rewrite <- lsumf_scal. apply lsumf_ext. intros [i x] Hm. cbn [fst snd]. apply Me in Hm. destruct Hm as [c [Ec Hf]].
    rewrite (nth_error_nth cols i [] Ec). destruct (col_split f z z' c o x Hs Hf) as [-> ->]. unfold D. cbn [snd]. ring. }
  match goal with |- _ <= ?g => change g with (lsumf (fun m : member => sg * w (fst m) * (col_value z' (nth (fst m) cols []) - col_value z (nth (fst m) cols []))) l) end. rewrite ES.
  assert (TD : forall k, lsumf D (skipn k l) = tail_from f z' l k - tail_from f z l k) by (intros k; unfold D, tail_from; rewrite lsumf_minus; reflexivity).
  assert (Sh : mass_shift f z z' l = rsum (List.length l) (fun k => lsumf D (skipn k l))) by (unfold mass_shift; apply rsum_ext; intros; rewrite TD; reflexivity).
  assert (HC : forall a b, consec l a b -> sg * w (fst a) <= sg * w (fst b) + t).
  { intros [i x] [j y] HCo. cbn [fst]. apply (consec_iff pf) in HCo; [|exact So]. destruct HCo as [A [B [C Dn]]].
    assert (NB : neighbours pf cols f o i j).
    { exists x, y. apply Me in A, B. repeat split; auto. intros k v Hk. apply Me in Hk. exact (Dn (k, v) Hk). }
    specialize (N1 o i j NB). apply slack_sign in N1. fold sg in N1. lra. }
  assert (HD : forall k, 0 <= lsumf D (skipn k l)) by (intros k; rewrite TD; specialize (Mv k); lra).
  assert (HB : exists c0, c0 * lsumf D l = 0 \/ 0 <= c0 * lsumf D l). { exists 0. left. ring. }
  clear HB.
  assert (AB : - (t * mass_shift f z z' l) <= lsumf (fun m => sg * w (fst m) * D m) l).
  { destruct l as [|[i x] r]; [elim Ne; reflexivity|]. rewrite Sh.
    assert (FIN : forall c0, c0 <= sg * w i + t -> c0 * lsumf D ((i, x) :: r) = 0 -> - (t * rsum (List.length ((i, x) :: r)) (fun k => lsumf D (skipn k ((i, x) :: r)))) <= lsumf (fun m => sg * w (fst m) * D m) ((i, x) :: r)).
    { intros c0 H1 H2. pose proof (abel (fun m => sg * w (fst m)) D t Ht ((i, x) :: r) c0 HD HC) as K.
      cbv beta in K. lapply K; [intros K'; rewrite H2 in K'; unfold Rminus in K'; rewrite Rplus_0_l in K'; exact K'|]. intros m r' Em. injection Em as <- _. exact H1. }
    destruct An as [T0|[L1|[i' [x' [r' [Em Hi]]]]]].
    - apply (FIN (sg * w i)); [lra|]. pose proof (TD 0%nat) as T. cbn [skipn] in T. rewrite T, T0. ring.
    - apply (FIN 0); [|ring]. destruct r; [|discriminate]. assert (I1 : in_group cols f o i x) by (apply Me; left; reflexivity).
      specialize (N2 o i x I1). assert (SI : dir_le_slack t d 0 (w i)).
      { apply N2. intros j y Hj. apply Me in Hj. destruct Hj as [Q|[]]. congruence. }
      apply slack_sign0 in SI. fold sg in SI. lra.
    - apply (FIN 0); [|ring]. injection Em as <- <- <-. apply slack_sign0 in Hi. fold sg in Hi. lra. }
  nra.
Qed.
Print Assumptions C85_predictor.

Lemma unit_tail {A} (h : A -> R) l1 m l2 : h m = 1 -> (forall x, In x l1 -> h x = 0) -> (forall x, In x l2 -> h x = 0) ->
  forall k, lsumf h (skipn k (l1 ++ m :: l2)) = if Nat.leb k (List.length l1) then 1 else 0.
Proof.
  intros Hm H1 H2. assert (Z2 : lsumf h l2 = 0) by (apply lsumf_zero, H2).
  assert (ZS : forall l k, (forall x, In x l -> h x = 0) -> lsumf h (skipn k l) = 0).
  { intros l k Hl. apply lsumf_zero. intros x Hx. apply Hl. rewrite <- (firstn_skipn k l). apply in_or_app. right. exact Hx. }
  induction l1 as [|a l1 IH]; intros [|k]; cbn [app skipn List.length Nat.leb].
  - rewrite lsumf_cons, Hm, Z2. ring.
  - apply ZS, H2.
  - rewrite lsumf_cons, H1 by (left; reflexivity). assert (I : forall x, In x l1 -> h x = 0) by (intros; apply H1; right; assumption).
    specialize (IH I 0%nat). cbn [skipn Nat.leb] in IH. rewrite IH. ring.
  - apply IH. intros; apply H1; right; assumption.
Qed.
Lemma level_tail pf (l : list member) f a z : StronglySorted (bf pf) l -> at_level f a z ->
  (exists i, In (i, Some a) l /\ forall j, In (j, Some a) l -> j = i) ->
  exists i l1 l2, l = l1 ++ (i, Some a) :: l2 /\
    forall k, tail_from f z l k = if Nat.leb k (List.length l1) then 1 else 0.
Proof.
  intros So [H1 H0] [i [Hi U]]. destruct (in_split _ _ Hi) as [l1 [l2 E]]. exists i, l1, l2. split; [exact E|]. intros k. unfold tail_from. rewrite E.
  pose proof (sorted_nodup pf l So) as ND. rewrite E in ND. apply NoDup_remove_2 in ND.
  assert (Z : forall m, In m (l1 ++ l2) -> z f (snd m) = 0).
  { intros [j x] Hm. apply H0. cbn. intros ->. assert (In (j, Some a) l). { rewrite E. apply in_app_or in Hm. apply in_or_app. destruct Hm; [left; assumption|right; right; assumption]. }
    rewrite (U j) in Hm by assumption. contradiction. }
  apply unit_tail; [exact H1| |]; intros m Hm; apply Z, in_or_app; auto.
Qed.
(** e is a bound for the shift of a group *)
Lemma slack_more t d a b e e' : 0 <= t -> e <= e' -> dir_le_slack (t * e) d a b -> dir_le_slack (t * e') d a b.
Proof. intros Ht He H. assert (t * e <= t * e') by (apply Rmult_le_compat_l; assumption). destruct d; cbn in *; lra. Qed.
Lemma shift_le f z z' G (h : list member -> R) : (forall o l, In (o, l) G -> 0 <= col_value z o /\ mass_shift f z z' l <= h l) ->
  total_shift f z z' G <= lsumf (fun g => col_value z (fst g) * h (snd g)) G.
Proof.
  intros H. unfold total_shift. apply lsumf_le. intros [o l] Hg. destruct (H o l Hg). cbn. apply Rmult_le_compat_l; assumption.
Qed.
Lemma shift_len f z z' l : (forall k, (k < List.length l)%nat -> tail_from f z' l k - tail_from f z l k <= 1) -> mass_shift f z z' l <= INR (List.length l).
Proof.
  intros H. unfold mass_shift. eapply Rle_trans; [apply rsum_le; intros k Hk; apply H, Hk|]. clear. induction (List.length l) as [|n IH]; [cbn; lra|]. cbn [rsum]. rewrite S_INR. lra.
Qed.

(** Categorical factors with a column for every level: the predictor follows the order of the levels. *)
Theorem C85_levels : forall pf cols f G d t b0 w z z' a b, once f cols -> grouping pf cols f G -> 0 <= t ->
  nearly_monotone t pf cols f d w -> same_but f z z' -> (forall o l, In (o, l) G -> 0 <= col_value z o) ->
  at_level f a z -> at_level f b z' -> coded a G -> coded b G -> lvl_lt pf (Some a) (Some b) ->
  dir_le_slack (t * lsumf (fun g => col_value z (fst g) * INR (List.length (snd g))) G) d (predictor cols b0 w z) (predictor cols b0 w z').
Proof.
  intros pf cols f G d t b0 w z z' a b On Gr Ht N Hs Po La Lb Ca Cb Lt.
  assert (T : forall o l, In (o, l) G -> (forall k, tail_from f z l k <= tail_from f z' l k <= 1) /\ tail_from f z l 0 = tail_from f z' l 0 /\ forall k, 0 <= tail_from f z l k).
  { intros o l Hg. destruct (proj1 (proj2 Gr) o l Hg) as [_ [So _]]. destruct (level_tail pf l f a z So La (Ca o l Hg)) as [i [l1 [l2 [E Ta]]]].
    destruct (level_tail pf l f b z' So Lb (Cb o l Hg)) as [j [r1 [r2 [E' Tb]]]].
    assert (LE : (List.length l1 <= List.length r1)%nat).
    { destruct (Nat.le_gt_cases (List.length l1) (List.length r1)) as [L|L]; [exact L|exfalso].
      assert (IN : In (j, Some b) l1).
      { assert (Q : nth_error l (List.length r1) = Some (j, Some b)) by (rewrite E', nth_error_app2, Nat.sub_diag by lia; reflexivity).
        rewrite E, nth_error_app1 in Q by exact L. eapply nth_error_In; eauto. }
      assert (So' : StronglySorted (bf pf) (l1 ++ (i, Some a) :: l2)) by (rewrite <- E; exact So).
      assert (SC : bf pf (j, Some b) (i, Some a)) by (apply (proj1 (sorted_cut pf l1 (i, Some a) l2 So')), IN).
      unfold bf, before in SC. cbn in SC. destruct SC as [Q|[Q _]].
      - exact (lvl_lt_irrefl pf _ (lvl_lt_trans pf _ _ _ Q Lt)).
      - exact (lvl_lt_irrefl pf _ (lvl_lt_eq pf _ _ _ Lt Q)). }
    split; [|split].
    - intros k. rewrite Ta, Tb. destruct (Nat.leb_spec k (List.length l1)), (Nat.leb_spec k (List.length r1)); try lia; lra.
    - rewrite Ta, Tb. reflexivity.
    - intros k. rewrite Ta. destruct (Nat.leb _ _); lra. }
  eapply slack_more; [exact Ht|apply (shift_le f z z' G (fun l => INR (List.length l)))|].
  - intros o l Hg. split; [apply (Po o l Hg)|]. apply shift_len. intros k _. destruct (T o l Hg) as [A [_ B]]. specialize (A k). specialize (B k). lra.
  - apply (C85_predictor pf); auto. intros o l Hg. destruct (T o l Hg) as [A [B _]]. split; [apply (Po o l Hg)|]. split; [intros k; apply A|left; exact B].
Qed.
Print Assumptions C85_levels.

(** With a dropped reference level the comparison with that level needs the sign of the first coefficient of every
    group, which the constraint does not give (C85_reference_refuted). *)
Theorem C85_reference_level : forall pf cols f G d t b0 w z z' b, once f cols -> grouping pf cols f G -> 0 <= t ->
  nearly_monotone t pf cols f d w -> same_but f z z' -> (forall o l, In (o, l) G -> 0 <= col_value z o) ->
  (forall o l m, In (o, l) G -> In m l -> z f (snd m) = 0) -> at_level f b z' -> coded b G ->
  (forall o i x r, In (o, (i, x) :: r) G -> dir_le_slack t d 0 (w i)) ->
  dir_le_slack (t * lsumf (fun g => col_value z (fst g) * INR (List.length (snd g))) G) d (predictor cols b0 w z) (predictor cols b0 w z').
Proof.
  intros pf cols f G d t b0 w z z' b On Gr Ht N Hs Po La Lb Cb Sg.
  assert (T : forall o l, In (o, l) G -> forall k, tail_from f z l k = 0 /\ 0 <= tail_from f z' l k <= 1).
  { intros o l Hg k. destruct (proj1 (proj2 Gr) o l Hg) as [_ [So _]]. destruct (level_tail pf l f b z' So Lb (Cb o l Hg)) as [j [r1 [r2 [E' Tb]]]].
    split; [|rewrite Tb; destruct (Nat.leb _ _); lra]. unfold tail_from. apply lsumf_zero. intros m Hm. apply (La o l m Hg).
    rewrite <- (firstn_skipn k l). apply in_or_app. right. exact Hm. }
  eapply slack_more; [exact Ht|apply (shift_le f z z' G (fun l => INR (List.length l)))|].
  - intros o l Hg. split; [apply (Po o l Hg)|]. apply shift_len. intros k _. destruct (T o l Hg k). lra.
  - apply (C85_predictor pf); auto. intros o l Hg. split; [apply (Po o l Hg)|]. split; [intros k; destruct (T o l Hg k); lra|].
    right. right. destruct l as [|[i x] r]; [destruct (proj1 (proj2 Gr) o [] Hg) as [Q _]; elim Q; reflexivity|]. exists i, x, r. split; [reflexivity|]. apply (Sg o i x r Hg).
Qed.
Print Assumptions C85_reference_level.

(** Numeric variables: one column per combination of the other factors. *)
Theorem C85_numeric : forall pf cols f G d t b0 w z z', once f cols -> grouping pf cols f G -> 0 <= t ->
  nearly_monotone t pf cols f d w -> same_but f z z' -> (forall o l, In (o, l) G -> 0 <= col_value z o /\ exists i, l = ((i, None) :: nil)) ->
  z f None <= z' f None ->
  dir_le_slack (t * lsumf (fun g => col_value z (fst g) * (z' f None - z f None)) G) d (predictor cols b0 w z) (predictor cols b0 w z').
Proof.
  intros pf cols f G d t b0 w z z' On Gr Ht N Hs Po Hz.
  assert (T : forall i k y, tail_from f y ((i, None) :: nil) k = match k with O => y f None | _ => 0 end).
  { intros i k y. unfold tail_from. destruct k as [|[|k]]; cbn [skipn]; rewrite ?lsumf_cons, ?lsumf_nil; cbn [snd]; ring. }
  eapply slack_more; [exact Ht|apply (shift_le f z z' G (fun l => z' f None - z f None))|].
  - intros o l Hg. destruct (Po o l Hg) as [P [i ->]]. split; [exact P|]. unfold mass_shift. cbn [List.length rsum]. rewrite !T. lra.
  - apply (C85_predictor pf); auto. intros o l Hg. destruct (Po o l Hg) as [P [i ->]]. split; [exact P|]. split; [|right; left; reflexivity].
    intros k. rewrite !T. destruct k; lra.
Qed.
Print Assumptions C85_numeric.

(** Splines.  The columns are the functions number first, ..., m - 1 of the basis: all of them (first = 0), or
    without the first ones, and then the sign of the first coefficient is needed as well. *)
Lemma spline_tail f lab kn s dg m x z first l : knots kn -> in_interval kn s x -> (s < m)%nat -> (first <= m)%nat -> spline_at f lab kn s dg m x z ->
  map snd l = map (fun i => Some (lab i)) (seq first (m - first)) ->
  forall k, tail_from f z l k = U kn s x dg (first + k).
Proof.
  intros Kn I Hs Hf Hz El k. unfold tail_from.
  assert (E : lsumf (fun m0 : member => z f (snd m0)) (skipn k l) = lsumf (fun i => bspline kn s dg i x) (skipn k (seq first (m - first)))).
  { transitivity (lsumf (fun x => z f x) (map snd (skipn k l))); [symmetry; apply lsumf_map|]. rewrite <- skipn_map, El, skipn_map, lsumf_map. apply lsumf_ext. intros i Hi.
    apply Hz. assert (Q : In i (seq first (m - first))) by (rewrite <- (firstn_skipn k); apply in_or_app; right; exact Hi). apply in_seq in Q. lia. }
  eapply eq_trans; [exact E|]. clear E El.
  destruct (Nat.le_gt_cases k (m - first)) as [L|L].
  - assert (SK : skipn k (seq first (m - first)) = seq (first + k) (m - first - k)).
    { replace (m - first)%nat with (k + (m - first - k))%nat at 1 by lia. rewrite seq_app, skipn_app, seq_length, Nat.sub_diag, skipn_all2 by (rewrite seq_length; lia). reflexivity. }
    rewrite SK. rewrite <- (tails kn s x m dg Hs (m - first - k) (first + k)) by lia.
    assert (G : forall n a, lsumf (fun i => bspline kn s dg i x) (seq a n) = rsum n (fun j => bspline kn s dg (a + j) x)).
    { induction n as [|n IH]; intros a; [reflexivity|]. cbn [seq]. rewrite lsumf_cons, rsum_S_l, IH. replace (a + 0)%nat with a by lia. f_equal. apply rsum_ext. intros i _. f_equal. lia. }
    apply G.
  - rewrite skipn_all2 by (rewrite seq_length; lia). rewrite U_after by lia. apply lsumf_nil.
Qed.
Theorem C85_spline : forall pf cols f G d t b0 w z z' lab kn s s' dg m first x x', once f cols -> grouping pf cols f G -> 0 <= t ->
  nearly_monotone t pf cols f d w -> same_but f z z' -> (forall o l, In (o, l) G -> 0 <= col_value z o) ->
  knots kn -> in_interval kn s x -> in_interval kn s' x' -> (dg <= s <= s')%nat -> (s' < m)%nat -> (first <= m)%nat -> x <= x' ->
  spline_at f lab kn s dg m x z -> spline_at f lab kn s' dg m x' z' -> spline_coded lab first m G ->
  (first = 0%nat \/ forall o i x r, In (o, (i, x) :: r) G -> dir_le_slack t d 0 (w i)) ->
  dir_le_slack (t * lsumf (fun g => col_value z (fst g) * INR (List.length (snd g))) G) d (predictor cols b0 w z) (predictor cols b0 w z').
Proof.
  intros pf cols f G d t b0 w z z' lab kn s s' dg m first x x' On Gr Ht N Hs Po Kn I I' Hd Hm Hf Hx Sz Sz' Co An.
  assert (T : forall o l, In (o, l) G -> forall k, tail_from f z l k = U kn s x dg (first + k) /\ tail_from f z' l k = U kn s' x' dg (first + k)).
  { intros o l Hg k. split; [apply (spline_tail f lab kn s dg m x z first l)|apply (spline_tail f lab kn s' dg m x' z' first l)]; auto; try lia; apply (Co o l Hg). }
  eapply slack_more; [exact Ht|apply (shift_le f z z' G (fun l => INR (List.length l)))|].
  - intros o l Hg. split; [apply (Po o l Hg)|]. apply shift_len. intros k _. destruct (T o l Hg k) as [-> ->].
    pose proof (U_range kn s x Kn I dg (first + k)). pose proof (U_range kn s' x' Kn I' dg (first + k)). lra.
  - apply (C85_predictor pf); auto. intros o l Hg. split; [apply (Po o l Hg)|]. split.
    + intros k. destruct (T o l Hg k) as [-> ->]. apply U_mono; auto; lia.
    + destruct An as [->|Sg].
      * left. destruct (T o l Hg 0%nat) as [-> ->]. rewrite !U_before by lia. reflexivity.
      * right. right. destruct l as [|[i y] r]; [destruct (proj1 (proj2 Gr) o [] Hg) as [Q _]; elim Q; reflexivity|]. exists i, y, r. split; [reflexivity|]. apply (Sg o i y r Hg).
Qed.
Print Assumptions C85_spline.

(** The grouping the code works with. *)
Lemma grouping_of pf sep f names cols g : parsed sep names cols -> group_columns_by_factor sep f names = Some g ->
  grouping pf cols f (map (fun km => (fst km, sort_members pf (snd km))) g).
Proof.
  intros P E. pose proof (group_inv _ _ _ _ _ P E) as I. pose proof (ginv_groups _ _ _ I) as [GO GA]. split; [|split].
  - rewrite map_map. cbn. destruct I as [ND _ _]. exact ND.
  - intros o l Hl. apply in_map_iff in Hl. destruct Hl as [[k ms] [Ek Hk]]. injection Ek as <- <-. pose proof (GO k ms Hk) as G.
    destruct (group_sorted pf _ _ _ _ G) as [So Me]. split; [|split; [exact So|exact Me]].
    destruct G as [Ne _]. intros Q. apply Ne. pose proof (Permutation_length (sort_perm pf ms)) as L. cbn [fst snd] in Q. rewrite Q in L. destruct ms; [reflexivity|discriminate].
  - intros o i x H. destruct (GA o i x H) as [ms Hm]. rewrite map_map. cbn. apply in_map_iff. exists (o, ms). auto.
Qed.
Lemma once_of f c : (forall l1 x l2 y l3, c <> (l1 ++ (f, x) :: l2 ++ (f, y) :: l3)%list) ->
  (forall x, In x c -> fst x <> f) \/ exists o x, has_factor f c o x.
Proof.
  intros H. destruct (existsb (fun x => String.eqb (fst x) f) c) eqn:Ex.
  - right. apply existsb_exists in Ex. destruct Ex as [[g x] [I Q]]. cbn in Q. apply String.eqb_eq in Q. subst g.
    destruct (in_split _ _ I) as [l1 [l2 E]]. exists (l1 ++ l2), x. exists l1, l2. split; [exact E|]. split; [reflexivity|].
    intros [g y] Hy Q. cbn in Q. subst g. apply in_app_or in Hy. destruct Hy as [Hy|Hy]; destruct (in_split _ _ Hy) as [r1 [r2 E']]; subst.
    + apply (H r1 y r2 x l2). rewrite <- app_assoc. reflexivity.
    + apply (H l1 x r1 y r2). reflexivity.
  - left. intros x Hx Q. assert (T : existsb (fun x => String.eqb (fst x) f) c = true); [|congruence]. apply existsb_exists. exists x. split; [exact Hx|]. apply String.eqb_eq, Q.
Qed.
Lemma parsed_unique sep names c1 c2 : parsed sep names c1 -> parsed sep names c2 -> c1 = c2.
Proof.
  unfold parsed. intros -> E. revert c2 E. induction c1 as [|a c1 IH]; intros [|b c2] E; try discriminate; [reflexivity|].
  cbn in E. injection E as -> E. f_equal. apply IH, E.
Qed.

(** Coefficients that satisfy the rows of the constraint matrix up to t: every constrained variable moves the
    predictor in its direction. *)
Theorem C85_rows : forall pf sep names spec mc q b0 b t, monotonic_ineq pf sep names spec mc = Some q -> 0 <= t ->
  (forall r, (r < iq_m q)%nat -> rsum (List.length names) (fun j => iq_A q r j * b j) <= t) ->
  exists cols, parsed sep names cols /\
  forall v s f, In (v, s) mc -> var_in_factor spec v f ->
    (forall v' s', In (v', s') mc -> var_in_factor spec v' f -> s' = s) ->
    exists d G, (s = "increasing"%string /\ d = Increasing \/ s = "decreasing"%string /\ d = Decreasing) /\
    once f cols /\ grouping pf cols f G /\ nearly_monotone t pf cols f d b /\
    forall z z', same_but f z z' ->
      (forall o l, In (o, l) G -> 0 <= col_value z o /\ moves_up f z z' l /\ anchored t d b f z z' l) ->
      dir_le_slack (t * total_shift f z z' G) d (predictor cols b0 b z) (predictor cols b0 b z').
Proof.
  intros pf sep names spec mc q b0 b t E Ht Hr. unfold monotonic_ineq in E. destruct (resolve_monotonic spec mc) as [fc|] eqn:Er; [|discriminate].
  destruct (C32_rows_with_slack _ _ _ _ _ E) as [cols [P Hiff]]. exists cols. split; [exact P|].
  intros v s f Hv Hf Hall. destruct (C32_variables_to_factors _ _ _ Er) as [_ [_ [G _]]]. specialize (G v s f Hv Hf Hall).
  pose proof (proj1 (Hiff b t) Hr) as X.
  destruct (C32_accepts pf sep names fc) as [Ac _]. destruct (Ac (ex_intro _ _ E)) as [_ [cols' [P' Acc]]].
  rewrite <- (parsed_unique _ _ _ _ P P') in Acc. clear cols' P'.
  destruct (Acc f s G) as [Sd [_ On]].
  assert (Eg : exists g, group_columns_by_factor sep f names = Some g).
  { unfold build_monotonic_constraints in E. destruct (all_some _ fc) as [rss|] eqn:Ea; [|discriminate].
    destruct (all_some_In _ _ _ Ea) as [A1 _]. destruct (A1 _ G) as [rw [Q _]]. unfold factor_rows in Q. cbn in Q.
    destruct (parse_direction s); [|discriminate]. destruct (group_columns_by_factor sep f names) as [g|]; [eauto|discriminate]. }
  destruct Eg as [g Eg]. pose proof (grouping_of pf _ _ _ _ _ P Eg) as Gr. set (G' := map _ g) in Gr.
  assert (On' : once f cols) by (intros c Hc; apply once_of; intros; apply On, Hc).
  assert (D : exists d, (s = "increasing"%string /\ d = Increasing \/ s = "decreasing"%string /\ d = Decreasing) /\ nearly_monotone t pf cols f d b).
  { destruct Sd as [-> | ->]; [exists Increasing|exists Decreasing]; split; auto; apply X, G. }
  destruct D as [d [Hd N]]. exists d, G'. split; [exact Hd|]. split; [exact On'|]. split; [exact Gr|]. split; [exact N|].
  intros z z' Hs HG. apply (C85_predictor pf); assumption.
Qed.
Print Assumptions C85_rows.

(** A fit by the monotonic solver without the warning about constraints. *)
Theorem C85_fit : forall pf sep names spec mc q u se l guess a b0 b w2,
  monotonic_ineq pf sep names spec mc = Some q -> u_p u = List.length names ->
  fit_with SMono u se (Some q) l guess a = Some (b0, b, false, w2) ->
  exists cols, parsed sep names cols /\
  forall v s f, In (v, s) mc -> var_in_factor spec v f ->
    (forall v' s', In (v', s') mc -> var_in_factor spec v' f -> s' = s) ->
    exists d G, (s = "increasing"%string /\ d = Increasing \/ s = "decreasing"%string /\ d = Decreasing) /\
    once f cols /\ grouping pf cols f G /\ nearly_monotone (1 / 1000000) pf cols f d b /\
    forall z z', same_but f z z' ->
      (forall o l, In (o, l) G -> 0 <= col_value z o /\ moves_up f z z' l /\ anchored (1 / 1000000) d b f z z' l) ->
      dir_le_slack (1 / 1000000 * total_shift f z z' G) d (predictor cols b0 b z) (predictor cols b0 b z').
Proof.
  intros pf sep names spec mc q u se l guess a b0 b w2 Eq Hp Ef. apply (C85_rows pf sep names spec mc q b0 b (1 / 1000000) Eq); [lra|].
  intros r Hr. rewrite <- Hp. apply (C70_monotonic_feasible _ _ _ _ _ _ _ _ _ Ef r Hr).
Qed.
Print Assumptions C85_fit.

(** The same for trust-constr: up to gradient_tol. *)
Theorem C85_fit_trust : forall pf sep names spec mc q u se l guess a b0 b sl,
  monotonic_ineq pf sep names spec mc = Some q -> u_p u = List.length names ->
  user_ok u -> 0 <= se_approx se -> se_stol se = None -> convex_pair (u_fam u) (u_link u) -> libs_sound sl l -> start_ok u a ->
  accepts STrust u (Some q) -> unclipped u b0 b -> 0 <= se_gtol se ->
  fit_with STrust u se (Some q) l guess a = Some (b0, b, false, false) ->
  exists cols, parsed sep names cols /\
  forall v s f, In (v, s) mc -> var_in_factor spec v f ->
    (forall v' s', In (v', s') mc -> var_in_factor spec v' f -> s' = s) ->
    exists d G, (s = "increasing"%string /\ d = Increasing \/ s = "decreasing"%string /\ d = Decreasing) /\
    once f cols /\ grouping pf cols f G /\ nearly_monotone (se_gtol se) pf cols f d b /\
    forall z z', same_but f z z' ->
      (forall o l, In (o, l) G -> 0 <= col_value z o /\ moves_up f z z' l /\ anchored (se_gtol se) d b f z z' l) ->
      dir_le_slack (se_gtol se * total_shift f z z' G) d (predictor cols b0 b z) (predictor cols b0 b z').
Proof.
  intros pf sep names spec mc q u se l guess a b0 b sl Eq Hp Hok Hc Hst Hcv Hl Ha Hacc Hu Hg Ef.
  apply (C85_rows pf sep names spec mc q b0 b (se_gtol se) Eq Hg).
  intros r Hr. rewrite <- Hp.
  destruct (C70_silent_near_optimal STrust u se (Some q) l guess a b0 b sl Hok Hc Hst Hcv Hl Ha Hacc ltac:(discriminate) (fun _ => Hu) Ef) as [_ [_ K]].
  specialize (K r Hr). assert (B0 : iq_b q r = 0).
  { unfold monotonic_ineq in Eq. destruct (resolve_monotonic spec mc); [|discriminate]. unfold build_monotonic_constraints in Eq.
    destruct (all_some _ _) as [rss|]; [|discriminate]. destruct (concat rss); [discriminate|]. injection Eq as <-. reflexivity. }
  rewrite B0 in K. lra.
Qed.
Print Assumptions C85_fit_trust.

(** From the predictor to the predictions. *)
Lemma clip_scale c v : 1 <= c -> clip (c * v) eps50 (1 - eps50) <= c * clip v eps50 (1 - eps50).
Proof.
  intros Hc. assert (E : 0 < eps50 < / 4).
  { unfold eps50, eps64. split; [apply Rmult_lt_0_compat; [lra|apply Rinv_0_lt_compat, pow_lt; lra]|].
    assert (200 < 2 ^ 52) by (apply Rlt_trans with (2 ^ 8); [cbn; lra|apply Rlt_pow; [lra|lia]]).
    assert (/ 2 ^ 52 < / 200) by (apply Rinv_lt_contravar; [apply Rmult_lt_0_compat; [lra|apply pow_lt; lra]|assumption]). lra. }
  unfold clip. unfold Rmin, Rmax. repeat destruct (Rle_dec _ _); nra.
Qed.
Lemma clip_mono a b : a <= b -> clip a eps50 (1 - eps50) <= clip b eps50 (1 - eps50).
Proof. intros H. unfold clip, Rmin, Rmax. repeat destruct (Rle_dec _ _); lra. Qed.
Lemma means_up l a b e : 0 <= e -> a <= b + e -> (forall p, l <> TweedieL p) ->
  match l with IdentityL => inverse1 l a <= inverse1 l b + e | _ => inverse1 l a <= exp e * inverse1 l b end.
Proof.
  intros He Hab Hl. assert (E1 : 1 <= exp e) by (rewrite <- exp_0; destruct He as [He|<-]; [left; apply exp_increasing, He|right; reflexivity]).
  assert (EE : exp a <= exp e * exp b). { rewrite <- exp_plus. destruct Hab as [H|H]; [left; apply exp_increasing; lra|right; f_equal; lra]. }
  destruct l; cbn [inverse1 raw_inverse].
  - elim (Hl p eq_refl).
  - exact Hab.
  - exact EE.
  - eapply Rle_trans; [apply clip_mono|apply clip_scale, E1]. unfold expit.
    pose proof (exp_pos (- a)). pose proof (exp_pos (- b)). pose proof (exp_pos e).
    assert (K : exp (- b) <= exp e * exp (- a)). { rewrite <- exp_plus. destruct Hab as [Q|Q]; [left; apply exp_increasing; lra|right; f_equal; lra]. }
    apply Rmult_le_reg_r with (1 + exp (- a)); [lra|]. apply Rmult_le_reg_r with (1 + exp (- b)); [lra|].
    replace (1 / (1 + exp (- a)) * (1 + exp (- a)) * (1 + exp (- b))) with (1 + exp (- b)) by (field; lra).
    replace (exp e * (1 / (1 + exp (- b))) * (1 + exp (- a)) * (1 + exp (- b))) with (exp e * (1 + exp (- a))) by (field; lra). nra.
  - eapply Rle_trans; [apply clip_mono|apply clip_scale, E1]. unfold expm1.
    assert (K : exp (- (exp e * exp b)) <= exp (- exp a)). { destruct EE as [Q|Q]; [left; apply exp_increasing; lra|right; rewrite Q; reflexivity]. }
    set (t := exp b) in *. set (c := exp e) in *. assert (Ht : 0 < t) by apply exp_pos.
    assert (K1 : exp (- (c * t)) = exp (- t) * exp (- ((c - 1) * t))) by (rewrite <- exp_plus; f_equal; ring).
    assert (K2 : 1 - (c - 1) * t <= exp (- ((c - 1) * t))) by (pose proof (exp_ineq1_le (- ((c - 1) * t))); lra).
    assert (K3 : exp (- t) * (1 + t) <= 1).
    { replace 1 with (exp (- t) * exp t) at 2 by (rewrite <- exp_plus, <- exp_0; f_equal; ring). apply Rmult_le_compat_l; [left; apply exp_pos|apply exp_ineq1_le]. }
    pose proof (exp_pos (- t)). assert (exp (- t) * (1 - (c - 1) * t) <= exp (- (c * t))) by (rewrite K1; apply Rmult_le_compat_l; lra).
    nra.
Qed.
Theorem C85_means : forall l lin i j x x' m m' d e, (forall p, l <> TweedieL p) -> 0 <= e ->
  nth_error lin i = Some x -> nth_error lin j = Some x' ->
  nth_error (fst (link_inverse l lin)) i = Some m -> nth_error (fst (link_inverse l lin)) j = Some m' ->
  dir_le_slack e d x x' ->
  match l with
  | IdentityL => dir_le_slack e d m m'
  | _ => match d with Increasing => m <= exp e * m' | Decreasing => m' <= exp e * m end
  end.
Proof.
  intros l lin i j x x' m m' d e Hl He Hi Hj Hm Hm' Hd. rewrite link_inverse_elementwise in Hm, Hm'.
  erewrite map_nth_error in Hm by eauto. erewrite map_nth_error in Hm' by eauto. injection Hm as <-. injection Hm' as <-.
  destruct d; cbn in Hd.
  - pose proof (means_up l x x' e He Hd Hl) as K. destruct l; exact K.
  - pose proof (means_up l x' x e He Hd Hl) as K. destruct l; exact K.
Qed.
Print Assumptions C85_means.

(** ** What the constraints do not give *)
(** A dropped reference level is not covered (F13): increasing coefficients, but the prediction falls from the
    reference level to level b. *)
Definition text_only : string -> option fl := fun _ => None.
Theorem C85_reference_refuted : exists q w z z',
  build_monotonic_constraints text_only ":" ["x[b]"; "x[c]"]%string (("x", "increasing") :: nil)%string = Some q /\
  (forall r, (r < iq_m q)%nat -> rsum 2 (fun j => iq_A q r j * w j) <= iq_b q r) /\
  (forall x, z "x"%string x = 0) /\ at_level "x" "b" z' /\ same_but "x" z z' /\
  forall cols b0, parsed ":" ["x[b]"; "x[c]"]%string cols -> predictor cols b0 w z' < predictor cols b0 w z.
Proof.
  eexists. exists (fun j => match j with O => -1 | _ => 0 end), (fun _ _ => 0), (fun g x => if (String.eqb g "x" && ostr_eqb x (Some "b"%string))%bool then 1 else 0).
  split; [reflexivity|]. split; [|split; [reflexivity|split; [|split]]].
  - intros [|r] Hr; [|cbn in Hr; lia]. cbn. unfold set_at, zero_row. cbn. lra.
  - split; [reflexivity|]. intros x Hx. destruct x as [s|]; [|reflexivity]. change ((if String.eqb s "b" then 1 else 0) = 0). rewrite (proj2 (String.eqb_neq s "b")) by congruence. reflexivity.
  - intros g x Hg. rewrite (proj2 (String.eqb_neq _ _) Hg). reflexivity.
  - intros cols b0 P. assert (cols = [(("x", Some "b") :: nil); (("x", Some "c") :: nil)]%string) as -> by (eapply parsed_unique; [exact P|reflexivity]).
    unfold predictor, col_value. cbn. lra.
Qed.
Print Assumptions C85_reference_refuted.

(** Splines without their first basis function, which is what bs(x) gives by default: the same. *)
Definition two_labels : string -> option fl :=
  fun s => if String.eqb s "1" then Some (Fin 1) else if String.eqb s "2" then Some (Fin 2) else None.
Definition ex_knots (i : nat) : R := match i with O | 1%nat => 0 | 2%nat => 1 | _ => 2 end.
Definition ex_label (i : nat) : string := match i with O => "0" | 1%nat => "1" | _ => "2" end.
Theorem C85_spline_refuted : exists q w z z',
  build_monotonic_constraints two_labels ":" ["bs(x)[1]"; "bs(x)[2]"]%string (("bs(x)", "increasing") :: nil)%string = Some q /\
  (forall r, (r < iq_m q)%nat -> rsum 2 (fun j => iq_A q r j * w j) <= iq_b q r) /\
  knots ex_knots /\ in_interval ex_knots 1 0 /\ in_interval ex_knots 1 1 /\
  spline_at "bs(x)" ex_label ex_knots 1 1 3 0 z /\ spline_at "bs(x)" ex_label ex_knots 1 1 3 1 z' /\ same_but "bs(x)" z z' /\
  forall cols b0, parsed ":" ["bs(x)[1]"; "bs(x)[2]"]%string cols -> predictor cols b0 w z' < predictor cols b0 w z.
Proof.
  set (at_x := fun (x : R) (g : string) (i : option string) => if String.eqb g "bs(x)" then
    match i with Some s => if String.eqb s "0" then bspline ex_knots 1 1 0 x else if String.eqb s "1" then bspline ex_knots 1 1 1 x else bspline ex_knots 1 1 2 x | None => 0 end else 0).
  assert (B1 : bspline ex_knots 1 1 1 0 = 0 /\ bspline ex_knots 1 1 1 1 = 1).
  { unfold bspline, ratio. cbn. rewrite (proj2 (Reqb_false 1 0)) by lra. rewrite (proj2 (Reqb_false 2 1)) by lra. split; field. }
  assert (B2 : bspline ex_knots 1 1 2 0 = 0 /\ bspline ex_knots 1 1 2 1 = 0).
  { unfold bspline. cbn. split; ring. }
  eexists. exists (fun j => match j with O => -1 | _ => 0 end), (at_x 0), (at_x 1).
  split; [|split; [|split; [|split; [|split; [|split; [|split; [|split]]]]]]].
  - assert (KF : key_ltb (Fin 2, EmptyString) (Fin 1, EmptyString) = false).
    { unfold key_ltb. cbn [fst snd fl_eqb fl_ltb]. rewrite (proj2 (Reqb_false 2 1)) by lra. apply Rltb_false. lra. }
    assert (FR : factor_rows two_labels ":" ["bs(x)[1]"; "bs(x)[2]"]%string ("bs(x)", "increasing")%string = Some (set_at (set_at zero_row 0 1) 1 (- (1)) :: nil)).
    { unfold factor_rows. cbn [fst snd]. change (parse_direction "increasing") with (Some Increasing).
      change (group_columns_by_factor ":" "bs(x)" ["bs(x)[1]"; "bs(x)[2]"]%string) with (Some ((@nil factor, ((0%nat, Some "1"%string) :: (1%nat, Some "2"%string) :: nil)) :: nil)).
      cbn [flat_map snd app]. unfold group_rows. cbn [List.length Nat.ltb Nat.leb sort_members insert_member].
      change (sort_key two_labels (1%nat, Some "2"%string)) with (Fin 2, EmptyString). change (sort_key two_labels (0%nat, Some "1"%string)) with (Fin 1, EmptyString). rewrite KF. reflexivity. }
    unfold build_monotonic_constraints. cbn [all_some]. rewrite FR. reflexivity.
  - intros [|r] Hr; [|cbn in Hr; lia]. cbn. unfold set_at, zero_row. cbn. lra.
  - intros i j Hij. unfold ex_knots. destruct i as [|[|[|i]]], j as [|[|[|j]]]; try lia; lra.
  - unfold in_interval, ex_knots. lra.
  - unfold in_interval, ex_knots. lra.
  - intros i Hi. destruct i as [|[|[|i]]]; [reflexivity|reflexivity|reflexivity|lia].
  - intros i Hi. destruct i as [|[|[|i]]]; [reflexivity|reflexivity|reflexivity|lia].
  - intros g x Hg. unfold at_x. rewrite (proj2 (String.eqb_neq _ _) Hg). reflexivity.
  - intros cols b0 P. assert (cols = [(("bs(x)", Some "1") :: nil); (("bs(x)", Some "2") :: nil)]%string) as -> by (eapply parsed_unique; [exact P|reflexivity]).
    unfold predictor, col_value, at_x. cbn [List.length rsum nth fold_right fst snd String.eqb Ascii.eqb Bool.eqb]. destruct B1 as [-> ->]. destruct B2 as [-> ->]. lra.
Qed.
Print Assumptions C85_spline_refuted.

(** Text levels are taken in alphabetical order, not in the order of the categories: "increasing" on the levels low,
    medium, high forces the prediction at low to be at least the one at high. *)
Theorem C85_text_levels_refuted : exists q,
  build_monotonic_constraints text_only ":" ["x[low]"; "x[medium]"; "x[high]"]%string (("x", "increasing") :: nil)%string = Some q /\
  forall w, (forall r, (r < iq_m q)%nat -> rsum 3 (fun j => iq_A q r j * w j) <= iq_b q r) ->
  forall cols b0 z z', parsed ":" ["x[low]"; "x[medium]"; "x[high]"]%string cols -> at_level "x" "low" z -> at_level "x" "high" z' ->
  predictor cols b0 w z' <= predictor cols b0 w z.
Proof.
  eexists. split; [reflexivity|]. intros w H cols b0 z z' P [L0 L1] [H0 H1].
  assert (cols = [(("x", Some "low") :: nil); (("x", Some "medium") :: nil); (("x", Some "high") :: nil)]%string) as -> by (eapply parsed_unique; [exact P|reflexivity]).
  pose proof (H 0%nat ltac:(cbn; lia)) as K. cbn in K. unfold set_at, zero_row in K. cbn in K.
  unfold predictor, col_value. cbn [List.length rsum nth fold_right fst snd].
  rewrite L0, H0, (L1 (Some "medium"%string)), (L1 (Some "high"%string)), (H1 (Some "low"%string)), (H1 (Some "medium"%string)) by discriminate. lra.
Qed.
Print Assumptions C85_text_levels_refuted.

(** An interaction with a numeric factor: where that factor is negative the direction is reversed. *)
Theorem C85_sign_refuted : exists q w z z',
  build_monotonic_constraints text_only ":" ["x"; "x:v"]%string (("x", "increasing") :: nil)%string = Some q /\
  (forall r, (r < iq_m q)%nat -> rsum 2 (fun j => iq_A q r j * w j) <= iq_b q r) /\
  z "x"%string None < z' "x"%string None /\ same_but "x" z z' /\
  forall cols b0, parsed ":" ["x"; "x:v"]%string cols -> predictor cols b0 w z' < predictor cols b0 w z.
Proof.
  eexists. exists (fun j => match j with O => 0 | _ => 1 end), (fun g _ => if String.eqb g "x" then 0 else -1), (fun g _ => if String.eqb g "x" then 1 else -1).
  split; [reflexivity|]. split; [|split; [cbn; lra|split]].
  - intros [|[|r]] Hr; [| |cbn in Hr; lia]; cbn; unfold set_at, zero_row; cbn; lra.
  - intros g x Hg. rewrite (proj2 (String.eqb_neq _ _) Hg). reflexivity.
  - intros cols b0 P. assert (cols = [(("x", None) :: nil); [("x", None); ("v", None)]]%string) as -> by (eapply parsed_unique; [exact P|reflexivity]).
    unfold predictor, col_value. cbn. lra.
Qed.
Print Assumptions C85_sign_refuted.

(** TweedieLink(2) is decreasing: a larger predictor, a smaller mean. *)
Theorem C85_link_refuted : exists l x x', x < x' /\ exists m m', fst (link_inverse l [x; x']) = [m; m'] /\ m' < m.
Proof.
  exists (TweedieL 2), 1, 2. split; [lra|]. eexists. eexists. split; [reflexivity|]. cbn [raw_inverse].
  destruct (Req_EM_T 2 0); [lra|]. destruct (Req_EM_T 2 1); [lra|].
  replace (1 / (1 - 2)) with (- (1)) by field. rewrite !Rpower_Ropp, !Rpower_1 by lra. lra.
Qed.
Print Assumptions C85_link_refuted.

(** ** Non-vacuity *)
(** A linear solver that answers 0 for a zero right-hand side and uses elimination otherwise. *)
Definition zero_first (solve : linear_solver) : linear_solver := fun n A b =>
  if forallb (fun k => Reqb (b k) 0) (seq 0 n) then Some (fun _ => 0) else solve n A b.
Lemma mono_at_start pb q P2b solve lam lm lf c : pb_ok pb -> 0 <= pb_approx pb -> pb_has_bounds pb = false -> (0 < pb_max_iter pb)%Z ->
  (forall r, (r < iq_m q)%nat -> iq_b q r = 0) -> any_gt pb q c 0 = false -> (forall j, (j < pb_p pb)%nat -> c (ioff (pb_ic pb) + j)%nat <> 0) ->
  (forall k, (k < nc pb)%nat -> score_of pb P2b c k = 0) ->
  rsum (nc pb) (entry c (fun _ => 0) (pb_P1 pb) (pb_ic pb) (pb_lb pb) (pb_ub pb)) < pb_gtol pb ->
  exists m, monotonic_irls_solver pb (ls_solver pb (zero_first solve)) q P2b lam lm lf c = Some (m, false, false) /\ st_coef (ms_st m) = c.
Proof.
  intros Hok HA HB HI B0 V0 NZ SC NT. set (inner := ls_solver pb (zero_first solve)).
  assert (UP : forall b lam, update_constraint_penalty pb q P2b b c lam = (P2b, true, negb b)).
  { intros b lam'. unfold update_constraint_penalty, build_monotonic_penalty. rewrite V0. reflexivity. }
  assert (V6 : any_gt pb q c (1 / 1000000) = false).
  { unfold any_gt in *. apply not_true_iff_false. intros Q. apply existsb_exists in Q. destruct Q as [r [Hr Q]]. apply Rltb_true in Q.
    assert (T : existsb (fun r => Rltb 0 (iq_val pb q c r)) (seq 0 (iq_m q)) = true); [|congruence]. apply existsb_exists. exists r. split; [exact Hr|]. apply Rltb_true. lra. }
  assert (EB : existsb (fun r : nat => negb (Reqb (iq_b q r) 0)) (seq 0 (iq_m q)) = false).
  { apply not_true_iff_false. intros Q. apply existsb_exists in Q. destruct Q as [r [Hr Q]]. apply in_seq in Hr. rewrite B0 in Q by lia.
    rewrite (proj2 (Reqb_true 0 0)) in Q by reflexivity. discriminate. }
  unfold monotonic_irls_solver. rewrite EB, UP. set (s0 := init_state pb P2b true c). set (m0 := mkMs s0 lam true).
  pose proof (inv_init pb P2b true c Hok) as I0. fold s0 in I0. assert (Ec : st_coef s0 = c) by (unfold s0; apply init_coef).
  set (sx := set_P2 s0 P2b (st_hinit s0)).
  pose proof (prepare_facts pb sx) as PF.
  assert (EI : inner (fst (prepare pb sx)) (snd (prepare pb sx)) = Some (fun _ => 0, 1%nat)).
  { unfold inner, ls_solver. rewrite HB.
    assert (EA : st_act (fst (prepare pb sx)) = seq 0 (nc pb)).
    { rewrite (pf_act _ _ _ _ PF). assert (Ecx : st_coef sx = c) by exact Ec. rewrite Ecx. apply identify_full. unfold identify_active_set. rewrite app_length, map_length.
      assert (F : forall l, incl l (seq 0 (pb_p pb)) -> filter (is_active pb c (st_score sx) (st_max sx)) l = l).
      { induction l as [|j l IH]; intros Hl; [reflexivity|]. cbn. unfold is_active at 1. rewrite (proj2 (Reqb_false _ 0)).
        - cbn. f_equal. apply IH. intros x Hx. apply Hl. right. exact Hx.
        - apply NZ. assert (In j (seq 0 (pb_p pb))) as Q by (apply Hl; left; reflexivity). apply in_seq in Q. lia. }
      rewrite F by apply incl_refl. rewrite seq_length. unfold nc, ioff. destruct (pb_ic pb); reflexivity. }
    rewrite EA, seq_length, Nat.eqb_refl. unfold zero_first.
    assert (FA : forallb (fun k => Reqb (st_score (fst (prepare pb sx)) k) 0) (seq 0 (nc pb)) = true).
    { apply forallb_forall. intros k Hk. apply in_seq in Hk. apply Reqb_true. rewrite (pf_score _ _ _ _ PF). change (st_score sx k) with (st_score s0 k).
      rewrite (coh_score _ _ _ (inv_coh _ _ _ I0)) by lia. rewrite Ec. apply SC. lia. }
    rewrite FA. reflexivity. }
  assert (ST : exists s', irls_step pb inner sx = Some s').
  { unfold irls_step. destruct (prepare pb sx) as [s1 Hm]. cbn [fst snd] in EI. rewrite EI. destruct (update_quadratic _ _ _ _) as [[? ?] ?]. destruct (check_convergence _ _ _ _) as [[[? ?] ?] ?]. eauto. }
  destruct ST as [s' ES]. destruct (irls_step_facts _ _ _ _ ES) as [d [cyc [Ei Fs]]]. rewrite EI in Ei. injection Ei as <- <-.
  assert (IX : inv pb P2b sx).
  { destruct I0 as [[I1 I2 I3 I4 I5 I6] I7 I8 I9]. constructor; simpl; auto. constructor; simpl; auto. }
  assert (EC' : st_coef s' = c).
  { destruct (sf_ls _ _ _ _ _ _ Fs) as [L1 _].
    destruct (line_search_spec pb (st_P2 sx) (st_coef sx) (st_score sx) (st_eta sx) (st_obj sx) (fun _ => 0) Hok (coh_eta _ _ _ (inv_coh _ _ _ IX))) as [[A1 [A2 _]] _].
    rewrite L1, A2, A1. change (st_coef sx) with (st_coef s0). rewrite Ec. unfold vadd, vscale. apply functional_extensionality. intros k. ring. }
  assert (MS : mono_step pb inner q P2b lf lm m0 = Some (mkMs s' lam true)).
  { unfold mono_step. cbn [ms_st ms_lam ms_base m0]. rewrite Ec, V0, UP. cbn [negb]. change (set_P2 s0 P2b (st_hinit s0)) with sx. rewrite ES, EC', V6, andb_false_r. reflexivity. }
  assert (CV : st_conv s' = true).
  { apply (check_conv_iff pb s' (sf_conv _ _ _ _ _ _ Fs)). left.
    pose proof (mf_norm _ _ _ _ _ _ _ (mono_step_facts _ _ _ _ _ _ _ _ MS)) as N. cbn [ms_st] in N. rewrite N, norm_sum_full.
    assert (MI : minv pb q P2b m0) by (constructor; [cbn [ms_st m0]; rewrite (inv_P2 _ _ _ I0); exact I0|intros _; exact (inv_P2 _ _ _ I0)]).
    pose proof (minv_step _ _ _ _ _ _ _ _ Hok HA MI MS) as MI'. pose proof (minv_inv _ _ _ _ MI') as IN. cbn [ms_st] in IN.
    assert (E2 : st_P2 s' = P2b) by (rewrite (sf_P2 _ _ _ _ _ _ Fs); reflexivity). rewrite E2 in IN.
    rewrite EC'. eapply Rle_lt_trans; [|exact NT]. apply Req_le, rsum_ext. intros k Hk. 
    assert (Z : forall k, (k < nc pb)%nat -> - st_score s' k = 0) by (intros k' Hk'; rewrite (coh_score _ _ _ (inv_coh _ _ _ IN)) by exact Hk'; rewrite EC', SC by exact Hk'; ring).
    unfold entry. destruct (Nat.ltb_spec k (ioff (pb_ic pb))) as [L|L]; rewrite Z by lia; reflexivity. }
  assert (E0 : st_conv s0 = false /\ st_niter s0 = 0%Z).
  { unfold s0, init_state. destruct (eta_mu_objective _ _ _ _ _ _) as [[[? ?] ?] ?].
    destruct (update_quadratic _ _ _ _) as [[? ?] ?]. destruct (check_convergence _ _ _ _) as [[[? ?] ?] ?]. split; reflexivity. }
  destruct E0 as [E01 E02].
  assert (LP : forall f, mono_loop pb inner q P2b lf lm f (mkMs s' lam true) = Some (mkMs s' lam true)).
  { intros [|f]; [reflexivity|]. cbn [mono_loop ms_st]. rewrite CV, andb_false_r. reflexivity. }
  assert (L0 : mono_loop pb inner q P2b lf lm (S (Z.to_nat (pb_max_iter pb))) m0 = Some (mkMs s' lam true)).
  { cbn [mono_loop]. change (ms_st m0) with s0. rewrite E01, E02, (proj2 (Z.ltb_lt 0 (pb_max_iter pb)) HI). cbn [negb andb]. rewrite MS. apply LP. }
  exists (mkMs s' lam true). rewrite L0. cbn [ms_st]. rewrite CV, EC', V6. split; reflexivity.
Qed.

(** Two points, started at the solution: a silent fit by the monotonic solver under "x increasing", with a sound
    linear solver; and the hypotheses on the data points are met by any two values of x. *)
Definition mono_libs : libs := mkLibs (fun _ => 0%N) (zero_first gauss) (fun _ => gauss) lsq_square lb_here tr_here.
Example C85_nonvacuous : exists q b0 b w2 cols, libs_sound 0 mono_libs /\
  monotonic_ineq text_only ":" ("x"%string :: nil) (("x"%string, "x"%string :: nil) :: nil) (("x"%string, "increasing"%string) :: nil) = Some q /\
  u_p (exu None) = List.length ("x"%string :: nil) /\
  fit_with SMono (exu None) ex70_se (Some q) mono_libs 0 ex70_a = Some (b0, b, false, w2) /\
  parsed ":" ("x"%string :: nil) cols /\ once "x" cols /\ grouping text_only cols "x" ((nil, (0%nat, None) :: nil) :: nil) /\
  var_in_factor (("x"%string, "x"%string :: nil) :: nil) "x" "x" /\
  forall x x' : R, x <= x' -> predictor cols b0 b (fun _ _ => x) <= predictor cols b0 b (fun _ _ => x') + 1 / 1000000 * (x' - x).
Proof.
  set (u := exu None). set (se := solve_settings SMono u ex70_se). set (pb := std_problem u se).
  assert (Hok : user_ok u).
  { split; [exact I|]. split; [intros; exact I|]. split; [intros; simpl; lra|]. split; [intros; simpl; lra|]. split.
    - intros i j Hi Hj. simpl in Hi, Hj. replace i with j by lia. reflexivity.
    - intros v. simpl. lra. }
  set (st := get_start_coef (u_p u) (u_ic u) (u_means u) (u_stds u) 0 (u_lb u) (u_ub u) ex70_a).
  assert (S0 : st 0%nat = 0).
  { change (0 + rsum 1 (fun j => u_means (exu None) j * one_over (u_stds (exu None) j) * (9 / 5 * u_stds (exu None) j)) = 0). cbn [rsum]. rewrite ex57_means. ring. }
  assert (S1 : st 1%nat = 9 / 10).
  { change (9 / 5 * u_stds (exu None) 0%nat = 9 / 10). rewrite ex57_stds. field. }
  assert (F0 : fst (user_result u st) = 0).
  { unfold user_result, unpack. change (u_ic u) with true. cbv iota. unfold unstandardize. cbn [fst].
    rewrite rsum_zero; [rewrite S0; ring|]. intros j _. unfold u. rewrite ex57_means. ring. }
  assert (R0 : snd (user_result u st) 0%nat = 9 / 5).
  { unfold u. rewrite !result_coef, ex57_stds, ex57_inv. change (ioff (u_ic (exu None)) + 0)%nat with 1%nat. fold u. rewrite S1. field. }
  assert (ETA : forall i, (i < 2)%nat -> user_eta u (fst (user_result u st)) (snd (user_result u st)) i = u_y u i).
  { intros i Hi. unfold user_eta. change (u_p u) with 1%nat. cbn [rsum]. rewrite F0, R0.
    destruct i as [|[|i]]; [| |lia]; simpl; field. }
  assert (SC : forall k, (k < 2)%nat -> score_of pb (std_problem_P2 u) st k = 0).
  { intros k Hk. assert (k = 0 \/ k = ioff (u_ic u) + 0)%nat as [ -> | -> ] by (cbn; lia).
    - unfold pb. rewrite (score_intercept u se st eq_refl I). apply rsum_zero. intros i Hi. rewrite ETA by exact Hi. cbn. ring.
    - unfold pb. rewrite (score_column u se st 0 Nat.lt_0_1) by (try exact I; intros l _; cbn; destruct l; reflexivity).
      apply rsum_zero. intros i Hi. rewrite ETA by exact Hi. cbn. ring. }
  set (q := mkIneq 1 (fun r j => nth r (set_at zero_row 0 (- (1)) :: nil) zero_row j) (fun _ => 0)).
  assert (V0 : any_gt pb (std_ineq q (u_stds u)) st 0 = false).
  { unfold any_gt. change (iq_m (std_ineq q (u_stds u))) with 1%nat. cbn [seq existsb]. rewrite orb_false_r. apply Rltb_false.
    unfold iq_val, pb. change (pb_p (std_problem u se)) with 1%nat. cbn [rsum]. change (ioff (pb_ic (std_problem u se)) + 0)%nat with 1%nat. rewrite S1.
    unfold std_ineq. cbn [iq_A iq_b q nth]. unfold u. rewrite ex57_stds, ex57_inv. unfold set_at, zero_row. cbn. lra. }
  destruct (mono_at_start pb (std_ineq q (u_stds u)) (std_problem_P2 u) gauss 100000 1000000000 100 st) as [m [EM EC]].
  - apply std_ok, Hok.
  - cbn. lra.
  - reflexivity.
  - reflexivity.
  - reflexivity.
  - exact V0.
  - intros j Hj. change (pb_p pb) with 1%nat in Hj. replace j with 0%nat by lia. change (ioff (pb_ic pb) + 0)%nat with 1%nat. rewrite S1. lra.
  - exact SC.
  - change (nc pb) with 2%nat. cbn [rsum]. unfold entry.
    cbn [pb std_problem pb_ic u exu u_ic ioff Nat.ltb Nat.leb Nat.sub pb_P1 pb_lb pb_ub u_P1 u_lb u_ub u_scale].
    replace (std_P1 false (fun _ => 0) (u_stds _) 0%nat) with 0 by (unfold std_P1; ring).
    change (std_bounds (fun _ => None) _ 0%nat) with (@None R).
    rewrite subgrad_free. rewrite Rabs_R0. cbn. lra.
  - exists q, (fst (user_result u st)), (snd (user_result u st)), (Nat.ltb 0 (st_lswarn (ms_st m))), ((("x"%string, None) :: nil) :: nil).
    split; [|split; [reflexivity|split; [reflexivity|split; [|split; [reflexivity|split; [|split; [|split]]]]]]].
    + pose proof (exact_libs_sound 0 (Rle_refl 0)) as [A [B C]]. split; [exact A|]. split; [|exact C].
      intros n M b x Sy E. cbn in E. unfold zero_first in E. destruct (forallb _ _) eqn:Fb in E; [|exact (B n M b x Sy E)].
      injection E as <-. intros k Hk. rewrite forallb_forall in Fb. specialize (Fb k ltac:(apply in_seq; lia)). apply Reqb_true in Fb. rewrite Fb. apply rsum_zero. intros; ring.
    + unfold fit_with. fold u. fold st. unfold solve. cbv zeta. cbn [option_map]. fold se. fold pb.
      change (lib_pos mono_libs) with (zero_first gauss). rewrite EM, EC. rewrite <- surjective_pairing. reflexivity.
    + intros c [<-|[]]. right. exists nil, None. exists nil, nil. split; [reflexivity|]. split; [reflexivity|]. intros x [].
    + split; [constructor; [intros []|constructor]|]. split.
      * intros o l [E|[]]. injection E as <- <-. split; [discriminate|]. split; [repeat constructor|].
        intros i x. split.
        -- intros [E|[]]. injection E as <- <-. exists (("x"%string, None) :: nil). split; [reflexivity|]. exists nil, nil. split; [reflexivity|]. split; [reflexivity|]. intros y [].
        -- intros [c [Ec [l [r [E1 [E2 _]]]]]]. destruct i as [|[|i]]; try discriminate. injection Ec as <-.
           destruct l; [|destruct l; discriminate]. cbn in E1. injection E1 as <- _. left. reflexivity.
      * intros o i x [c [Ec [l [r [E1 [E2 _]]]]]]. destruct i as [|[|i]]; try discriminate. injection Ec as <-.
        destruct l; [|destruct l; discriminate]. cbn in E1. injection E1 as _ <-. left. symmetry. exact E2.
    + exists ("x"%string, "x"%string :: nil). split; [left; reflexivity|]. split; [left; reflexivity|]. exists EmptyString.
      split; [reflexivity|]. split; [intros c []|]. intros g c E. cbn [fst] in E. destruct g as [|a [|a' g]]; cbn in E; try discriminate.
      injection E as <-. intros [Q|Q]; discriminate.
    + intros x x' Hx. unfold predictor, col_value. cbn [List.length rsum nth fold_right fst snd]. rewrite R0. lra.
Qed.

(** The hypotheses of C85_levels and C85_spline. *)
Definition ex_levels : list string := ["x[a]"; "x[b]"]%string.
Example C85_levels_nonvacuous : exists cols G z z', parsed ":" ex_levels cols /\ once "x" cols /\ grouping text_only cols "x" G /\
  nearly_monotone 0 text_only cols "x" Increasing (fun j => INR j) /\ same_but "x" z z' /\ (forall o l, In (o, l) G -> 0 <= col_value z o) /\
  at_level "x" "a" z /\ at_level "x" "b" z' /\ coded "a" G /\ coded "b" G /\ lvl_lt text_only (Some "a"%string) (Some "b"%string) /\
  predictor cols 0 (fun j => INR j) z = 0 /\ predictor cols 0 (fun j => INR j) z' = 1.
Proof.
  assert (P : parsed ":" ex_levels ((("x"%string, Some "a"%string) :: nil) :: (("x"%string, Some "b"%string) :: nil) :: nil)) by reflexivity.
  set (at_ := fun (a : string) (g : string) (x : option string) => if (String.eqb g "x" && ostr_eqb x (Some a))%bool then 1 else 0).
  assert (AT : forall a, at_level "x" a (at_ a)).
  { intros a. split; [unfold at_; cbn; rewrite String.eqb_refl; reflexivity|]. intros [s|] Hx; [|reflexivity]. change ((if String.eqb s a then 1 else 0) = 0). rewrite (proj2 (String.eqb_neq s a)) by congruence. reflexivity. }
  eexists. eexists. exists (at_ "a"%string), (at_ "b"%string). split; [exact P|]. split; [|split; [apply (grouping_of text_only ":" "x" ex_levels _ ((nil, (0%nat, Some "a"%string) :: (1%nat, Some "b"%string) :: nil) :: nil) P); reflexivity|]].
  - intros c [<-|[<-|[]]]; right; exists nil; eexists; exists nil, nil; (split; [reflexivity|]; split; [reflexivity|]; intros y []).
  - split; [|split; [|split; [|split; [apply AT|split; [apply AT|split; [|split; [|split; [|split]]]]]]]].
    + assert (B : exists q, build_monotonic_constraints text_only ":" ex_levels (("x", "increasing") :: nil)%string = Some q /\ iq_m q = 1%nat /\ iq_A q 0%nat 0%nat = 1 /\ iq_A q 0%nat 1%nat = - (1)) by (eexists; split; [reflexivity|repeat split; reflexivity]).
      destruct B as [q [B [Bm [A0 A1]]]]. destruct (C32_rows_with_slack _ _ _ _ _ B) as [cols [P' H]]. rewrite (parsed_unique _ _ _ _ P P').
      apply (proj1 (H (fun j => INR j) 0)); [|left; reflexivity]. intros r Hr. rewrite Bm in Hr. assert (r = 0%nat) as -> by lia. change (List.length ex_levels) with 2%nat. cbn [rsum]. rewrite A0, A1. cbn. lra.
    + intros g x Hg. unfold at_. rewrite (proj2 (String.eqb_neq _ _) Hg). reflexivity.
    + intros o l [E|[]]. injection E as <- _. unfold col_value. cbn. lra.
    + intros o l [E|[]]. injection E as _ <-. exists 0%nat. cbn. split; [left; reflexivity|]. intros j [E|[E|[]]]; congruence.
    + intros o l [E|[]]. injection E as _ <-. exists 1%nat. cbn. split; [right; left; reflexivity|]. intros j [E|[E|[]]]; congruence.
    + right. split; reflexivity.
    + unfold predictor, col_value, at_. cbn. ring.
    + unfold predictor, col_value, at_. cbn. ring.
Qed.
Example C85_spline_nonvacuous : knots ex_knots /\ in_interval ex_knots 1 (1 / 2) /\ in_interval ex_knots 2 (3 / 2) /\
  bspline ex_knots 1 1 0 (1 / 2) = / 2 /\ bspline ex_knots 1 1 1 (1 / 2) = / 2 /\ bspline ex_knots 2 1 1 (3 / 2) = / 2 /\ bspline ex_knots 2 1 2 (3 / 2) = / 2.
Proof.
  split; [|split; [unfold in_interval, ex_knots; lra|split; [unfold in_interval, ex_knots; lra|]]].
  - intros i j Hij. unfold ex_knots. destruct i as [|[|[|i]]], j as [|[|[|j]]]; try lia; lra.
  - unfold bspline, ratio. cbn. rewrite (proj2 (Reqb_false 1 0)) by lra. rewrite (proj2 (Reqb_false 2 1)) by lra. rewrite ?(proj2 (Reqb_true 0 0)) by reflexivity. repeat split; field.
Qed.
