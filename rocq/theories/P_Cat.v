(** Theorems C38 and C45: categorical columns. *)
From Coq Require Import String.
From Verif Require Import Base M_Solver M_Std M_Formula M_Cat S_Cat L_Formula L_Cat.
From Verif Require Import M_Solver S_Solver.
Local Open Scope R_scope.

(** C38: a penalty per input column reaches exactly the coefficients of that column. *)
Theorem C38_penalties_expand : forall pen sc df hm alpha l1, List.length pen = List.length sc -> List.length hm = List.length sc ->
  let own := owners df sc hm in
  (exists P1, setup_p1 (expand_p1 (P1Array pen) sc df hm) (List.length own) alpha l1 = Some P1 /\
     forall k, (k < List.length own)%nat -> P1 k = alpha * l1 * nth (nth k own 0%nat) pen 0) /\
  (exists a v, expand_p2 (P2Array1 pen) sc df hm = Some a /\ setup_p2 a (List.length own) alpha l1 = Some (P2diag v) /\
     forall k, (k < List.length own)%nat -> v k = alpha * (1 - l1) * nth (nth k own 0%nat) pen 0).
Proof.
  intros pen sc df hm alpha l1 H1 H2 own.
  assert (L : List.length (expand_1d pen sc df hm) = List.length own) by (rewrite expand_1d_owners by assumption; apply map_length).
  assert (N : forall k, (k < List.length own)%nat -> nth k (expand_1d pen sc df hm) 0 = nth (nth k own 0%nat) pen 0).
  { intros k Hk. rewrite expand_1d_owners by assumption. fold own.
    rewrite (nth_indep _ 0 (nth 0%nat pen 0)) by (rewrite map_length; exact Hk).
    apply (map_nth (fun i => nth i pen 0)). }
  split.
  - eexists. split.
    + simpl. rewrite L, Nat.eqb_refl. reflexivity.
    + intros k Hk. cbv beta. rewrite N by exact Hk. reflexivity.
  - eexists. eexists. split; [reflexivity|]. split.
    + simpl. rewrite L, Nat.eqb_refl. reflexivity.
    + intros k Hk. cbv beta. rewrite N by exact Hk. reflexivity.
Qed.
Print Assumptions C38_penalties_expand.

(** Every input column's coefficients form one block, in column order, of the size the frame
    generates. *)
Theorem C38_coefficient_blocks : forall df sc hm i d m, nth_error sc i = Some d -> nth_error hm i = Some m ->
  count_occ Nat.eq_dec (owners df sc hm) i = n_generated df d m /\
  (forall j k, (j <= k)%nat -> (k < List.length (owners df sc hm))%nat ->
     (nth j (owners df sc hm) 0 <= nth k (owners df sc hm) 0)%nat).
Proof.
  intros df sc hm i d m Es Eh. unfold owners.
  assert (Low : forall sc hm i0 x, In x (owners_from i0 df sc hm) -> (i0 <= x)%nat).
  { clear. induction sc as [|d sc IH]; intros [|m hm] i0 x H; try (destruct H). cbn [owners_from] in H.
    apply in_app_or in H. destruct H as [H|H]; [apply repeat_spec in H; lia|]. apply IH in H. lia. }
  split.
  - assert (X : forall sc hm i0 i, nth_error sc i = Some d -> nth_error hm i = Some m ->
      count_occ Nat.eq_dec (owners_from i0 df sc hm) (i0 + i)%nat = n_generated df d m).
    { clear - Low. induction sc as [|d0 sc IH]; intros [|m0 hm] i0 i E1 E2; try (destruct i; discriminate).
      cbn [owners_from]. rewrite count_occ_app. destruct i as [|i].
      - simpl in E1, E2. injection E1 as ->. injection E2 as ->. rewrite Nat.add_0_r. rewrite count_occ_repeat_eq by reflexivity.
        rewrite (proj1 (count_occ_not_In Nat.eq_dec _ i0)); [lia|]. intros H. apply Low in H. lia.
      - simpl in E1, E2. rewrite count_occ_repeat_neq by lia. simpl. replace (i0 + S i)%nat with (S i0 + i)%nat by lia. apply IH; assumption. }
    apply (X sc hm 0%nat i Es Eh).
  - assert (X : forall sc hm i0 j k, (j <= k)%nat -> (k < List.length (owners_from i0 df sc hm))%nat ->
      (nth j (owners_from i0 df sc hm) 0 <= nth k (owners_from i0 df sc hm) 0)%nat).
    { clear - Low. induction sc as [|d0 sc IH]; intros [|m0 hm] i0 j k Hjk Hk; try (simpl in Hk; lia).
      cbn [owners_from] in *. set (a := n_generated df d0 m0) in *. rewrite app_length, repeat_length in Hk.
      assert (R1 : forall q, (q < a)%nat -> nth q (repeat i0 a) 0%nat = i0).
      { intros q Hq. apply nth_repeat_lt || (apply (repeat_spec a i0), nth_In; rewrite repeat_length; exact Hq). }
      destruct (le_lt_dec a j) as [La|La].
      - rewrite !app_nth2 by (rewrite repeat_length; lia). rewrite repeat_length. apply IH; lia.
      - rewrite (app_nth1 _ _ _) by (rewrite repeat_length; lia). rewrite R1 by lia.
        destruct (le_lt_dec a k) as [Lk|Lk].
        + rewrite app_nth2 by (rewrite repeat_length; lia). rewrite repeat_length.
          assert (Q : In (nth (k - a) (owners_from (S i0) df sc hm) 0%nat) (owners_from (S i0) df sc hm)) by (apply nth_In; lia).
          apply Low in Q. lia.
        + rewrite app_nth1 by (rewrite repeat_length; lia). rewrite R1 by lia. lia. }
    intros j k. apply X.
Qed.
Print Assumptions C38_coefficient_blocks.

(** Any other length is passed through, hence rejected unless it is the number of coefficients. *)
Theorem C38_other_lengths : forall pen sc df hm alpha l1 p, List.length pen <> List.length sc ->
  (setup_p1 (expand_p1 (P1Array pen) sc df hm) p alpha l1 = None <-> List.length pen <> p) /\
  expand_p1 (P1Array pen) sc df hm = P1Array pen.
Proof.
  intros pen sc df hm alpha l1 p H.
  assert (E : expand_p1 (P1Array pen) sc df hm = P1Array pen).
  { simpl. unfold expand_1d. destruct (existsb is_cat sc); [|reflexivity]. apply Nat.eqb_neq in H. rewrite H. reflexivity. }
  split; [|exact E]. rewrite E. simpl. destruct (Nat.eqb_spec (List.length pen) p); split; congruence.
Qed.
Print Assumptions C38_other_lengths.

(** A vector with one entry per generated coefficient is reinterpreted per input column when the
    two counts happen to agree: its entries then reach other coefficients. *)
Theorem C38_ambiguous_refuted : exists pen sc hm, List.length pen = List.length (owners true sc hm) /\
  List.length hm = List.length sc /\ expand_p1 (P1Array pen) sc true hm <> P1Array pen.
Proof.
  exists [1; 2], [DEnum ["a"%string]; DEnum ["a"; "b"; "c"]%string], [false; false].
  split; [reflexivity|]. split; [reflexivity|]. cbv -[Rplus Rmult IZR]. intros E. injection E as E. lra.
Qed.
Print Assumptions C38_ambiguous_refuted.

(** A P2 matrix is never expanded: with a categorical column it must not have one row per input column
    (ValueError); otherwise it must have one row and column per generated coefficient and is used as is
    (its symmetric part). *)
Theorem C38_matrix : forall r c M sc df hm alpha l1 p,
  (In true (map is_cat sc) -> r = List.length sc -> expand_p2 (P2Array2 r c M) sc df hm = None) /\
  (~ In true (map is_cat sc) \/ r <> List.length sc ->
     exists a, expand_p2 (P2Array2 r c M) sc df hm = Some a /\
       (setup_p2 a p alpha l1 = None <-> ~ (r = p /\ c = p)) /\
       (r = p -> c = p -> exists Q, setup_p2 a p alpha l1 = Some Q /\
          forall i j, p2_entry Q i j = alpha * (1 - l1) * ((M i j + M j i) / 2))).
Proof.
  intros r c M sc df hm alpha l1 p.
  assert (E : existsb is_cat sc = true <-> In true (map is_cat sc)).
  { rewrite existsb_exists, in_map_iff. split; intros [x [A B]]; exists x; auto. }
  split.
  - intros H ->. unfold expand_p2, expand_2d. rewrite (proj2 E H), Nat.eqb_refl. reflexivity.
  - intros H. exists (P2Array2 r c M). split.
    + unfold expand_p2, expand_2d. destruct (existsb is_cat sc) eqn:X; [|reflexivity].
      destruct (Nat.eqb_spec r (List.length sc)) as [Y|Y]; [|reflexivity]. destruct H as [H|H]; [|congruence].
      exfalso. apply H, E, eq_refl.
    + cbn [setup_p2]. split.
      * destruct (Nat.eqb_spec r c); destruct (Nat.eqb_spec r p); cbn [andb]; split; intros Q; try discriminate; try reflexivity; first [intros [? ?]; congruence|exfalso; apply Q; split; congruence].
      * intros -> ->. rewrite !Nat.eqb_refl. cbn [andb]. eexists. split; [reflexivity|]. intros i j. cbn [p2_entry]. field.
Qed.
Print Assumptions C38_matrix.

Example C38_nonvacuous : owners true [DNumber; DEnum ["a"; "b"; "c"]%string; DCategorical ["u"; "v"]%string] [false; true; false]
   = [0; 1; 1; 1; 2]%nat /\
  expand_1d [10; 20; 30] [DNumber; DEnum ["a"; "b"; "c"]%string; DCategorical ["u"; "v"]%string] true [false; true; false]
   = [10; 20; 20; 20; 30].
Proof. split; reflexivity. Qed.

(** C45: the codes of a categorical column of a new frame are those of its values under the
    training levels, and the conversion succeeds iff every value has such a code. *)
Theorem C45_codes : forall levels hm m name feature c codes, col_wf c ->
  (m = MConvert -> feature = true -> ~ In name levels) -> (feature = true -> hm = true) ->
  (convert_column levels hm m name feature c = Some codes <->
   List.length codes = List.length (c_vals c) /\
   forall i v k, nth_error (c_vals c) i = Some v -> nth_error codes i = Some k -> training_code levels m feature v k).
Proof.
  intros levels hm m name feature c codes W Hn Hf.
  rewrite convert_eq; [|exact W|intros Q; apply Hn; destruct m; try discriminate; reflexivity|exact Hf].
  rewrite all_some_map. generalize (c_vals c). intros vs. revert codes. induction vs as [|v vs IH]; intros [|k codes]; simpl.
  - split; [|reflexivity]. intros _. split; [reflexivity|]. intros i; destruct i; discriminate.
  - split; [discriminate|]. intros [Q _]. discriminate.
  - split; [discriminate|]. intros [Q _]. discriminate.
  - split.
    + intros E. injection E as E1 E2. apply IH in E2. destruct E2 as [L H]. split; [congruence|].
      intros [|i] v' k' Q1 Q2; simpl in *; [|eapply H; eauto]. injection Q1 as <-. injection Q2 as <-. apply code_of_iff. exact E1.
    + intros [L H]. f_equal.
      * apply code_of_iff. apply (H 0%nat v k); reflexivity.
      * apply IH. split; [congruence|]. intros i v' k' Q1 Q2. apply (H (S i) v' k'); assumption.
Qed.
Print Assumptions C45_codes.

(** Equal cell values give equal codes (or equal failure), whatever the dtype, the order of the
    categories or unused categories. *)
Theorem C45_encoding_independent : forall levels hm m name feature c c', col_wf c -> col_wf c' -> c_vals c = c_vals c' ->
  (m = MConvert -> feature = true -> ~ In name levels) -> (feature = true -> hm = true) ->
  convert_column levels hm m name feature c = convert_column levels hm m name feature c'.
Proof.
  intros levels hm m name feature c c' W W' E Hn Hf.
  assert (Hn' : is_convert m = true -> feature = true -> ~ In name levels) by (intros Q; apply Hn; destruct m; try discriminate; reflexivity).
  rewrite !convert_eq by assumption. rewrite E. reflexivity.
Qed.
Print Assumptions C45_encoding_independent.

(** What the codes mean for predictions: a categorical column contributes to the linear predictor
    the inner product of the coefficients of the columns it generated in training with the
    indicators of those columns; with 'zero' a missing value contributes nothing. *)
Lemma first_pos_unique levels s k j : NoDup levels -> first_position s levels k -> nth_error levels j = Some s -> j = k.
Proof.
  intros N [H _] Hj. eapply NoDup_nth_error; [exact N| |congruence]. apply nth_error_Some. congruence.
Qed.
Theorem C45_contribution : forall levels hm m name feature c codes df coef, col_wf c -> NoDup levels ->
  (m = MConvert -> feature = true -> ~ In name levels) -> (feature = true -> hm = true) -> (m <> MConvert -> feature = false) ->
  convert_column levels hm m name feature c = Some codes ->
  forall i v k, nth_error (c_vals c) i = Some v -> nth_error codes i = Some k ->
  code_contrib df coef k =
  rsum (List.length (generated_levels df levels feature)) (fun j => coef j * indicator v (nth j (generated_levels df levels feature) None)).
Proof.
  intros levels hm m name feature c codes df coef W N Hn Hf Hm E i v k Ev Ek.
  destruct (proj1 (C45_codes levels hm m name feature c codes W Hn Hf) E) as [_ H].
  specialize (H i v k Ev Ek). clear E Ev Ek Hn Hf W.
  set (all := map Some levels ++ (if feature then [None] else [])).
  assert (Q : match k with
              | Some k => (k < List.length all)%nat /\ forall j, (j < List.length all)%nat -> indicator v (nth j all None) = if Nat.eqb j k then 1 else 0
              | None => forall j, (j < List.length all)%nat -> indicator v (nth j all None) = 0 end).
  { assert (NA : forall j, (j < List.length all)%nat -> (exists s, nth j all None = Some s /\ nth_error levels j = Some s) \/
                   (nth j all None = None /\ feature = true /\ j = List.length levels)).
    { intros j Hj. destruct (Nat.lt_ge_cases j (List.length levels)) as [L|L].
      - left. destruct (nth_error levels j) as [s|] eqn:Es; [|apply nth_error_None in Es; lia]. exists s. split; [|reflexivity].
        unfold all. rewrite app_nth1 by (rewrite map_length; exact L). rewrite (nth_indep _ None (Some s)) by (rewrite map_length; exact L).
        rewrite map_nth. f_equal. apply nth_error_nth with (d := s) in Es. exact Es.
      - right. unfold all in *. rewrite app_length, map_length in Hj. destruct feature; simpl in Hj; [|lia].
        assert (j = List.length levels) as -> by lia. split; [|auto]. rewrite app_nth2 by (rewrite map_length; lia).
        rewrite map_length, Nat.sub_diag. reflexivity. }
    destruct v as [s|]; simpl in H.
    - destruct H as [k' [-> F]]. destruct F as [F1 F2]. split.
      { unfold all. rewrite app_length, map_length. assert (k' < List.length levels)%nat by (apply nth_error_Some; congruence). lia. }
      intros j Hj. destruct (NA j Hj) as [[s' [-> E']]|[-> [_ ->]]]; simpl.
      + destruct (string_dec s s') as [<-|D]; destruct (Nat.eqb_spec j k') as [->|D']; try reflexivity.
        * elim D'. apply (first_pos_unique levels s); [exact N|split; assumption|exact E'].
        * elim D. congruence.
      + destruct (Nat.eqb_spec (List.length levels) k') as [<-|D']; [|reflexivity].
        assert (nth_error levels (List.length levels) = None) by (apply nth_error_None; lia). congruence.
    - destruct H as [[-> ->]|[-> [-> ->]]].
      + intros j Hj. destruct (NA j Hj) as [[s' [-> _]]|[_ [F _]]]; [reflexivity|]. rewrite Hm in F by discriminate. discriminate.
      + split; [unfold all; rewrite app_length, map_length; simpl; lia|]. intros j Hj.
        destruct (NA j Hj) as [[s' [-> E']]|[-> [_ ->]]]; simpl; [|rewrite Nat.eqb_refl; reflexivity].
        destruct (Nat.eqb_spec j (List.length levels)) as [->|_]; [|reflexivity].
        assert (nth_error levels (List.length levels) = None) by (apply nth_error_None; lia). congruence. }
  clear H. unfold generated_levels. fold all. destruct df.
  - destruct all as [|a0 rest].
    + destruct k as [k|]; [destruct Q as [Q _]; simpl in Q; lia|reflexivity].
    + destruct k as [[|k]|]; unfold code_contrib; cbn [List.length] in Q.
      * symmetry. apply rsum_zero. intros j Hj. destruct Q as [_ Q]. specialize (Q (S j) ltac:(lia)). cbn [nth Nat.eqb] in Q. rewrite Q. lra.
      * destruct Q as [L Q]. rewrite (rsum_single _ k); [|lia|].
        { specialize (Q (S k) ltac:(lia)). cbn [nth] in Q. rewrite Q, Nat.eqb_refl. lra. }
        intros j Hj D. specialize (Q (S j) ltac:(lia)). cbn [nth] in Q. rewrite Q. destruct (Nat.eqb_spec (S j) (S k)); [lia|lra].
      * symmetry. apply rsum_zero. intros j Hj. specialize (Q (S j) ltac:(lia)). cbn [nth] in Q. rewrite Q. lra.
  - destruct k as [k|]; unfold code_contrib.
    + destruct Q as [L Q]. rewrite (rsum_single _ k); [|exact L|].
      { rewrite (Q k L), Nat.eqb_refl. lra. }
      intros j Hj D. rewrite (Q j Hj). destruct (Nat.eqb_spec j k); [lia|lra].
    + symmetry. apply rsum_zero. intros j Hj. rewrite (Q j Hj). lra.
Qed.
Print Assumptions C45_contribution.

(** A value that was not a training level raises, wherever it stands. *)
Theorem C45_unseen_raises : forall levels hm m name feature c s, col_wf c -> In (Some s) (c_vals c) -> ~ In s levels ->
  (m = MConvert -> feature = true -> ~ In name levels) -> (feature = true -> hm = true) ->
  convert_column levels hm m name feature c = None.
Proof.
  intros levels hm m name feature c s W Hs Hl Hn Hf.
  destruct (convert_column levels hm m name feature c) as [codes|] eqn:E; [|reflexivity]. exfalso.
  destruct (proj1 (C45_codes levels hm m name feature c codes W Hn Hf) E) as [L H].
  destruct (In_nth_error _ _ Hs) as [i Hi]. destruct (nth_error codes i) as [k|] eqn:Ek.
  - destruct (H i _ k Hi Ek) as [j [_ [Q _]]]. apply Hl. eapply nth_error_In; eauto.
  - apply nth_error_None in Ek. assert (i < List.length (c_vals c))%nat by (apply nth_error_Some; congruence). lia.
Qed.
Print Assumptions C45_unseen_raises.

(** The training frame itself gets the codes it was fitted with. *)
Theorem C45_training_frame : forall m name c codes, col_wf c -> is_cat (c_dtype c) = true ->
  ~ In name (categories (c_dtype c)) -> from_df_column m c = Some codes ->
  convert_column (categories (c_dtype c)) (has_missing_category m c) m name (has_missing_category m c) c = Some codes.
Proof.
  intros m name c codes W Hc Hn E. rewrite convert_eq by auto.
  unfold from_df_column in E. rewrite <- E. apply all_some_ext. intros [s|] Hv; [reflexivity|]. simpl.
  destruct m; try reflexivity. unfold has_missing_category. simpl.
  assert (Q : has_null (c_vals c) = true) by (apply existsb_exists; exists None; auto). rewrite Q. reflexivity.
Qed.
Print Assumptions C45_training_frame.

Example C45_nonvacuous :
  convert_column ["a"; "b"]%string true MConvert "(MISSING)"%string true (mkCol (DCategorical ["z"; "b"; "a"]%string) [Some "b"%string; None; Some "a"%string])
    = Some [Some 1; Some 2; Some 0]%nat /\
  convert_column ["a"; "b"]%string true MConvert "(MISSING)"%string true (mkCol DString [Some "b"%string; None; Some "a"%string])
    = Some [Some 1; Some 2; Some 0]%nat /\
  convert_column ["a"; "b"]%string true MConvert "(MISSING)"%string true (mkCol DString [Some "(MISSING)"%string]) = None /\
  convert_column ["a"; "b"]%string false MConvert "(MISSING)"%string false (mkCol (DEnum ["a"; "b"]%string) [None]) = None.
Proof. repeat split; reflexivity. Qed.
