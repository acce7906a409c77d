From Coq Require Import String.
From Verif Require Import Base M_Solver M_Std M_Formula M_Cat S_Cat L_Formula.
From Verif Require Import M_Solver S_Solver.
Local Open Scope R_scope.

Lemma n_gen_eq df d m : (if is_cat d then List.length (categories d) + Nat.b2n m - Nat.b2n df else 1)%nat = n_generated df d m.
Proof. destruct d, df, m; simpl; lia. Qed.
Lemma expand_entries_owners df : forall pen sc hm i pre, List.length pen = List.length sc -> List.length hm = List.length sc ->
  List.length pre = i ->
  expand_entries pen sc df hm = map (fun k => nth k (pre ++ pen) 0) (owners_from i df sc hm).
Proof.
  induction pen as [|e pen IH]; intros [|d sc] [|m hm] i pre H1 H2 H3; try discriminate; [reflexivity|].
  simpl in H1, H2. cbn [expand_entries owners_from]. rewrite map_app. f_equal.
  - rewrite <- n_gen_eq. destruct (is_cat d).
    + set (k := (List.length (categories d) + Nat.b2n m - Nat.b2n df)%nat). clearbody k. induction k; simpl; [reflexivity|].
      f_equal; [|exact IHk]. rewrite app_nth2 by lia. rewrite H3, Nat.sub_diag. reflexivity.
    + simpl. rewrite app_nth2 by lia. rewrite H3, Nat.sub_diag. reflexivity.
  - rewrite (IH sc hm (S i) (pre ++ [e])) by (try lia; rewrite app_length; simpl; lia). rewrite <- app_assoc. reflexivity.
Qed.
Lemma no_cat_owners df sc hm i : existsb is_cat sc = false -> List.length hm = List.length sc -> owners_from i df sc hm = seq i (List.length sc).
Proof.
  revert hm i. induction sc as [|d sc IH]; intros [|m hm] i H L; try discriminate; [reflexivity|].
  simpl in H. apply orb_false_iff in H. destruct H as [Hd H]. cbn [owners_from]. rewrite <- n_gen_eq, Hd. simpl. f_equal. apply IH; [exact H|]. simpl in L. lia.
Qed.
Lemma map_nth_seq (l : list R) : map (fun k => nth k l 0) (seq 0 (List.length l)) = l.
Proof.
  apply nth_ext with (d := 0) (d' := 0); rewrite map_length, seq_length; [reflexivity|]. intros n Hn.
  rewrite (nth_indep _ _ (nth 0%nat l 0)) by (rewrite map_length, seq_length; exact Hn).
  rewrite (map_nth (fun k => nth k l 0) (seq 0 (List.length l)) 0%nat n), seq_nth by exact Hn. reflexivity.
Qed.
Lemma expand_1d_owners df pen sc hm : List.length pen = List.length sc -> List.length hm = List.length sc ->
  expand_1d pen sc df hm = map (fun k => nth k pen 0) (owners df sc hm).
Proof.
  intros H1 H2. unfold expand_1d, owners. destruct (existsb is_cat sc) eqn:E.
  - rewrite H1, Nat.eqb_refl. apply (expand_entries_owners df pen sc hm 0%nat []); auto.
  - rewrite no_cat_owners by assumption. rewrite <- H1. symmetry. apply map_nth_seq.
Qed.

Lemma slist_eqb_iff a : forall b, slist_eqb a b = true <-> a = b.
Proof.
  induction a as [|x a IH]; intros [|y b]; simpl; try (split; congruence).
  rewrite andb_true_iff, String.eqb_eq, IH. split; [intros [-> ->]|intros E; injection E]; auto.
Qed.
Lemma str_in_iff s l : str_in s l = true <-> In s l.
Proof.
  unfold str_in. rewrite existsb_exists. split; [intros [x [H E]]; apply String.eqb_eq in E; subst; exact H|].
  intros H. exists s. split; [exact H|apply String.eqb_refl].
Qed.
Lemma index_of_iff s : forall l k, index_of s l = Some k <-> first_position s l k.
Proof.
  unfold first_position. induction l as [|x l IH]; intros k; simpl.
  - split; [discriminate|]. intros [H _]. destruct k; discriminate.
  - destruct (String.eqb_spec s x) as [->|Hne].
    + split.
      * intros E. injection E as <-. split; [reflexivity|]. intros k' Hk. lia.
      * intros [H1 H2]. destruct k as [|k]; [reflexivity|]. exfalso. apply (H2 0%nat); [lia|reflexivity].
    + destruct (index_of s l) as [j|] eqn:E.
      * split.
        { intros Q. injection Q as <-. destruct (proj1 (IH j) eq_refl) as [A B]. split; [exact A|]. intros [|k'] Hk; simpl; [congruence|apply B; lia]. }
        { intros [H1 H2]. destruct k as [|k]; [simpl in H1; congruence|]. simpl in H1.
          assert (Q : Some j = Some k) by (apply IH; split; [exact H1|]; intros k' Hk; apply (H2 (S k')); lia). congruence. }
      * split; [discriminate|]. intros [H1 H2]. destruct k as [|k]; [simpl in H1; congruence|]. simpl in H1.
        assert (Q : None = Some k) by (apply IH; split; [exact H1|]; intros k' Hk; apply (H2 (S k')); lia). discriminate.
Qed.
Lemma index_of_in s l : In s l -> exists k, index_of s l = Some k.
Proof.
  induction l as [|x l IH]; simpl; [tauto|]. intros H. destruct (String.eqb_spec s x); [eauto|].
  destruct H as [->|H]; [congruence|]. destruct (IH H) as [k ->]. eauto.
Qed.
Lemma index_of_some_in s l k : index_of s l = Some k -> In s l.
Proof. intros H. apply index_of_iff in H. destruct H as [H _]. eapply nth_error_In; eauto. Qed.
Lemma index_of_app s l x k : index_of s l = Some k -> index_of s (l ++ [x]) = Some k.
Proof.
  revert k. induction l as [|y l IH]; intros k; simpl; [discriminate|]. destruct (String.eqb s y); [auto|].
  destruct (index_of s l) as [j|]; [|discriminate]. rewrite (IH j eq_refl). auto.
Qed.
Lemma index_of_last s l : ~ In s l -> index_of s (l ++ [s]) = Some (List.length l).
Proof.
  induction l as [|y l IH]; simpl; intros H; [rewrite String.eqb_refl; reflexivity|].
  destruct (String.eqb_spec s y) as [->|]; [elim H; auto|]. rewrite IH by tauto. reflexivity.
Qed.

Definition code_of (levels : list string) (m : missing_method) (feature : bool) (v : option string) : option (option nat) :=
  match v with
  | Some s => match index_of s levels with Some k => Some (Some k) | None => None end
  | None => match m with MFail => None | MZero => Some None | MConvert => if feature then Some (Some (List.length levels)) else None end
  end.
Lemma code_of_iff levels m feature v k : code_of levels m feature v = Some k <-> training_code levels m feature v k.
Proof.
  unfold code_of, training_code. destruct v as [s|].
  - destruct (index_of s levels) as [j|] eqn:E.
    + split; [intros Q; injection Q as <-; exists j; split; [reflexivity|apply index_of_iff; exact E]|].
      intros [k' [-> H]]. apply index_of_iff in H. congruence.
    + split; [discriminate|]. intros [k' [_ H]]. apply index_of_iff in H. congruence.
  - destruct m; [split; [discriminate|intros [[]|[]]; discriminate]| |].
    + split; [intros Q; injection Q as <-; auto|]. intros [[_ ->]|[Q _]]; [reflexivity|discriminate].
    + destruct feature; split; try discriminate.
      * intros Q. injection Q as <-. auto.
      * intros [[Q _]|[_ [_ ->]]]; [discriminate|reflexivity].
      * intros [[Q _]|[_ [Q _]]]; discriminate.
Qed.

Lemma all_some_ext {A B} (f g : A -> option B) l : (forall x, In x l -> f x = g x) -> all_some f l = all_some g l.
Proof. induction l as [|x l IH]; simpl; intros H; [reflexivity|]. rewrite H by auto. rewrite IH by auto. reflexivity. Qed.
Lemma all_some_mapped {A B C} (f : B -> option C) (h : A -> B) l : all_some f (map h l) = all_some (fun x => f (h x)) l.
Proof. induction l as [|x l IH]; simpl; [reflexivity|]. rewrite IH. reflexivity. Qed.
Lemma all_some_none {A B} (f : A -> option B) l x : In x l -> f x = None -> all_some f l = None.
Proof.
  induction l as [|y l IH]; simpl; [tauto|]. intros [->|H] E; [rewrite E; reflexivity|]. rewrite (IH H E). destruct (f y); reflexivity.
Qed.

Lemma convert_eq levels hm m name feature c : col_wf c -> (is_convert m = true -> feature = true -> ~ In name levels) ->
  (feature = true -> hm = true) ->
  convert_column levels hm m name feature c = all_some (code_of levels m feature) (c_vals c).
Proof.
  intros W Hn Hf.
  assert (Fin : forall c1, categories (c_dtype c1) = levels -> is_cat (c_dtype c1) = true ->
    (forall s, In (Some s) (c_vals c1) -> In s levels) ->
    (match m with
      | MConvert => match add_missing_column name feature c1 with Some c2 => from_df_column MFail c2 | None => None end
      | _ => from_df_column m c1 end) = all_some (code_of levels m feature) (c_vals c1)).
  { intros c1 Ec Ei Hv. destruct m; unfold from_df_column.
    - apply all_some_ext. intros v _. rewrite Ec. destruct v; reflexivity.
    - apply all_some_ext. intros v _. rewrite Ec. destruct v; reflexivity.
    - unfold add_missing_column. destruct feature.
      + rewrite Ei, Ec. assert (NI : ~ In name levels) by (apply Hn; reflexivity).
        destruct (str_in name levels) eqn:Em; [apply str_in_iff in Em; tauto|]. cbn [c_dtype c_vals categories].
        rewrite all_some_mapped. apply all_some_ext. intros [s|] Hs; simpl.
        * destruct (index_of_in s levels (Hv s Hs)) as [k E]. rewrite E, (index_of_app _ _ _ _ E). reflexivity.
        * rewrite index_of_last by exact NI. reflexivity.
      + apply all_some_ext. intros v _. rewrite Ec. destruct v; reflexivity. }
  unfold convert_column, align_column.
  assert (Ch : match (if unseen levels hm m (c_vals c) then None else Some (mkCol (DEnum levels) (map (cast levels) (c_vals c)))) with
    | None => None
    | Some c1 => match m with
      | MConvert => match add_missing_column name feature c1 with Some c2 => from_df_column MFail c2 | None => None end
      | _ => from_df_column m c1 end
    end = all_some (code_of levels m feature) (c_vals c)).
  { destruct (unseen levels hm m (c_vals c)) eqn:Eu.
    - symmetry. unfold unseen in Eu. destruct (is_convert m && negb hm) eqn:Ec; apply existsb_exists in Eu; destruct Eu as [v [Hv E]].
      + apply (all_some_none _ _ v Hv). destruct v as [s|]; simpl.
        * apply negb_true_iff in E. destruct (index_of s levels) eqn:Ei; [|reflexivity]. apply index_of_some_in, str_in_iff in Ei. congruence.
        * apply andb_true_iff in Ec. destruct Ec as [Em Eh]. destruct m; try discriminate. destruct feature; [|reflexivity].
          rewrite (Hf eq_refl) in Eh. discriminate.
      + apply (all_some_none _ _ v Hv). destruct v as [s|]; [|discriminate]. simpl.
        apply negb_true_iff in E. destruct (index_of s levels) eqn:Ei; [|reflexivity]. apply index_of_some_in, str_in_iff in Ei. congruence.
    - assert (Hin : forall s, In (Some s) (c_vals c) -> In s levels).
      { intros s Hs. apply str_in_iff. destruct (str_in s levels) eqn:E; [reflexivity|]. exfalso.
        assert (unseen levels hm m (c_vals c) = true); [|congruence]. unfold unseen. destruct (is_convert m && negb hm);
        apply existsb_exists; exists (Some s); (split; [exact Hs|]); rewrite E; reflexivity. }
      assert (Em : map (cast levels) (c_vals c) = c_vals c).
      { rewrite <- (map_id (c_vals c)) at 2. apply map_ext_in. intros [s|] Hs; [|reflexivity]. simpl. 
        rewrite (proj2 (str_in_iff s levels) (Hin s Hs)). reflexivity. }
      rewrite Em. apply (Fin (mkCol (DEnum levels) (c_vals c))); [reflexivity|reflexivity|exact Hin]. }
  destruct (c_dtype c) eqn:Ed; try exact Ch.
  destruct (slist_eqb cats levels) eqn:El; [|exact Ch]. apply slist_eqb_iff in El. subst cats.
  apply Fin; rewrite ?Ed; try reflexivity. unfold col_wf in W. rewrite Ed in W. exact W.
Qed.
