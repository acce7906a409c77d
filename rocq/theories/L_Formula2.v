From Coq Require Import String Ascii Sorting.Sorted Sorting.Permutation.
From Verif Require Import Base M_Solver M_Formula S_Formula L_Formula.
From Verif Require Import M_Solver S_Solver.
Local Open Scope R_scope.
Local Open Scope string_scope.

Definition hd_not (p : ascii -> bool) (s : string) : Prop := match s with EmptyString => True | String c _ => p c = false end.
Definition all_b (p : ascii -> bool) (s : string) : Prop := all_chars (fun c => p c = true) s.
Lemma all_b_cons p c s : all_b p (String c s) <-> p c = true /\ all_b p s.
Proof.
  unfold all_b, all_chars. simpl. split.
  - intros H. split; [apply H; auto|]. intros d Hd. apply H. auto.
  - intros [H1 H2] d [<-|Hd]; auto.
Qed.
Lemma span_spec p s : forall a b, span p s = (a, b) <-> s = a ++ b /\ all_b p a /\ hd_not p b.
Proof.
  induction s as [|c s IH]; intros a b; simpl.
  - split.
    + intros E. injection E as <- <-. split; [reflexivity|]. split; [intros c []|exact I].
    + intros [E [Ha Hb]]. destruct a; [|discriminate]. simpl in E. subst b. reflexivity.
  - destruct (p c) eqn:Ec.
    + destruct (span p s) as [a' b'] eqn:Es. split.
      * intros E. injection E as <- <-. destruct (proj1 (IH a' b') eq_refl) as [E1 [E2 E3]]. split; [simpl; f_equal; exact E1|].
        split; [apply all_b_cons; auto|exact E3].
      * intros [E [Ha Hb]]. destruct a as [|c' a].
        { simpl in E. subst b. simpl in Hb. congruence. }
        simpl in E. injection E as <- E. apply all_b_cons in Ha. destruct Ha as [_ Ha].
        pose proof (proj2 (IH a b) (conj E (conj Ha Hb))) as Q. injection Q as <- <-. reflexivity.
    + split.
      * intros E. injection E as <- <-. split; [reflexivity|]. split; [intros d []|exact Ec].
      * intros [E [Ha Hb]]. destruct a as [|c' a]; [simpl in E; subst b; reflexivity|].
        simpl in E. injection E as <- E. apply all_b_cons in Ha. destruct Ha; congruence.
Qed.
Lemma name_char_iff s : all_b name_char s <-> all_chars (fun c => c <> ":"%char /\ c <> "["%char /\ c <> "]"%char) s.
Proof.
  assert (Q : forall c, name_char c = true <-> c <> ":"%char /\ c <> "["%char /\ c <> "]"%char).
  { intros c. unfold name_char. rewrite negb_true_iff, !orb_false_iff, !Ascii.eqb_neq. tauto. }
  split; intros H c Hc; apply Q; auto; apply H; exact Hc.
Qed.
Lemma idx_char_iff s : all_b idx_char s <-> all_chars (fun c => c <> "]"%char) s.
Proof.
  assert (Q : forall c, idx_char c = true <-> c <> "]"%char).
  { intros c. unfold idx_char. rewrite negb_true_iff, Ascii.eqb_neq. tauto. }
  split; intros H c Hc; apply Q; auto; apply H; exact Hc.
Qed.
Lemma append_nil_r s : s ++ "" = s.
Proof. induction s; simpl; congruence. Qed.
Lemma append_assoc (a b c : string) : (a ++ b) ++ c = a ++ (b ++ c).
Proof. induction a; simpl; congruence. Qed.

Lemma parse_factor_iff part f : parse_factor part = Some f <-> part = factor_text f /\ factor_wf f.
Proof.
  unfold parse_factor. destruct (span name_char part) as [nm rest] eqn:E.
  apply span_spec in E. destruct E as [Ep [Hn Hr]]. split.
  - destruct nm as [|c0 nm']; [discriminate|]. set (nm := String c0 nm') in *. destruct rest as [|c r].
    + intros Q. injection Q as <-. rewrite append_nil_r in Ep. split; [exact Ep|].
      split; [discriminate|]. split; [apply name_char_iff; exact Hn|]. intros i Q. discriminate.
    + destruct (Ascii.eqb_spec c "[") as [->|]; [|discriminate].
      destruct (span idx_char r) as [idx tl] eqn:Er. apply span_spec in Er. destruct Er as [Er [Hi Ht]].
      destruct tl as [|d [|]]; try discriminate. destruct (Ascii.eqb_spec d "]") as [->|]; [|discriminate].
      intros Q. injection Q as <-. split.
      * unfold factor_text. simpl snd. simpl fst. rewrite Ep, Er. reflexivity.
      * split; [discriminate|]. split; [apply name_char_iff; exact Hn|]. intros i Q. injection Q as <-. apply idx_char_iff. exact Hi.
  - intros [Et [H1 [H2 H3]]]. destruct f as [g [idx|]]; unfold factor_text in Et; simpl in *.
    + apply name_char_iff in H2.
      assert (X : span name_char part = (g, "[" ++ idx ++ "]")) by (apply span_spec; split; [exact Et|]; split; [exact H2|reflexivity]).
      assert (Y : span name_char part = (nm, rest)) by (apply span_spec; auto).
      rewrite X in Y. injection Y as <- <-. destruct g as [|c0 g']; [congruence|]. simpl.
      assert (Z : span idx_char (idx ++ "]") = (idx, "]")).
      { apply span_spec. split; [reflexivity|]. split; [apply idx_char_iff; apply H3; reflexivity|reflexivity]. }
      rewrite Z. reflexivity.
    + apply name_char_iff in H2.
      assert (X : span name_char part = (g, "")) by (apply span_spec; split; [rewrite append_nil_r; exact Et|]; split; [exact H2|exact I]).
      assert (Y : span name_char part = (nm, rest)) by (apply span_spec; auto).
      rewrite X in Y. injection Y as <- <-. destruct g; [congruence|reflexivity].
Qed.

(** splitting at the default separator *)
Lemma prefix_colon c r : String.prefix ":" (String c r) = Ascii.eqb c ":".
Proof.
  unfold String.prefix. destruct (ascii_dec ":" c) as [<-|H].
  - rewrite Ascii.eqb_refl. destruct r; reflexivity.
  - symmetry. apply Ascii.eqb_neq. congruence.
Qed.
Lemma split_colon_cons c r : str_split_from ":" (String c r) O =
  if Ascii.eqb c ":" then "" :: str_split_from ":" r O else cons_first c (str_split_from ":" r O).
Proof.
  change (str_split_from ":" (String c r) O) with
    (if String.prefix ":" (String c r) then "" :: str_split_from ":" r O else cons_first c (str_split_from ":" r O)).
  rewrite prefix_colon. reflexivity.
Qed.
Lemma split_colon_ne s : str_split_from ":" s O <> [].
Proof.
  induction s as [|c s IH]; [discriminate|]. rewrite split_colon_cons. destruct (Ascii.eqb c ":"); [discriminate|].
  destruct (str_split_from ":" s O); discriminate.
Qed.
Lemma split_colon_part a b : no_char ":" a ->
  str_split_from ":" (a ++ b) O = match str_split_from ":" b O with h :: t => (a ++ h) :: t | [] => [] end.
Proof.
  intros H. induction a as [|c a IH].
  - simpl append. destruct (str_split_from ":" b O) eqn:E; [elim (split_colon_ne _ E)|reflexivity].
  - change (String c a ++ b) with (String c (a ++ b)). rewrite split_colon_cons.
    destruct (Ascii.eqb_spec c ":") as [->|_]; [elim H; left; reflexivity|].
    rewrite IH by (intros Q; apply H; right; exact Q). destruct (str_split_from ":" b O) eqn:E; [elim (split_colon_ne _ E)|reflexivity].
Qed.
Lemma split_join c : c <> [] -> (forall f, In f c -> no_char ":" (factor_text f)) ->
  str_split_from ":" (column_text ":" c) O = map factor_text c.
Proof.
  induction c as [|f [|g c] IH]; intros Hne H; [congruence| |].
  - simpl column_text. rewrite <- (append_nil_r (factor_text f)) at 1. rewrite split_colon_part by (apply H; left; reflexivity).
    simpl. rewrite append_nil_r. reflexivity.
  - change (column_text ":" (f :: g :: c)) with (factor_text f ++ (":" ++ column_text ":" (g :: c))).
    rewrite split_colon_part by (apply H; left; reflexivity).
    change (":" ++ column_text ":" (g :: c)) with (String ":" (column_text ":" (g :: c))).
    rewrite split_colon_cons. rewrite Ascii.eqb_refl. rewrite append_nil_r.
    rewrite IH by (try discriminate; intros x Hx; apply H; right; exact Hx). reflexivity.
Qed.
Lemma app_last s c : exists g d, (s ++ String c EmptyString = g ++ String d EmptyString)%string /\ d = c.
Proof. exists s, c. auto. Qed.
Lemma str_app_nil s : (s ++ "")%string = s.
Proof. induction s as [|c s IH]; [reflexivity|]. simpl. rewrite IH. reflexivity. Qed.
Lemma str_snoc_inj f c g d : (f ++ String c "" = g ++ String d "")%string -> f = g /\ c = d.
Proof.
  revert g. induction f as [|x f IH]; intros [|y g] H; simpl in H; injection H; intros.
  - subst; auto.
  - destruct g; discriminate.
  - destruct f; discriminate.
  - subst. destruct (IH g H0) as [-> ->]. auto.
Qed.
Lemma str_last f : f = EmptyString \/ exists g c, f = (g ++ String c "")%string.
Proof.
  induction f as [|x f IH]; [left; reflexivity|right]. destruct IH as [-> |[g [c ->]]]; [exists EmptyString, x; reflexivity|].
  exists (String x g), c. reflexivity.
Qed.
Lemma rstrip_of_spec (p : ascii -> bool) (P : ascii -> Prop) s f : (forall c, p c = true <-> P c) ->
  (rstrip_of p s = f <-> without_trailing P s f).
Proof.
  intros HP.
  assert (A : forall s, without_trailing P s (rstrip_of p s)).
  { clear s f. intros s. induction s as [|c s IH].
    - exists EmptyString. split; [reflexivity|]. split; [intros c []|]. intros g c H. destruct g; discriminate.
    - cbn [rstrip_of]. destruct IH as [t [Es [Ht Hl]]].
      destruct (rstrip_of p s) as [|d r] eqn:E.
      + cbn in Es. subst t. destruct (p c) eqn:Ep.
        * exists (String c s). split; [reflexivity|]. split; [|intros g d H; destruct g; discriminate].
          intros d [<-|Hd]; [apply HP, Ep|apply Ht, Hd].
        * exists s. split; [reflexivity|]. split; [exact Ht|]. intros g d H. destruct g as [|x g]; [|destruct g; discriminate].
          injection H as <-. intros Q. apply HP in Q. congruence.
      + exists t. split; [rewrite Es; reflexivity|]. split; [exact Ht|]. intros g d' H. destruct g as [|x g]; [discriminate|].
        injection H as -> H. apply (Hl g d' H). }
  assert (U : forall f g t u, (f ++ t = g ++ u)%string -> all_chars P t -> all_chars P u ->
     (forall a c, f = (a ++ String c "")%string -> ~ P c) -> (forall a c, g = (a ++ String c "")%string -> ~ P c) -> f = g).
  { clear. induction f as [|x f IH]; intros g t u H Ht Hu Hf Hg.
    - destruct g as [|y g]; [reflexivity|]. exfalso. destruct (str_last (String y g)) as [Q|[a [c E]]]; [discriminate|].
      apply (Hg a c E). apply Ht. change ("" ++ t)%string with t in H. rewrite H, E.
      clear. induction a as [|z a IH]; simpl; auto.
    - destruct g as [|y g].
      + exfalso. destruct (str_last (String x f)) as [Q|[a [c E]]]; [discriminate|].
        apply (Hf a c E). apply Hu. simpl in H. rewrite <- H. change (String x (f ++ t)) with (String x f ++ t)%string. rewrite E.
        clear. induction a as [|z a IH]; simpl; auto.
      + simpl in H. injection H as -> H. f_equal. apply (IH g t u H Ht Hu).
        * intros a c -> . apply (Hf (String y a) c). reflexivity.
        * intros a c -> . apply (Hg (String y a) c). reflexivity. }
  split; [intros <-; apply A|]. intros [t [Es [Ht Hl]]]. destruct (A s) as [t' [Es' [Ht' Hl']]].
  apply (U _ _ t' t); auto. congruence.
Qed.
Lemma white_iff c : is_space c = true <-> white c.
Proof.
  unfold is_space, white. rewrite orb_true_iff, !andb_true_iff, !Nat.leb_le. tauto.
Qed.
Lemma trimmed_iff s : trimmed s -> lstrip s = s /\ rstrip_of is_space s = s.
Proof.
  intros [H1 H2]. split.
  - destruct s as [|c r]; [reflexivity|]. cbn [lstrip]. destruct (is_space c) eqn:E; [|reflexivity]. apply white_iff in E. destruct (H1 c r eq_refl E).
  - apply (rstrip_of_spec is_space white s s white_iff). exists EmptyString. split; [symmetry; apply str_app_nil|]. split; [intros c []|exact H2].
Qed.
Lemma str_rstrip_sign_spec s f : str_rstrip_sign s = f <-> without_trailing (fun c => c = "-"%char \/ c = "+"%char) s f.
Proof.
  apply rstrip_of_spec. intros c. rewrite orb_true_iff, !Ascii.eqb_eq. tauto.
Qed.
Lemma parse_column_text c : c <> [] ->
  (forall f, In f c -> factor_wf f /\ trimmed (factor_text f) /\ no_char ":" (factor_text f)) ->
  parse_column_name ":" (column_text ":" c) = Some c.
Proof.
  intros Hne H. unfold parse_column_name, str_split. rewrite split_join by (auto; intros f Hf; apply H; exact Hf).
  apply all_some_map. rewrite map_map. apply map_ext_in. intros f Hf. destruct (H f Hf) as [W [T _]]. destruct (trimmed_iff _ T) as [T1 T2].
  unfold strip. rewrite T1, T2. apply parse_factor_iff. auto.
Qed.

(** when the construction succeeds *)
Lemma group_loop_some sep f : forall names i g cols, parsed sep names cols ->
  ((exists g', group_loop sep f names i g = Some g') <-> forall c, In c cols -> (List.length (matches f c) <= 1)%nat).
Proof.
  induction names as [|nm names IH]; intros i g cols P.
  - destruct cols; [|discriminate]. simpl. split; [intros _ c []|eauto].
  - destruct cols as [|c cols]; [discriminate|]. unfold parsed in P. simpl in P. injection P as Pc P. simpl. rewrite Pc.
    destruct (matches f c) as [|[y idx] [|z l]] eqn:E.
    + rewrite (IH _ _ _ P). split; [|intros H d Hd; apply H; right; exact Hd]. intros H d [<-|Hd]; [rewrite E; simpl; lia|auto].
    + rewrite (IH _ _ _ P). split; [|intros H d Hd; apply H; right; exact Hd]. intros H d [<-|Hd]; [rewrite E; simpl; lia|auto].
    + split; [intros [g' Q]; discriminate|]. intros H. specialize (H c (or_introl eq_refl)). rewrite E in H. simpl in H. lia.
Qed.
Lemma group_nil sep f names cols : parsed sep names cols ->
  (group_columns_by_factor sep f names = Some [] -> forall c, In c cols -> matches f c = []).
Proof.
  intros P E c Hc. destruct (In_nth_error _ _ Hc) as [i Hi].
  pose proof (group_inv _ _ _ _ _ P E) as I. destruct (matches f c) as [|[y x] [|z l]] eqn:M; [reflexivity| |].
  - exfalso. assert (y = f) by (apply (matches_name f c (y, x)); rewrite M; left; reflexivity). subst y.
    assert (Gi : in_group cols f (others_of f c) i x) by (exists c; split; [exact Hi|]; apply has_factor_iff; auto).
    apply (gi_all _ _ _ _ I) in Gi; [destruct Gi|]. eapply in_group_lt; eauto.
  - exfalso. pose proof (proj1 (group_loop_some sep f names O [] cols P) (ex_intro _ _ E) c Hc) as Q. rewrite M in Q. simpl in Q. lia.
Qed.
Lemma factor_rows_some pf sep names cols fd : parsed sep names cols ->
  ((exists rows, factor_rows pf sep names fd = Some rows) <->
   (exists d, parse_direction (snd fd) = Some d) /\ (exists c, In c cols /\ matches (fst fd) c <> []) /\
   forall c, In c cols -> (List.length (matches (fst fd) c) <= 1)%nat).
Proof.
  intros P. unfold factor_rows. rewrite <- (group_loop_some sep (fst fd) names O [] cols P).
  fold (group_columns_by_factor sep (fst fd) names). destruct (parse_direction (snd fd)) as [d|].
  - destruct (group_columns_by_factor sep (fst fd) names) as [[|kg g]|] eqn:E.
    + split; [intros [r Q]; discriminate|]. intros [_ [[c [Hc Q]] _]]. elim Q. eapply group_nil; eauto.
    + split; [|eauto]. intros _. split; [eauto|]. split; [|eauto].
      destruct (ginv_groups _ _ _ (group_inv _ _ _ _ _ P E)) as [G _]. destruct kg as [k ms].
      destruct (G k ms (or_introl eq_refl)) as [Hne [_ M]]. destruct ms as [|[j x] ms]; [congruence|].
      destruct (proj1 (M j x) (or_introl eq_refl)) as [c [Hc Hf]]. exists c. split; [eapply nth_error_In; eauto|].
      apply has_factor_iff in Hf. destruct Hf as [-> _]. discriminate.
    + split; [intros [r Q]; discriminate|]. intros [_ [_ [g Q]]]. discriminate.
  - split; [intros [r Q]; discriminate|]. intros [[d Q] _]. discriminate.
Qed.
Lemma all_some_ex {A B} (f : A -> option B) l : (exists ys, all_some f l = Some ys) <-> forall x, In x l -> exists y, f x = Some y.
Proof.
  induction l as [|x l IH]; simpl.
  - split; [intros _ x []|eauto].
  - split.
    + intros [ys E]. destruct (f x) as [y|] eqn:Ef; [|discriminate]. destruct (all_some f l) as [ys'|] eqn:El; [|discriminate].
      intros z [<-|Hz]; [eauto|]. apply IH; [eauto|exact Hz].
    + intros H. destruct (H x (or_introl eq_refl)) as [y ->]. destruct (proj2 IH) as [ys ->]; [intros z Hz; apply H; right; exact Hz|]. eauto.
Qed.
Lemma build_some pf sep names mono : (exists q, build_monotonic_constraints pf sep names mono = Some q) <->
  mono <> [] /\ exists cols, parsed sep names cols /\
  forall f s, In (f, s) mono -> (s = "increasing" \/ s = "decreasing") /\
    (exists c, In c cols /\ matches f c <> []) /\ forall c, In c cols -> (List.length (matches f c) <= 1)%nat.
Proof.
  assert (D : forall s, (exists d, parse_direction s = Some d) <-> s = "increasing" \/ s = "decreasing").
  { intros s. unfold parse_direction. destruct (String.eqb_spec s "increasing"); [split; eauto|].
    destruct (String.eqb_spec s "decreasing"); [split; eauto|]. split; [intros [d Q]; discriminate|tauto]. }
  split.
  - intros [q E]. split; [intros ->; discriminate|]. destruct (build_iff _ _ _ _ _ E) as [cols [P _]]. exists cols. split; [exact P|].
    intros f s Hfs. unfold build_monotonic_constraints in E. destruct (all_some _ mono) as [rss|] eqn:Ea; [|discriminate].
    destruct (proj1 (all_some_ex _ _) (ex_intro _ _ Ea) (f, s) Hfs) as [rw Q].
    pose proof (proj1 (factor_rows_some pf sep names cols (f, s) P) (ex_intro _ _ Q)) as [A [B C]]. simpl in *. rewrite D in A. auto.
  - intros [Hne [cols [P H]]]. unfold build_monotonic_constraints.
    destruct (proj2 (all_some_ex (factor_rows pf sep names) mono)) as [rss Ea].
    { intros [f s] Hfs. apply (factor_rows_some pf sep names cols (f, s) P). simpl. rewrite D. auto. }
    rewrite Ea. destruct mono as [|fd mono]; [congruence|]. destruct (all_some_In _ _ _ Ea) as [A1 _].
    destruct (A1 fd (or_introl eq_refl)) as [rw [Q1 Q2]]. destruct (factor_rows_iff pf sep names cols fd rw P Q1) as [d [_ [Q3 _]]].
    destruct (concat rss) as [|r0 rows] eqn:Ec; [|eauto]. exfalso. destruct rw as [|r rw]; [congruence|].
    assert (In r (concat rss)) by (apply in_concat; exists (r :: rw); split; [exact Q2|left; reflexivity]). rewrite Ec in H0. destruct H0.
Qed.

(** resolving variables to factors *)
Lemma dict_set_get k v d k' v' : NoDup (map fst d) ->
  NoDup (map fst (dict_set k v d)) /\ (forall x, In x (map fst (dict_set k v d)) <-> x = k \/ In x (map fst d)) /\
  (In (k', v') (dict_set k v d) <-> (k' = k /\ v' = v) \/ (k' <> k /\ In (k', v') d)).
Proof.
  induction d as [|[a b] d IH]; intros ND; simpl.
  - split; [constructor; [tauto|constructor]|]. split; [intros x; intuition|]. split; [intros [E|[]]; injection E as <- <-; auto|].
    intros [[-> ->]|[_ []]]. auto.
  - simpl in ND. inversion ND as [|? ? Hn ND']; subst. destruct (String.eqb_spec a k) as [->|Hne]; simpl.
    + split; [exact ND|]. split; [intros x; intuition|]. split.
      * intros [E|H]; [injection E as <- <-; auto|]. right. split; [|auto]. intros ->. apply Hn. apply (in_map fst) in H. exact H.
      * intros [[-> ->]|[Q [E|H]]]; [auto|congruence|auto].
    + destruct (IH ND') as [A [B C]]. split; [constructor; [rewrite B; intros [Q|Q]; [congruence|auto]|exact A]|]. split; [intros x; rewrite B; intuition|].
      rewrite C. split.
      * intros [E|[H|H]]; [injection E as <- <-; auto|auto|tauto].
      * intros [[-> ->]|[Q [E|H]]]; auto.
Qed.
Lemma set_factors_spec dir : forall fs d d', NoDup (map fst d) -> set_factors fs dir d = Some d' ->
  NoDup (map fst d') /\ (forall f, In f fs -> incompatible f = false) /\
  (forall f s, In (f, s) d' <-> (In f fs /\ s = dir) \/ (~ In f fs /\ In (f, s) d)).
Proof.
  induction fs as [|g fs IH]; intros d d' ND E; simpl in E.
  - injection E as <-. split; [exact ND|]. split; [intros f []|]. intros f s. simpl. tauto.
  - destruct (incompatible g) eqn:Ei; [discriminate|].
    destruct (dict_set_get g dir d g dir ND) as [ND1 _]. destruct (IH _ _ ND1 E) as [A [B C]]. split; [exact A|].
    split; [intros f [<-|Hf]; auto|]. intros f s. rewrite C. destruct (dict_set_get g dir d f s ND) as [_ [_ Q]]. rewrite Q. simpl.
    destruct (in_dec string_dec f fs) as [Hf|Hf]; [tauto|]. destruct (string_dec f g) as [->|Hne]; [tauto|].
    assert (g <> f) by congruence. tauto.
Qed.
Lemma factors_of_var_iff spec v f : In f (factors_of_var spec v) <-> var_in_factor spec v f.
Proof.
  unfold factors_of_var, var_in_factor. rewrite in_map_iff. split.
  - intros [e [<- H]]. apply filter_In in H. destruct H as [H1 H2]. apply existsb_exists in H2. destruct H2 as [x [H2 H3]]. apply String.eqb_eq in H3. subst x. exists e. split; [exact H1|]. split; [exact H2|]. apply str_rstrip_sign_spec. reflexivity.
  - intros [e [H1 [H2 H3]]]. apply str_rstrip_sign_spec in H3. subst f. exists e. split; [reflexivity|]. apply filter_In. split; [exact H1|]. apply existsb_exists. exists v. split; [exact H2|apply String.eqb_refl].
Qed.
Lemma resolve_spec spec : forall mc d d', NoDup (map fst d) -> resolve_loop spec mc d = Some d' ->
  NoDup (map fst d') /\
  (forall v s, In (v, s) mc -> (exists f, var_in_factor spec v f) /\ forall f, var_in_factor spec v f -> incompatible f = false) /\
  (forall f s, In (f, s) d' <->
     (exists mc1 v mc2, mc = mc1 ++ (v, s) :: mc2 /\ var_in_factor spec v f /\ forall v' s', In (v', s') mc2 -> ~ var_in_factor spec v' f)%list \/
     ((forall v' s', In (v', s') mc -> ~ var_in_factor spec v' f) /\ In (f, s) d)).
Proof.
  induction mc as [|[v dir] mc IH]; intros d d' ND E; cbn [resolve_loop] in E.
  - injection E as <-. split; [exact ND|]. split; [intros v s []|]. intros f s. split; [intros H; right; split; [intros v' s' []|exact H]|].
    intros [[mc1 [v [mc2 [Q _]]]]|[_ H]]; [destruct mc1; discriminate|exact H].
  - assert (X : exists d1 g0, In g0 (factors_of_var spec v) /\ set_factors (factors_of_var spec v) dir d = Some d1 /\ resolve_loop spec mc d1 = Some d').
    { destruct (factors_of_var spec v) as [|g0 gs]; [discriminate|]. destruct (set_factors (g0 :: gs) dir d) as [d1|]; [|discriminate].
      exists d1, g0. split; [left; reflexivity|]. split; [reflexivity|exact E]. }
    clear E. destruct X as [d1 [g0 [Hg0 [Es E]]]].
    destruct (set_factors_spec dir _ _ _ ND Es) as [ND1 [B C]]. destruct (IH _ _ ND1 E) as [A1 [B1 C1]].
    split; [exact A1|]. split.
    { intros v' s' [Q|H]; [|eauto]. injection Q as <- <-. split.
      - exists g0. apply factors_of_var_iff. exact Hg0.
      - intros f Hf. apply B. apply factors_of_var_iff. exact Hf. }
    intros f s. rewrite C1. split.
    + intros [[mc1 [w [mc2 [-> H]]]]|[Hn H]].
      * left. exists ((v, dir) :: mc1)%list, w, mc2. split; [reflexivity|exact H].
      * apply C in H. destruct H as [[H ->]|[H1 H2]].
        { left. exists []%list, v, mc. split; [reflexivity|]. split; [apply factors_of_var_iff; exact H|exact Hn]. }
        { right. split; [|exact H2]. intros v' s' [Q|Q]; [|eauto]. injection Q as <- <-. rewrite <- factors_of_var_iff. exact H1. }
    + intros [[mc1 [w [mc2 [Q [H1 H2]]]]]|[Hn H]].
      * destruct mc1 as [|m mc1].
        { injection Q as <- <- <-. right. split; [exact H2|]. apply C. left. split; [apply factors_of_var_iff; exact H1|reflexivity]. }
        { injection Q as _ ->. left. exists mc1, w, mc2. auto. }
      * right. split; [intros v' s' Q; apply (Hn v' s'); right; exact Q|]. apply C. right. split; [|exact H].
        rewrite factors_of_var_iff. apply (Hn v dir). left; reflexivity.
Qed.
