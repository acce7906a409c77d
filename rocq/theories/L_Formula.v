From Coq Require Import String Ascii Sorting.Sorted Sorting.Permutation.
From Verif Require Import Base M_Solver M_Formula S_Formula.
From Verif Require Import M_Solver S_Solver.
Local Open Scope R_scope.

(** Strings *)
Lemma ascii_compare_trans a b c : Ascii.compare a b = Lt -> Ascii.compare b c = Lt -> Ascii.compare a c = Lt.
Proof. unfold Ascii.compare. rewrite !N.compare_lt_iff. apply N.lt_trans. Qed.
Lemma ascii_compare_refl a : Ascii.compare a a = Eq.
Proof. unfold Ascii.compare. apply N.compare_refl. Qed.
Lemma str_compare_refl a : String.compare a a = Eq.
Proof. induction a; simpl; [reflexivity|]. rewrite ascii_compare_refl. exact IHa. Qed.
Lemma str_lt_trans a : forall b c, String.compare a b = Lt -> String.compare b c = Lt -> String.compare a c = Lt.
Proof.
  induction a as [|x a IH]; intros [|y b] [|z c]; simpl; try discriminate; auto.
  intros H1 H2. destruct (Ascii.compare x y) eqn:E1; try discriminate.
  - apply Ascii.compare_eq_iff in E1. subst y. destruct (Ascii.compare x z) eqn:E2; try discriminate; eauto.
  - destruct (Ascii.compare y z) eqn:E2; try discriminate.
    + apply Ascii.compare_eq_iff in E2. subst z. rewrite E1. reflexivity.
    + rewrite (ascii_compare_trans _ _ _ E1 E2). reflexivity.
Qed.
Lemma str_ltb_iff a b : String.ltb a b = true <-> String.compare a b = Lt.
Proof. unfold String.ltb. destruct (String.compare a b); split; congruence. Qed.

Lemma fl_eqb_iff a b : fl_eqb a b = true <-> a = b.
Proof. destruct a, b; simpl; try (split; congruence). rewrite Reqb_true. split; congruence. Qed.
Lemma fl_ltb_iff a b : fl_ltb a b = true <-> fl_lt a b.
Proof. destruct a, b; simpl; try (split; [congruence|tauto]); try tauto. apply Rltb_true. Qed.
Lemma fl_lt_trans a b c : fl_lt a b -> fl_lt b c -> fl_lt a c.
Proof. destruct a, b, c; simpl; try tauto. lra. Qed.
Lemma fl_lt_irrefl a : ~ fl_lt a a.
Proof. destruct a; simpl; try tauto. lra. Qed.
Lemma fl_total a b : fl_lt a b \/ a = b \/ fl_lt b a.
Proof. destruct a, b; simpl; auto. destruct (Rtotal_order r r0) as [H|[H|H]]; subst; auto. Qed.

Section Order.
Variable pf : string -> option fl.
Lemma sort_key_eq m : sort_key pf m = (lvl_value pf (snd m), lvl_text pf (snd m)).
Proof. destruct m as [i [s|]]; unfold sort_key, lvl_value, lvl_text; simpl; [destruct (pf s); reflexivity|reflexivity]. Qed.
Lemma key_ltb_iff a b : key_ltb (sort_key pf a) (sort_key pf b) = true <-> lvl_lt pf (snd a) (snd b).
Proof.
  rewrite !sort_key_eq. unfold key_ltb, lvl_lt. simpl.
  destruct (fl_eqb _ _) eqn:E.
  - apply fl_eqb_iff in E. rewrite str_ltb_iff, E. split; [auto|]. intros [H|[_ H]]; [elim (fl_lt_irrefl _ H)|exact H].
  - rewrite fl_ltb_iff. split; [auto|]. intros [H|[H _]]; [exact H|]. apply fl_eqb_iff in H. congruence.
Qed.
Lemma lvl_lt_trans x y z : lvl_lt pf x y -> lvl_lt pf y z -> lvl_lt pf x z.
Proof.
  unfold lvl_lt. intros [H|[H H']] [K|[K K']].
  - left. eapply fl_lt_trans; eauto.
  - left. rewrite <- K. exact H.
  - left. rewrite H. exact K.
  - right. split; [congruence|]. eapply str_lt_trans; eauto.
Qed.
Lemma lvl_lt_irrefl x : ~ lvl_lt pf x x.
Proof. intros [H|[_ H]]; [exact (fl_lt_irrefl _ H)|]. rewrite str_compare_refl in H. discriminate. Qed.
Lemma lvl_total x y : lvl_lt pf x y \/ lvl_eq pf x y \/ lvl_lt pf y x.
Proof.
  unfold lvl_lt, lvl_eq. destruct (fl_total (lvl_value pf x) (lvl_value pf y)) as [H|[H|H]]; auto.
  destruct (String.compare (lvl_text pf x) (lvl_text pf y)) eqn:E; auto.
  - apply String.compare_eq_iff in E. auto.
  - right; right; right. split; [congruence|]. rewrite String.compare_antisym, E. reflexivity.
Qed.
Lemma lvl_lt_eq x y z : lvl_lt pf x y -> lvl_eq pf y z -> lvl_lt pf x z.
Proof. unfold lvl_lt, lvl_eq. intros H [A B]. rewrite <- A, <- B. exact H. Qed.
Lemma lvl_eq_lt x y z : lvl_eq pf x y -> lvl_lt pf y z -> lvl_lt pf x z.
Proof. unfold lvl_lt, lvl_eq. intros [A B] H. rewrite A, B. exact H. Qed.
Lemma lvl_eq_sym x y : lvl_eq pf x y -> lvl_eq pf y x.
Proof. intros [A B]; split; congruence. Qed.

Definition bf (a b : member) : Prop := before pf (fst a) (snd a) (fst b) (snd b).
Lemma bf_trans a b c : bf a b -> bf b c -> bf a c.
Proof.
  unfold bf, before. intros [H|[H H']] [K|[K K']].
  - left. eapply lvl_lt_trans; eauto.
  - left. eapply lvl_lt_eq; eauto.
  - left. eapply lvl_eq_lt; eauto.
  - right. split; [|lia]. destruct H, K; split; congruence.
Qed.
Lemma bf_irrefl a : ~ bf a a.
Proof. intros [H|[_ H]]; [exact (lvl_lt_irrefl _ H)|lia]. Qed.

Lemma insert_perm m l : Permutation (insert_member pf m l) (m :: l).
Proof.
  induction l as [|x r IH]; simpl; [reflexivity|]. destruct (key_ltb _ _); [|reflexivity].
  rewrite IH. apply perm_swap.
Qed.
Lemma sort_perm l : Permutation (sort_members pf l) l.
Proof. induction l; simpl; [reflexivity|]. rewrite insert_perm. apply perm_skip. exact IHl. Qed.

Lemma insert_sorted m l : (forall x, In x l -> (fst m < fst x)%nat) -> StronglySorted bf l ->
  StronglySorted bf (insert_member pf m l).
Proof.
  induction l as [|x r IH]; intros Hm Hs; simpl.
  - repeat constructor.
  - inversion Hs as [|? ? Hr Hx]; subst. rewrite List.Forall_forall in Hx.
    destruct (key_ltb _ _) eqn:E.
    + apply key_ltb_iff in E. constructor.
      * apply IH; [intros y Hy; apply Hm; right; exact Hy|exact Hr].
      * apply List.Forall_forall. intros y Hy. apply (Permutation_in y (insert_perm m r)) in Hy.
        destruct Hy as [<-|Hy]; [left; exact E|apply Hx; exact Hy].
    + constructor; [exact Hs|]. apply List.Forall_forall.
      assert (B : bf m x).
      { destruct (lvl_total (snd m) (snd x)) as [H|[H|H]].
        - left; exact H.
        - right. split; [exact H|]. apply Hm. left; reflexivity.
        - apply key_ltb_iff in H. congruence. }
      intros y [<-|Hy]; [exact B|]. eapply bf_trans; [exact B|apply Hx; exact Hy].
Qed.
Definition idx_lt (a b : member) : Prop := (fst a < fst b)%nat.
Lemma sort_sorted l : StronglySorted idx_lt l -> StronglySorted bf (sort_members pf l).
Proof.
  induction l as [|x r IH]; intros H; simpl; [constructor|]. inversion H as [|? ? Hr Hx]; subst. rewrite List.Forall_forall in Hx.
  apply insert_sorted; [|apply IH; exact Hr]. intros y Hy. apply (Permutation_in y (sort_perm r)) in Hy. apply Hx; exact Hy.
Qed.

Lemma sorted_cut l1 a l2 : StronglySorted bf (l1 ++ a :: l2) ->
  (forall c, In c l1 -> bf c a) /\ (forall c, In c l2 -> bf a c).
Proof.
  induction l1 as [|x l1 IH]; simpl; intros H; inversion H as [|? ? Hr Hx]; subst; rewrite List.Forall_forall in Hx.
  - split; [intros c []|exact Hx].
  - destruct (IH Hr) as [A B]. split; [|exact B]. intros c [<-|Hc]; [|auto]. apply Hx. apply in_or_app. right; left; reflexivity.
Qed.

(** consecutive elements of a sorted list = neighbours in the order *)
Definition consec (l : list member) (a b : member) : Prop := exists l1 l2, l = l1 ++ a :: b :: l2.
Lemma consec_iff l a b : StronglySorted bf l ->
  (consec l a b <-> In a l /\ In b l /\ bf a b /\ forall c, In c l -> ~ (bf a c /\ bf c b)).
Proof.
  intros Hs. split.
  - intros [l1 [l2 ->]].
    destruct (sorted_cut l1 a (b :: l2) Hs) as [A1 A2].
    assert (Hs' : StronglySorted bf ((l1 ++ [a]) ++ b :: l2)) by (rewrite <- app_assoc; exact Hs).
    destruct (sorted_cut (l1 ++ [a]) b l2 Hs') as [B1 B2].
    repeat split.
    + apply in_or_app; right; left; reflexivity.
    + apply in_or_app; right; right; left; reflexivity.
    + apply A2; left; reflexivity.
    + intros c Hc [H1 H2]. apply in_app_or in Hc. destruct Hc as [Hc|[<-|[<-|Hc]]].
      * apply (bf_irrefl c). eapply bf_trans; [apply A1; exact Hc|exact H1].
      * exact (bf_irrefl _ H1).
      * exact (bf_irrefl _ H2).
      * apply (bf_irrefl c). eapply bf_trans; [exact H2|apply B2; exact Hc].
  - intros [Ha [Hb [Hab Hn]]]. destruct (in_split a l Ha) as [l1 [l2 ->]].
    destruct (sorted_cut l1 a l2 Hs) as [A1 A2].
    assert (Hb2 : In b l2).
    { apply in_app_or in Hb. destruct Hb as [Hb|[<-|Hb]]; [|elim (bf_irrefl _ Hab)|exact Hb].
      elim (bf_irrefl a). eapply bf_trans; [exact Hab|apply A1; exact Hb]. }
    destruct l2 as [|c l2]; [destruct Hb2|]. destruct Hb2 as [->|Hb2]; [exists l1, l2; reflexivity|].
    exfalso. apply (Hn c); [apply in_or_app; right; right; left; reflexivity|]. split; [apply A2; left; reflexivity|].
    assert (Hs' : StronglySorted bf ((l1 ++ [a]) ++ c :: l2)) by (rewrite <- app_assoc; exact Hs).
    apply (sorted_cut (l1 ++ [a]) c l2 Hs'). exact Hb2.
Qed.
End Order.

(** Rows *)
Lemma set_zero_dot n i s (w : nat -> R) : (i < n)%nat -> rsum n (fun j => set_at zero_row i s j * w j) = s * w i.
Proof.
  intros H. rewrite (rsum_single n i (fun j => set_at zero_row i s j * w j) H).
  - unfold set_at. rewrite Nat.eqb_refl. reflexivity.
  - intros j _ Hj. unfold set_at, zero_row. destruct (Nat.eqb_spec j i); [congruence|ring].
Qed.
Lemma set_pair_dot n i j s (w : nat -> R) : (i < n)%nat -> (j < n)%nat -> i <> j ->
  rsum n (fun k => set_at (set_at zero_row i s) j (- s) k * w k) = s * (w i - w j).
Proof.
  intros Hi Hj Hij.
  rewrite (rsum_ext n (fun k => set_at (set_at zero_row i s) j (- s) k * w k)
     (fun k => set_at zero_row i s k * w k + set_at zero_row j (- s) k * w k)).
  - rewrite rsum_plus, !set_zero_dot by assumption. ring.
  - intros k _. unfold set_at, zero_row. destruct (Nat.eqb_spec k j), (Nat.eqb_spec k i); subst; try congruence; ring.
Qed.
Lemma pair_rows_in s l r : In r (pair_rows s l) <->
  exists a b, consec l a b /\ r = set_at (set_at zero_row (fst a) s) (fst b) (- s).
Proof.
  induction l as [|[i x] [|[j y] l] IH].
  - simpl. split; [tauto|]. intros [a [b [[l1 [l2 E]] _]]]. destruct l1; discriminate.
  - simpl. split; [tauto|]. intros [a [b [[l1 [l2 E]] _]]]. destruct l1 as [|? [|? ?]]; discriminate.
  - change (In r (set_at (set_at zero_row i s) j (- s) :: pair_rows s ((j, y) :: l)) <->
      exists a b, consec ((i, x) :: (j, y) :: l) a b /\ r = set_at (set_at zero_row (fst a) s) (fst b) (- s)).
    split.
    + intros [<-|H].
      * exists (i, x), (j, y). split; [exists [], l; reflexivity|reflexivity].
      * apply IH in H. destruct H as [a [b [[l1 [l2 E]] Er]]]. exists a, b. split; [|exact Er].
        exists ((i, x) :: l1), l2. exact (f_equal (cons (i, x)) E).
    + intros [a [b [[l1 [l2 E]] Er]]]. destruct l1 as [|c l1].
      * injection E as E1 E2 E3. subst a b l2. left. symmetry. exact Er.
      * right. apply IH. exists a, b. split; [|exact Er]. injection E as _ E. exists l1, l2. exact E.
Qed.

(** Grouping *)
Lemma ostr_eqb_iff a b : ostr_eqb a b = true <-> a = b.
Proof. destruct a, b; simpl; try (split; congruence). rewrite String.eqb_eq. split; congruence. Qed.
Lemma factor_eqb_iff a b : factor_eqb a b = true <-> a = b.
Proof. destruct a, b. unfold factor_eqb. simpl. rewrite andb_true_iff, String.eqb_eq, ostr_eqb_iff. split; [intros [-> ->]|intros E; injection E]; auto. Qed.
Lemma key_eqb_iff a : forall b, key_eqb a b = true <-> a = b.
Proof.
  induction a as [|x a IH]; intros [|y b]; simpl; try (split; congruence).
  rewrite andb_true_iff, factor_eqb_iff, IH. split; [intros [-> ->]|intros E; injection E]; auto.
Qed.

Lemma matches_app f l r : matches f (l ++ r) = matches f l ++ matches f r.
Proof. apply filter_app. Qed.
Lemma filter_none {A} (p : A -> bool) l : (forall x, In x l -> p x = false) -> filter p l = [].
Proof. induction l; simpl; intros H; [reflexivity|]. rewrite H by auto. apply IHl. auto. Qed.
Lemma filter_all {A} (p : A -> bool) l : (forall x, In x l -> p x = true) -> filter p l = l.
Proof. induction l; simpl; intros H; [reflexivity|]. rewrite H by auto. f_equal. apply IHl. auto. Qed.
Lemma has_factor_iff f c o x : has_factor f c o x <-> matches f c = [(f, x)] /\ o = others_of f c.
Proof.
  split.
  - intros [l [r [-> [-> H]]]].
    assert (Hl : forall y, In y l -> fst y <> f) by (intros; apply H, in_or_app; auto).
    assert (Hr : forall y, In y r -> fst y <> f) by (intros; apply H, in_or_app; auto).
    split.
    + unfold matches. rewrite filter_app. simpl. rewrite String.eqb_refl.
      rewrite filter_none, filter_none; [reflexivity| |]; intros y Hy; apply String.eqb_neq; auto.
    + unfold others_of. rewrite filter_app. simpl. rewrite String.eqb_refl. simpl.
      rewrite !filter_all; [reflexivity| |]; intros y Hy; apply negb_true_iff, String.eqb_neq; auto.
  - intros [E ->]. revert E. induction c as [|[g y] c IH]; simpl; [discriminate|].
    destruct (String.eqb_spec g f) as [->|Hg].
    + intros E. injection E as -> E. exists [], c. simpl. split; [reflexivity|].
      assert (H : forall z, In z c -> fst z <> f).
      { intros z Hz Ef. assert (In z (filter (fun x => String.eqb (fst x) f) c)) by (apply filter_In; split; [exact Hz|apply String.eqb_eq; exact Ef]).
        unfold matches in E. rewrite E in H. destruct H. }
      split; [|exact H]. apply filter_all. intros z Hz. apply negb_true_iff, String.eqb_neq. auto.
    + intros E. destruct (IH E) as [l [r [-> [Eo H]]]]. exists ((g, y) :: l), r.
      simpl. rewrite Eo. split; [reflexivity|]. split; [reflexivity|]. intros z [<-|Hz]; [exact Hg|auto].
Qed.
Lemma matches_name f c y : In y (matches f c) -> fst y = f.
Proof. intros H. apply filter_In in H. apply String.eqb_eq. apply H. Qed.

Lemma add_member_in key m g k ms : NoDup (map fst g) -> (In (k, ms) (add_member key m g) <->
  (k <> key /\ In (k, ms) g) \/
  (k = key /\ ((exists ms0, In (key, ms0) g /\ ms = ms0 ++ [m]) \/ (~ In key (map fst g) /\ ms = [m])))).
Proof.
  induction g as [|[k' ms'] g IH]; intros ND; simpl.
  - split.
    + intros [E|[]]. injection E as <- <-. right. split; [reflexivity|]. right. split; [tauto|reflexivity].
    + intros [[_ []]|[-> [[ms0 [[] _]]|[_ ->]]]]. left; reflexivity.
  - simpl in ND. inversion ND as [|? ? Hn ND']; subst. destruct (key_eqb k' key) eqn:E.
    + apply key_eqb_iff in E. subst k'. simpl. split.
      * intros [E|H].
        { injection E as <- <-. right. split; [reflexivity|]. left. exists ms'. auto. }
        { left. split; [|auto]. intros ->. apply Hn. apply (in_map fst) in H. exact H. }
      * intros [[Hk [E|H]]|[-> [[ms0 [[E|H] ->]]|[H _]]]].
        { congruence. } { auto. } { left. congruence. }
        { exfalso. apply Hn. apply (in_map fst) in H. exact H. } { exfalso. apply H. auto. }
    + assert (Hne : k' <> key) by (intros Q; apply key_eqb_iff in Q; congruence). simpl. rewrite IH by exact ND'. split.
      * intros [Q|[[Hk H]|[-> [[ms0 [H ->]]|[H ->]]]]].
        { injection Q as <- <-. left. auto. } { left; auto. }
        { right. split; [reflexivity|]. left. exists ms0. auto. }
        { right. split; [reflexivity|]. right. split; [|reflexivity]. intros [Q|Q]; [congruence|auto]. }
      * intros [[Hk [Q|H]]|[-> [[ms0 [[Q|H] ->]]|[H ->]]]].
        { auto. } { auto. } { congruence. }
        { right; right. split; [reflexivity|]. left. exists ms0. auto. }
        { right; right. split; [reflexivity|]. right. split; [|reflexivity]. tauto. }
Qed.
Lemma add_member_keys key m g : NoDup (map fst g) ->
  NoDup (map fst (add_member key m g)) /\ (forall k, In k (map fst (add_member key m g)) <-> k = key \/ In k (map fst g)).
Proof.
  induction g as [|[k' ms'] g IH]; intros ND; simpl.
  - split; [constructor; [tauto|constructor]|]. intros k; intuition.
  - simpl in ND. inversion ND as [|? ? Hn ND']; subst. destruct (key_eqb k' key) eqn:E.
    + apply key_eqb_iff in E. subst. simpl. split; [exact ND|]. intros k; intuition.
    + assert (Hne : k' <> key) by (intros Q; apply key_eqb_iff in Q; congruence). simpl.
      destruct (IH ND') as [A B]. split.
      * constructor; [|exact A]. rewrite B. intros [Q|Q]; [congruence|auto].
      * intros k. rewrite B. intuition.
Qed.

Record ginv (cols : list (list factor)) (f : string) (i : nat) (g : groups) : Prop := {
  gi_nd : NoDup (map fst g);
  gi_mem : forall k ms, In (k, ms) g -> ms <> [] /\ StronglySorted idx_lt ms /\
             forall j x, In (j, x) ms <-> ((j < i)%nat /\ in_group cols f k j x);
  gi_all : forall k j x, (j < i)%nat -> in_group cols f k j x -> In k (map fst g)
}.

Lemma sorted_snoc l (a : member) : StronglySorted idx_lt l -> (forall x, In x l -> idx_lt x a) -> StronglySorted idx_lt (l ++ [a]).
Proof.
  induction l as [|x l IH]; simpl; intros H Ha; [repeat constructor|]. inversion H as [|? ? Hr Hx]; subst. rewrite List.Forall_forall in Hx.
  constructor; [apply IH; auto|]. apply List.Forall_forall. intros y Hy. apply in_app_or in Hy. destruct Hy as [Hy|[<-|[]]]; auto.
Qed.

Lemma in_group_unique cols f k k' j x x' : in_group cols f k j x -> in_group cols f k' j x' -> k = k' /\ x = x'.
Proof.
  intros [c [E H]] [c' [E' H']]. rewrite E in E'. injection E' as <-. apply has_factor_iff in H, H'.
  destruct H as [M ->], H' as [M' ->]. rewrite M in M'. injection M' as <-. auto.
Qed.

Lemma ginv_skip cols f i g c : ginv cols f i g -> nth_error cols i = Some c -> matches f c = [] -> ginv cols f (S i) g.
Proof.
  intros [ND M A] E Em.
  assert (No : forall k x, ~ in_group cols f k i x).
  { intros k x [c' [E' H]]. rewrite E in E'. injection E' as <-. apply has_factor_iff in H. destruct H as [Q _]. congruence. }
  constructor; [exact ND| |].
  - intros k ms H. destruct (M k ms H) as [H1 [H2 H3]]. split; [exact H1|]. split; [exact H2|]. intros j x. rewrite H3.
    split; intros [Q1 Q2]; split; auto. assert (j <> i) by (intros ->; eapply No; eauto). lia.
  - intros k j x Hj Hg. assert (j <> i) by (intros ->; eapply No; eauto). apply (A k j x); [lia|exact Hg].
Qed.
Lemma ginv_add cols f i g c y idx : ginv cols f i g -> nth_error cols i = Some c -> matches f c = [(y, idx)] ->
  ginv cols f (S i) (add_member (others_of f c) (i, idx) g).
Proof.
  intros [ND M A] E Em.
  assert (Ey : y = f) by (apply (matches_name f c (y, idx)); rewrite Em; left; reflexivity). subst y.
  assert (G : in_group cols f (others_of f c) i idx) by (exists c; split; [exact E|]; apply has_factor_iff; auto).
  destruct (add_member_keys (others_of f c) (i, idx) g ND) as [ND' K].
  constructor; [exact ND'| |].
  - intros k ms H. apply add_member_in in H; [|exact ND]. destruct H as [[Hk H]|[-> [[ms0 [H ->]]|[H ->]]]].
    + destruct (M k ms H) as [H1 [H2 H3]]. split; [exact H1|]. split; [exact H2|]. intros j x. rewrite H3.
      split; intros [Q1 Q2]; split; auto. assert (j <> i); [|lia]. intros ->. apply Hk. apply (in_group_unique _ _ _ _ _ _ _ Q2 G).
    + destruct (M _ ms0 H) as [H1 [H2 H3]]. split; [destruct ms0; discriminate|]. split.
      * apply sorted_snoc; [exact H2|]. intros [j x] Hj. apply H3 in Hj. unfold idx_lt. simpl. lia.
      * intros j x. rewrite in_app_iff, H3. simpl. split.
        { intros [[Q1 Q2]|[Q|[]]]; [split; [lia|exact Q2]|]. injection Q as <- <-. split; [lia|exact G]. }
        { intros [Q1 Q2]. destruct (Nat.eq_dec j i) as [->|Hj]; [|left; split; [lia|exact Q2]].
          right. left. f_equal. symmetry. apply (in_group_unique _ _ _ _ _ _ _ Q2 G). }
    + split; [discriminate|]. split; [repeat constructor|]. intros j x. simpl. split.
      * intros [Q|[]]. injection Q as <- <-. split; [lia|exact G].
      * intros [Q1 Q2]. left. destruct (Nat.eq_dec j i) as [->|Hj].
        { f_equal. symmetry. apply (in_group_unique _ _ _ _ _ _ _ Q2 G). }
        { exfalso. apply H. apply (A _ j x); [lia|exact Q2]. }
  - intros k j x Hj Hg. apply K. destruct (Nat.eq_dec j i) as [->|Hne].
    + left. apply (in_group_unique _ _ _ _ _ _ _ Hg G).
    + right. apply (A k j x); [lia|exact Hg].
Qed.

Lemma group_loop_inv sep f : forall names cols0 cols i g g', List.length cols0 = i ->
  map (parse_column_name sep) names = map Some cols ->
  ginv (cols0 ++ cols) f i g -> group_loop sep f names i g = Some g' ->
  ginv (cols0 ++ cols) f (i + List.length names) g'.
Proof.
  induction names as [|nm names IH]; intros cols0 cols i g g' Hl P I E; simpl in *.
  - injection E as <-. rewrite Nat.add_0_r. exact I.
  - destruct cols as [|c cols]; [discriminate|]. simpl in P. injection P as Pc P. rewrite Pc in E.
    assert (En : nth_error (cols0 ++ c :: cols) i = Some c).
    { rewrite nth_error_app2 by lia. rewrite Hl, Nat.sub_diag. reflexivity. }
    assert (Ea : cols0 ++ c :: cols = (cols0 ++ [c]) ++ cols) by (rewrite <- app_assoc; reflexivity).
    assert (Hl' : List.length (cols0 ++ [c]) = S i) by (rewrite app_length; simpl; lia).
    rewrite <- Nat.add_succ_comm.
    destruct (matches f c) as [|[y idx] [|]] eqn:Em; [| |discriminate].
    + pose proof (ginv_skip _ _ _ _ _ I En Em) as I'. rewrite Ea in *. eapply IH; eauto.
    + pose proof (ginv_add _ _ _ _ _ _ _ I En Em) as I'. rewrite Ea in *. eapply IH; eauto.
Qed.
Lemma group_inv sep f names cols g : parsed sep names cols -> group_columns_by_factor sep f names = Some g ->
  ginv cols f (List.length cols) g.
Proof.
  intros P E. assert (Hl : List.length names = List.length cols) by (apply (f_equal (@List.length _)) in P; rewrite !map_length in P; exact P).
  rewrite <- Hl. apply (group_loop_inv sep f names [] cols 0 [] g eq_refl P); [|exact E].
  constructor; simpl; [constructor|tauto|lia].
Qed.
Lemma group_loop_parsed sep f : forall names i g g', group_loop sep f names i g = Some g' -> exists cols, parsed sep names cols.
Proof.
  induction names as [|nm names IH]; intros i g g' E; simpl in E.
  - exists []. reflexivity.
  - destruct (parse_column_name sep nm) as [c|] eqn:Ec; [|discriminate].
    assert (X : exists i g, group_loop sep f names i g = Some g').
    { destruct (matches f c) as [|[y idx] [|]]; [eauto|eauto|discriminate]. }
    destruct X as [i' [g0 E']]. destruct (IH _ _ _ E') as [cols P]. exists (c :: cols). unfold parsed in *. simpl. rewrite Ec, P. reflexivity.
Qed.

(** Meaning of the rows of one group *)
Definition group_ok (cols : list (list factor)) (f : string) (k : list factor) (ms : list member) : Prop :=
  ms <> [] /\ StronglySorted idx_lt ms /\ forall j x, In (j, x) ms <-> in_group cols f k j x.
Lemma in_group_lt cols f k j x : in_group cols f k j x -> (j < List.length cols)%nat.
Proof. intros [c [E _]]. apply nth_error_Some. congruence. Qed.
Lemma ginv_groups cols f g : ginv cols f (List.length cols) g ->
  (forall k ms, In (k, ms) g -> group_ok cols f k ms) /\
  (forall k j x, in_group cols f k j x -> exists ms, In (k, ms) g).
Proof.
  intros [ND M A]. split.
  - intros k ms H. destruct (M k ms H) as [H1 [H2 H3]]. split; [exact H1|]. split; [exact H2|]. intros j x. rewrite H3.
    split; [tauto|]. intros Q. split; [eapply in_group_lt; eauto|exact Q].
  - intros k j x H. pose proof (A k j x (in_group_lt _ _ _ _ _ H) H) as Q. apply in_map_iff in Q. destruct Q as [[k' ms] [<- Q]].
    exists ms. exact Q.
Qed.

Lemma slack_sign t d a b : dir_sign d * (a - b) <= t <-> dir_le_slack t d a b.
Proof. destruct d; simpl; split; lra. Qed.
Lemma slack_sign0 t d b : - dir_sign d * b <= t <-> dir_le_slack t d 0 b.
Proof. destruct d; simpl; split; lra. Qed.

Lemma group_sorted pf cols f k ms : group_ok cols f k ms ->
  StronglySorted (bf pf) (sort_members pf ms) /\ forall j x, In (j, x) (sort_members pf ms) <-> in_group cols f k j x.
Proof.
  intros [_ [S M]]. split; [apply sort_sorted; exact S|]. intros j x. rewrite <- M.
  split; apply Permutation_in; [apply sort_perm|apply Permutation_sym, sort_perm].
Qed.
Lemma neighbours_consec pf cols f k ms i j : group_ok cols f k ms ->
  (neighbours pf cols f k i j <-> exists x y, consec (sort_members pf ms) (i, x) (j, y)).
Proof.
  intros G. destruct (group_sorted pf _ _ _ _ G) as [S M]. unfold neighbours. split; intros [x [y H]]; exists x, y.
  - apply (consec_iff pf); [exact S|]. destruct H as [A [B [C D]]]. rewrite !M. repeat split; auto.
    intros [c z] Hc. apply M in Hc. exact (D c z Hc).
  - apply (consec_iff pf) in H; [|exact S]. destruct H as [A [B [C D]]]. rewrite !M in *. repeat split; auto.
    intros c z Hc. apply M in Hc. exact (D (c, z) Hc).
Qed.

Lemma group_rows_iff pf cols f k ms d t w : group_ok cols f k ms ->
  (forall r, In r (group_rows pf (dir_sign d) ms) -> rsum (List.length cols) (fun j => r j * w j) <= t) <->
  (forall i j, neighbours pf cols f k i j -> dir_le_slack t d (w i) (w j)) /\
  (forall i x, in_group cols f k i x -> (forall j y, in_group cols f k j y -> j = i) -> dir_le_slack t d 0 (w i)).
Proof.
  intros G. pose proof G as [Hne [S M]]. pose proof (group_sorted pf _ _ _ _ G) as [S' M'].
  unfold group_rows; cbv zeta. destruct ms as [|[i0 x0] [|[i1 x1] ms]]; [congruence| |].
  - simpl. assert (N : forall i j, ~ neighbours pf cols f k i j).
    { intros i j H. apply (neighbours_consec pf _ _ _ _ _ _ G) in H. destruct H as [x [y [l1 [l2 E]]]]. simpl in E.
      destruct l1 as [|? [|? ?]]; discriminate. }
    assert (M0 : in_group cols f k i0 x0) by (apply M; left; reflexivity).
    split.
    + intros H. split; [intros i j Hn; elim (N _ _ Hn)|]. intros i x Hi _. apply M in Hi. destruct Hi as [Q|[]]. injection Q as <- <-.
      apply slack_sign0. rewrite <- (set_zero_dot (List.length cols)) by (eapply in_group_lt; eauto). apply H. left; reflexivity.
    + intros [_ H] r [<-|[]]. rewrite set_zero_dot by (eapply in_group_lt; eauto). apply slack_sign0.
      apply (H i0 x0 M0). intros j y Hj. apply M in Hj. destruct Hj as [Q|[]]. congruence.
  - set (L := sort_members pf ((i0, x0) :: (i1, x1) :: ms)) in *.
    change (Nat.ltb 1 (List.length ((i0, x0) :: (i1, x1) :: ms))) with true. cbv iota.
    assert (HL : List.length L = (2 + List.length ms)%nat) by (unfold L; rewrite (Permutation_length (sort_perm pf _)); reflexivity).
    assert (Q : (match L with [(i, _)] => [set_at zero_row i (- dir_sign d)] | _ => pair_rows (dir_sign d) L end) = pair_rows (dir_sign d) L).
    { destruct L as [|[? ?] [|? ?]]; simpl in HL; try lia; reflexivity. }
    unfold member in *. fold L in Q |- *. rewrite Q.
    assert (A : in_group cols f k i0 x0) by (apply M; left; reflexivity).
    assert (B : in_group cols f k i1 x1) by (apply M; right; left; reflexivity).
    assert (Hne01 : (i0 < i1)%nat).
    { inversion S as [|? ? _ F]; subst. rewrite List.Forall_forall in F. apply (F (i1, x1)). left; reflexivity. }
    split.
    + intros H. split.
      * intros i j Hn. pose proof Hn as Hn'. apply (neighbours_consec pf _ _ _ _ _ _ G) in Hn'. destruct Hn' as [x [y C]]. fold L in C.
        pose proof C as C'. apply (consec_iff pf _ _ _ S') in C'. destruct C' as [C1 [C2 [C3 _]]]. apply M' in C1, C2.
        assert (i <> j). { intros <-. destruct (in_group_unique _ _ _ _ _ _ _ C1 C2) as [_ <-]. exact (bf_irrefl pf _ C3). }
        apply slack_sign. rewrite <- (set_pair_dot (List.length cols)) by (auto; eapply in_group_lt; eauto). apply H. apply pair_rows_in.
        exists (i, x), (j, y). split; [exact C|reflexivity].
      * intros i x Hi Ho. pose proof (Ho _ _ A). pose proof (Ho _ _ B). lia.
    + intros [H _] r Hr. apply pair_rows_in in Hr. destruct Hr as [[i x] [[j y] [C ->]]]. simpl fst.
      pose proof C as C'. apply (consec_iff pf _ _ _ S') in C'. destruct C' as [C1 [C2 [C3 _]]]. apply M' in C1, C2.
      assert (i <> j). { intros <-. destruct (in_group_unique _ _ _ _ _ _ _ C1 C2) as [_ <-]. exact (bf_irrefl pf _ C3). }
      rewrite set_pair_dot by (auto; eapply in_group_lt; eauto). apply slack_sign. apply H.
      apply (neighbours_consec pf _ _ _ _ _ _ G). exists x, y. exact C.
Qed.

Lemma factor_rows_iff pf sep names cols fd rows : parsed sep names cols -> factor_rows pf sep names fd = Some rows ->
  exists d, parse_direction (snd fd) = Some d /\ rows <> [] /\ (exists k i x, in_group cols (fst fd) k i x) /\
  (forall w t, (forall r, In r rows -> rsum (List.length cols) (fun j => r j * w j) <= t) <-> nearly_monotone t pf cols (fst fd) d w).
Proof.
  intros P E. unfold factor_rows in E. destruct (parse_direction (snd fd)) as [d|] eqn:Ed; [|discriminate].
  destruct (group_columns_by_factor sep (fst fd) names) as [g|] eqn:Eg; [|discriminate].
  destruct (ginv_groups _ _ _ (group_inv _ _ _ _ _ P Eg)) as [G A].
  destruct g as [|[k0 ms0] g]; [discriminate|]. set (gg := (k0, ms0) :: g) in *.
  apply (f_equal (fun o => match o with Some x => x | None => [] end)) in E. cbv beta iota in E. subst rows.
  exists d. split; [reflexivity|].
  assert (G0 : group_ok cols (fst fd) k0 ms0) by (apply G; left; reflexivity).
  assert (NE : forall k ms, group_ok cols (fst fd) k ms -> group_rows pf (dir_sign d) ms <> []).
  { intros k ms [Hne [S M]]. unfold group_rows; cbv zeta. destruct ms as [|[i0 x0] [|[i1 x1] ms]]; [congruence|discriminate|].
    change (Nat.ltb 1 (List.length ((i0, x0) :: (i1, x1) :: ms))) with true. cbv iota.
    pose proof (Permutation_length (sort_perm pf ((i0, x0) :: (i1, x1) :: ms))) as HL.
    destruct (sort_members pf _) as [|[? ?] [|[? ?] ?]]; simpl in HL; try lia. discriminate. }
  split; [|split].
  - intros Q. unfold gg in Q. simpl in Q. apply app_eq_nil in Q. destruct Q as [Q _]. exact (NE _ _ G0 Q).
  - destruct G0 as [Hne [_ M]]. destruct ms0 as [|[i x] ms0]; [congruence|]. exists k0, i, x. apply M. left; reflexivity.
  - intros w t. unfold nearly_monotone. split.
    + intros H.
      assert (X : forall k ms, In (k, ms) gg -> forall r, In r (group_rows pf (dir_sign d) ms) -> rsum (List.length cols) (fun j => r j * w j) <= t).
      { intros k ms Hk r Hr. apply H. apply in_flat_map. exists (k, ms). split; [exact Hk|exact Hr]. }
      split.
      * intros o i j Hn. destruct Hn as [x [y Hn]]. destruct (A o i x (proj1 Hn)) as [ms Hms].
        pose proof (proj1 (group_rows_iff pf _ _ _ _ d t w (G _ _ Hms)) (X _ _ Hms)) as [Y _]. apply Y. exists x, y. exact Hn.
      * intros o i x Hi Ho. destruct (A o i x Hi) as [ms Hms].
        pose proof (proj1 (group_rows_iff pf _ _ _ _ d t w (G _ _ Hms)) (X _ _ Hms)) as [_ Y]. eapply Y; eauto.
    + intros [H1 H2] r Hr. apply in_flat_map in Hr. destruct Hr as [[k ms] [Hms Hr]]. simpl in Hr.
      revert r Hr. apply (group_rows_iff pf _ _ _ _ d t w (G _ _ Hms)). split; [intros i j; apply H1|intros i x; apply H2].
Qed.

Lemma all_some_In {A B} (f : A -> option B) l ys : all_some f l = Some ys ->
  (forall x, In x l -> exists y, f x = Some y /\ In y ys) /\ (forall y, In y ys -> exists x, In x l /\ f x = Some y).
Proof.
  revert ys. induction l as [|x l IH]; intros ys E; simpl in E.
  - injection E as <-. split; intros ? [].
  - destruct (f x) as [y|] eqn:Ef; [|discriminate]. destruct (all_some f l) as [ys'|] eqn:El; [|discriminate]. injection E as <-.
    destruct (IH _ eq_refl) as [A1 A2]. split.
    + intros z [<-|Hz]; [exists y; split; [exact Ef|left; reflexivity]|]. destruct (A1 z Hz) as [v [Q1 Q2]]. exists v. split; [exact Q1|right; exact Q2].
    + intros z [<-|Hz]; [exists x; split; [left; reflexivity|exact Ef]|]. destruct (A2 z Hz) as [v [Q1 Q2]]. exists v. split; [right; exact Q1|exact Q2].
Qed.
Lemma all_some_map {A B} (f : A -> option B) l ys : all_some f l = Some ys <-> map f l = map Some ys.
Proof.
  revert ys. induction l as [|x l IH]; intros ys; simpl.
  - destruct ys; simpl; split; congruence.
  - destruct ys as [|y ys]; simpl.
    + destruct (f x); [destruct (all_some f l)|]; split; discriminate.
    + destruct (f x) as [z|]; [|split; discriminate]. destruct (all_some f l) as [zs|].
      * split; [intros E; injection E as <- <-; f_equal; apply IH; reflexivity|].
        intros E. injection E as <- E. apply IH in E. injection E as <-. reflexivity.
      * split; [discriminate|]. intros E. injection E as _ E. apply IH in E. discriminate.
Qed.

Lemma build_iff pf sep names mono q : build_monotonic_constraints pf sep names mono = Some q ->
  exists cols, parsed sep names cols /\ (forall r, iq_b q r = 0) /\ (0 < iq_m q)%nat /\
  (forall fd, In fd mono -> exists d, parse_direction (snd fd) = Some d /\ exists k i x, in_group cols (fst fd) k i x) /\
  forall w t, (forall r, (r < iq_m q)%nat -> rsum (List.length names) (fun j => iq_A q r j * w j) <= t) <->
    (forall f s d, In (f, s) mono -> parse_direction s = Some d -> nearly_monotone t pf cols f d w).
Proof.
  intros E. unfold build_monotonic_constraints in E. destruct (all_some _ mono) as [rss|] eqn:Ea; [|discriminate].
  destruct (concat rss) as [|r0 rows] eqn:Ec; [discriminate|]. set (RS := r0 :: rows) in *.
  assert (q = mkIneq (List.length RS) (fun r j => nth r RS zero_row j) (fun _ => 0)) by congruence. subst q. clear E.
  destruct (all_some_In _ _ _ Ea) as [A1 A2].
  assert (exists cols, parsed sep names cols) as [cols P].
  { destruct mono as [|fd mono]; [simpl in Ea; injection Ea as <-; discriminate|].
    destruct (A1 fd (or_introl eq_refl)) as [y [Q _]]. unfold factor_rows in Q. destruct (parse_direction (snd fd)); [|discriminate].
    destruct (group_columns_by_factor sep (fst fd) names) eqn:Eg; [|discriminate]. eapply group_loop_parsed; exact Eg. }
  exists cols. split; [exact P|]. split; [reflexivity|]. split; [simpl; lia|].
  assert (Hl : List.length names = List.length cols) by (pose proof P as P0; apply (f_equal (@List.length _)) in P0; rewrite !map_length in P0; exact P0).
  split.
  { intros fd Hfd. destruct (A1 fd Hfd) as [rw [Q _]]. destruct (factor_rows_iff pf sep names cols fd rw P Q) as [d [Q1 [_ [Q2 _]]]].
    exists d. split; [exact Q1|exact Q2]. }
  intros w t. rewrite Hl.
  assert (X : (forall r, (r < List.length RS)%nat ->
      rsum (List.length cols) (fun j => nth r RS zero_row j * w j) <= t) <->
      (forall r, In r RS -> rsum (List.length cols) (fun j => r j * w j) <= t)).
  { split.
    - intros H r Hr. destruct (In_nth RS r zero_row Hr) as [i [Hi Ei]]. rewrite <- Ei. apply H. exact Hi.
    - intros H r Hr. apply (H (nth r RS zero_row)). apply nth_In. exact Hr. }
  cbn [iq_A iq_m]. rewrite X, <- Ec. split.
  - intros H f s d Hfs Hd. destruct (A1 _ Hfs) as [rw [Q1 Q2]].
    destruct (factor_rows_iff pf sep names cols _ _ P Q1) as [d' [Q3 [_ [_ Q4]]]]. simpl in *. rewrite Hd in Q3. injection Q3 as <-.
    apply Q4. intros r Hr. apply H. apply in_concat. exists rw. auto.
  - intros H r Hr. apply in_concat in Hr. destruct Hr as [rw [Q1 Q2]]. destruct (A2 _ Q1) as [[f s] [Q3 Q4]].
    destruct (factor_rows_iff pf sep names cols _ _ P Q4) as [d [Q5 [_ [_ Q6]]]]. simpl in *. apply (Q6 w t); [|exact Q2]. eapply H; eauto.
Qed.

(** neighbours with no slack = all pairs *)
Lemma sorted_chain pf (P : member -> member -> Prop) l : StronglySorted (bf pf) l ->
  (forall a b c, P a b -> P b c -> P a c) -> (forall a b, consec l a b -> P a b) ->
  forall a b, In a l -> In b l -> bf pf a b -> P a b.
Proof.
  intros Hs Ht. induction l as [|x l IH]; intros Hc a b Ha Hb Hab; [destruct Ha|].
  inversion Hs as [|? ? Hr Hx]; subst. rewrite List.Forall_forall in Hx.
  assert (Hc' : forall a b, consec l a b -> P a b).
  { intros u v [l1 [l2 E]]. apply Hc. exists (x :: l1), l2. rewrite E. reflexivity. }
  destruct Hb as [<-|Hb].
  - exfalso. destruct Ha as [<-|Ha]; [exact (bf_irrefl pf _ Hab)|]. apply (bf_irrefl pf x). eapply bf_trans; [apply Hx; exact Ha|exact Hab].
  - destruct Ha as [<-|Ha]; [|apply IH; auto].
    destruct l as [|y l]; [destruct Hb|]. assert (P x y) by (apply Hc; exists [], l; reflexivity).
    destruct Hb as [<-|Hb]; [assumption|]. apply (Ht _ y); [assumption|]. apply IH; auto; [left; reflexivity|right; exact Hb|].
    inversion Hr as [|? ? _ Hy]; subst. rewrite List.Forall_forall in Hy. apply Hy; exact Hb.
Qed.
Lemma dir_le_slack0 d a b : dir_le_slack 0 d a b <-> dir_le d a b.
Proof. destruct d; simpl; split; lra. Qed.
Lemma dir_le_trans d a b c : dir_le d a b -> dir_le d b c -> dir_le d a c.
Proof. destruct d; simpl; lra. Qed.

Lemma nearly_zero pf cols f d w sep names g : parsed sep names cols -> group_columns_by_factor sep f names = Some g ->
  (nearly_monotone 0 pf cols f d w <-> monotone_coefs pf cols f d w).
Proof.
  intros P Eg. destruct (ginv_groups _ _ _ (group_inv _ _ _ _ _ P Eg)) as [G A]. split.
  - intros [H1 H2]. split.
    + intros o i x j y Hi Hj Hb. destruct (A o i x Hi) as [ms Hms]. pose proof (G _ _ Hms) as Gm.
      destruct (group_sorted pf _ _ _ _ Gm) as [S M].
      apply (sorted_chain pf (fun a b => dir_le d (w (fst a)) (w (fst b))) _ S) with (a := (i, x)) (b := (j, y)).
      * intros a b c. apply dir_le_trans.
      * intros [a xa] [b xb] C. simpl. apply dir_le_slack0. apply (H1 o). apply (neighbours_consec pf _ _ _ _ _ _ Gm). exists xa, xb. exact C.
      * apply M; exact Hi.
      * apply M; exact Hj.
      * exact Hb.
    + intros o i x Hi Ho. apply dir_le_slack0. eapply H2; eauto.
  - intros [H1 H2]. split.
    + intros o i j [x [y [Hi [Hj [Hb _]]]]]. apply dir_le_slack0. eapply H1; eauto.
    + intros o i x Hi Ho. apply dir_le_slack0. eapply H2; eauto.
Qed.
