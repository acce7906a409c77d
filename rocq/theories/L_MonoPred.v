(** Lemmas for C85. *)
From Coq Require Import String Ascii Reals Lra Lia List Permutation Sorting.Sorted. Import ListNotations.
From Verif Require Import Base M_Formula S_Formula L_Formula L_KKT S_MonoPred.
Local Open Scope R_scope.

(** summation by parts along a sorted list *)
Lemma abel (c d : member -> R) t : 0 <= t -> forall l c0,
  (forall k, 0 <= lsumf d (skipn k l)) -> (forall a b, consec l a b -> c a <= c b + t) ->
  (forall m r, l = m :: r -> c0 <= c m + t) ->
  c0 * lsumf d l - t * rsum (List.length l) (fun k => lsumf d (skipn k l)) <= lsumf (fun m => c m * d m) l.
Proof.
  intros Ht. induction l as [|m r IH]; intros c0 Hd Hc H0.
  - rewrite !lsumf_nil. cbn. lra.
  - assert (Hd' : forall k, 0 <= lsumf d (skipn k r)) by (intros k; apply (Hd (S k))).
    assert (Hc' : forall a b, consec r a b -> c a <= c b + t).
    { intros a b [l1 [l2 E]]. apply Hc. exists (m :: l1), l2. rewrite E. reflexivity. }
    assert (H0' : forall m' r', r = m' :: r' -> c m <= c m' + t).
    { intros m' r' E. apply Hc. exists [], r'. rewrite E. reflexivity. }
    specialize (IH (c m) Hd' Hc' H0'). specialize (H0 m r eq_refl). pose proof (Hd 0%nat) as D0. cbn [skipn] in D0.
    cbn [List.length]. rewrite rsum_S_l. cbn [skipn]. rewrite !lsumf_cons in *. nra.
Qed.

Lemma nodup_sum (h : nat -> R) : forall L M, NoDup L -> NoDup M -> incl L M -> (forall j, In j M -> ~ In j L -> h j = 0) ->
  lsumf h M = lsumf h L.
Proof.
  induction L as [|a L IH]; intros M NL NM I Z.
  - rewrite lsumf_nil. apply lsumf_zero. intros j Hj. apply Z; [exact Hj|intros []].
  - inversion NL as [|? ? Na NL']; subst. destruct (in_split a M (I a (or_introl eq_refl))) as [M1 [M2 EM]]. subst M.
    assert (P : Permutation (M1 ++ a :: M2) (a :: M1 ++ M2)) by (apply Permutation_sym, Permutation_middle).
    rewrite (lsumf_perm _ h _ _ P), !lsumf_cons. f_equal.
    assert (ND : NoDup (a :: M1 ++ M2)) by (eapply Permutation_NoDup; eauto). inversion ND as [|? ? Nn ND']; subst.
    apply IH; [exact NL'|exact ND'| |].
    + intros j Hj. assert (Q : In j (a :: M1 ++ M2)) by (apply (Permutation_in _ P), I; right; exact Hj).
      destruct Q as [<-|Q]; [contradiction|exact Q].
    + intros j Hj Hn. apply Z; [apply (Permutation_in _ (Permutation_sym P)); right; exact Hj|].
      intros [<-|Q]; [contradiction|contradiction].
Qed.
Lemma nodup_app (A B : list nat) : NoDup A /\ NoDup B /\ (forall j, In j A -> ~ In j B) -> NoDup (A ++ B).
Proof.
  intros [NA [NB D]]. induction A as [|a A IH]; [exact NB|]. inversion NA as [|? ? Na NA']; subst. cbn. constructor.
  - intros Q. apply in_app_or in Q. destruct Q as [Q|Q]; [contradiction|]. exact (D a (or_introl eq_refl) Q).
  - apply IH; [exact NA'|]. intros j Hj. apply D. right. exact Hj.
Qed.
Lemma sorted_nodup pf l : StronglySorted (bf pf) l -> NoDup l.
Proof.
  induction l as [|a l IH]; intros H; [constructor|]. inversion H as [|? ? Hr Hx]; subst. rewrite List.Forall_forall in Hx.
  constructor; [|apply IH, Hr]. intros Q. exact (bf_irrefl pf a (Hx a Q)).
Qed.
Lemma concat_sum (h : nat -> R) (G : list (list factor * list member)) :
  lsumf h (concat (map (fun g => map fst (snd g)) G)) = lsumf (fun g => lsumf (fun m => h (fst m)) (snd g)) G.
Proof.
  induction G as [|g G IH]; [reflexivity|]. cbn [map concat]. rewrite lsumf_app, lsumf_cons, IH, lsumf_map. reflexivity.
Qed.
Lemma group_sum pf cols f G h : grouping pf cols f G ->
  (forall j, (j < List.length cols)%nat -> (forall o x, ~ in_group cols f o j x) -> h j = 0) ->
  rsum (List.length cols) h = lsumf (fun g => lsumf (fun m => h (fst m)) (snd g)) G.
Proof.
  intros [ND [GM GA]] Z. rewrite <- concat_sum, <- lsumf_seq.
  assert (IN : forall j, In j (concat (map (fun g => map fst (snd g)) G)) <-> exists o l x, In (o, l) G /\ In (j, x) l).
  { intros j. rewrite in_concat. split.
    - intros [y [Hy Hj]]. apply in_map_iff in Hy. destruct Hy as [[o l] [<- Hg]]. cbn in Hj. apply in_map_iff in Hj. destruct Hj as [[i x] [E Hx]]. cbn in E. subst i.
      exists o, l, x. auto.
    - intros [o [l [x [Hg Hx]]]]. exists (map fst l). split; [apply in_map_iff; exists (o, l); auto|]. apply in_map_iff. exists (j, x). auto. }
  apply nodup_sum.
  - clear Z IN GA. induction G as [|[o l] G IH]; [constructor|]. cbn [map concat snd] in *. inversion ND as [|? ? Nk ND']; subst.
    assert (IH' : NoDup (concat (map (fun g => map fst (snd g)) G))) by (apply IH; [exact ND'|intros; apply GM; right; assumption]).
    destruct (GM o l (or_introl eq_refl)) as [_ [Sl Ml]].
    assert (NL : NoDup (map fst l)).
    { pose proof (sorted_nodup pf l Sl) as N. assert (U : forall i x y, In (i, x) l -> In (i, y) l -> x = y).
      { intros i x y A B. apply Ml in A, B. destruct (in_group_unique _ _ _ _ _ _ _ A B) as [_ E]. exact E. }
      clear -N U. induction l as [|[i x] l IH]; [constructor|]. inversion N as [|? ? Nn N']; subst. cbn. constructor.
      - intros Q. apply in_map_iff in Q. destruct Q as [[i' y] [E Q]]. cbn in E. subst i'. assert (x = y) by (eapply U; [left; reflexivity|right; exact Q]). subst. contradiction.
      - apply IH; [exact N'|]. intros i' x' y' A B. eapply U; right; eauto. }
    apply nodup_app. split; [exact NL|]. split; [exact IH'|].
    intros j Hj Hc. apply in_map_iff in Hj. destruct Hj as [[i x] [E Hx]]. cbn in E. subst i. apply Ml in Hx.
    apply in_concat in Hc. destruct Hc as [y [Hy Hj]]. apply in_map_iff in Hy. destruct Hy as [[o' l'] [<- Hg]]. cbn in Hj.
    apply in_map_iff in Hj. destruct Hj as [[i x'] [E Hx']]. cbn in E. subst i.
    apply (GM o' l' (or_intror Hg)) in Hx'. destruct (in_group_unique _ _ _ _ _ _ _ Hx Hx') as [E _]. subst o'.
    apply Nk. apply in_map_iff. exists (o, l'). auto.
  - apply seq_NoDup.
  - intros j Hj. apply IN in Hj. destruct Hj as [o [l [x [Hg Hx]]]]. apply (GM o l Hg) in Hx. apply in_seq. pose proof (in_group_lt _ _ _ _ _ Hx). lia.
  - intros j Hj Hn. apply in_seq in Hj. apply Z; [lia|]. intros o x H. apply Hn, IN.
    pose proof (GA o j x H) as K. apply in_map_iff in K. destruct K as [[o' l] [E Hg]]. cbn in E. subst o'. exists o, l, x. split; [exact Hg|]. apply (GM o l Hg). exact H.
Qed.

Lemma col_app z l r : col_value z (l ++ r) = col_value z l * col_value z r.
Proof. unfold col_value. induction l as [|a l IH]; cbn [app fold_right]; [ring|]. rewrite IH. ring. Qed.
Lemma col_same f z z' c : same_but f z z' -> (forall x, In x c -> fst x <> f) -> col_value z c = col_value z' c.
Proof.
  intros H. unfold col_value. induction c as [|a c IH]; intros Hc; [reflexivity|]. cbn [fold_right]. rewrite IH by (intros; apply Hc; right; assumption).
  rewrite (H (fst a) (snd a)) by (apply Hc; left; reflexivity). reflexivity.
Qed.
Lemma col_split f z z' c o x : same_but f z z' -> has_factor f c o x ->
  col_value z c = z f x * col_value z o /\ col_value z' c = z' f x * col_value z o.
Proof.
  intros Hs [l [r [-> [-> N]]]]. assert (E : forall y, col_value y (l ++ (f, x) :: r) = y f x * col_value y (l ++ r)).
  { intros y. rewrite !col_app. change (col_value y ((f, x) :: r)) with (y f x * col_value y r). ring. }
  split; [apply E|]. rewrite E, (col_same f z z' (l ++ r) Hs N). reflexivity.
Qed.
