(** Lemmas for C92. *)
From Coq Require Import List String Bool PeanoNat Lia. Import ListNotations.
From Coq Require Import Reals.
From Verif Require Import M_Float M_Matrix S_Matrix.

Section Ind.
Variable P : mat -> Prop.
Hypothesis HR : forall a, P (Raw a).
Hypothesis HD : forall a nm tm, P (Dense a nm tm).
Hypothesis HS : forall a nm tm, P (Sparse a nm tm).
Hypothesis HCt : forall n p c nm tm, P (Categ n p c nm tm).
Hypothesis HSp : forall bs idx, List.Forall P bs -> P (Split bs idx).
Hypothesis HSt : forall m sh mu, P m -> P (Stdz m sh mu).
Fixpoint mat_ind' (m : mat) : P m :=
  match m with
  | Raw a => HR a
  | Dense a nm tm => HD a nm tm
  | Sparse a nm tm => HS a nm tm
  | Categ n p c nm tm => HCt n p c nm tm
  | Split bs idx => HSp bs idx ((fix go (bs : list mat) : List.Forall P bs :=
       match bs with [] => List.Forall_nil P | b :: bs => List.Forall_cons b (mat_ind' b) (go bs) end) bs)
  | Stdz m sh mu => HSt m sh mu (mat_ind' m)
  end.
End Ind.

Definition sub (k : kwargs) : kwargs := mkKw (kw_float k) (kw_finite k) 0.
Fixpoint check_all (k : kwargs) (bs : list mat) : option (list mat) :=
  match bs with
  | [] => Some []
  | b :: bs => match check_mat k b, check_all k bs with Some b', Some bs' => Some (b' :: bs') | _, _ => None end
  end.
Lemma check_split k bs idx : check_mat k (Split bs idx) = option_map (fun bs => Split bs idx) (check_all (sub k) bs).
Proof.
  cbn [check_mat]. fold (sub k).
  assert (G : forall bs acc, (fix go (bs : list mat) (acc : list mat) : option mat :=
         match bs with
         | [] => Some (Split (rev acc) idx)
         | b :: bs => match check_mat (sub k) b with Some b' => go bs (b' :: acc) | None => None end
         end) bs acc = option_map (fun bs => Split (rev acc ++ bs)%list idx) (check_all (sub k) bs)).
  { clear bs. induction bs as [|b bs IH]; intros acc; cbn [check_all option_map].
    - rewrite app_nil_r. reflexivity.
    - destruct (check_mat (sub k) b) as [b'|]; [|reflexivity]. rewrite IH. destruct (check_all (sub k) bs); [|reflexivity].
      cbn [option_map rev]. rewrite <- app_assoc. reflexivity. }
  apply (G bs []).
Qed.
Lemma all_fin_true a : all_fin a = true <-> finite_arr a.
Proof.
  unfold all_fin, finite_arr. rewrite forallb_forall. split.
  - intros H i j Hi Hj. specialize (H i ltac:(apply in_seq; lia)). rewrite forallb_forall in H. specialize (H j ltac:(apply in_seq; lia)).
    destruct (a_val a i j); try discriminate. eexists. reflexivity.
  - intros H i Hi. apply in_seq in Hi. apply forallb_forall. intros j Hj. apply in_seq in Hj. destruct (H i j ltac:(lia) ltac:(lia)) as [x ->]. reflexivity.
Qed.
Lemma check_array_ok k a : check_array k a <> None <-> (1 <= a_n a)%nat /\ (kw_minf k <= a_p a)%nat /\ (kw_finite k = true -> finite_arr a).
Proof.
  unfold check_array. destruct (_ && _)%bool eqn:E.
  - split; [|discriminate]. intros _. apply andb_prop in E. destruct E as [E F]. apply andb_prop in E. destruct E as [E1 E2].
    apply Nat.leb_le in E1, E2. split; [exact E1|]. split; [exact E2|]. intros K. rewrite K in F. apply all_fin_true. exact F.
  - split; [congruence|]. intros [A [B C]]. exfalso. apply Nat.leb_le in A, B. rewrite A, B in E. cbn in E. apply orb_false_iff in E.
    destruct E as [E1 E2]. apply negb_false_iff in E1. apply C, all_fin_true in E1. congruence.
Qed.
Lemma check_array_val k a a' : check_array k a = Some a' ->
  a' = mkArr (a_n a) (a_p a) (a_val a) (if kw_float k then match a_dt a with I64 => F64 | d => d end else a_dt a).
Proof. unfold check_array. destruct (_ && _)%bool; [|discriminate]. intros [= <-]. reflexivity. Qed.

Lemma check_content k m : forall m', check_mat k m = Some m' -> same_content m m'.
Proof.
  revert k. induction m as [a|a nm tm|a nm tm|n p c nm tm|bs idx IH|m sh mu IH] using mat_ind'; intros k m' E.
  - cbn in E. destruct (check_array k a) as [a'|] eqn:EA; [|discriminate]. injection E as <-. apply check_array_val in EA. subst a'. repeat split.
  - cbn in E. destruct (check_array k a) as [a'|] eqn:EA; [|discriminate]. injection E as <-. apply check_array_val in EA. subst a'. repeat split.
  - cbn in E. destruct (check_array k a) as [a'|] eqn:EA; [|discriminate]. injection E as <-. apply check_array_val in EA. subst a'. repeat split.
  - cbn in E. injection E as <-. repeat split.
  - rewrite check_split in E. destruct (check_all (sub k) bs) as [bs'|] eqn:EB; [|discriminate]. injection E as <-.
    assert (F : List.Forall2 same_content bs bs').
    { revert bs' EB. clear idx. induction bs as [|b bs IHb]; intros bs' EB; cbn in EB; [injection EB as <-; constructor|].
      inversion_clear IH. destruct (check_mat (sub k) b) as [b'|] eqn:Eb; [|discriminate]. destruct (check_all (sub k) bs) as [bs''|]; [|discriminate].
      injection EB as <-. constructor; [eapply H; eauto|]. apply IHb; auto. }
    clear IH EB. split; [destruct F as [|b b' l l' [E _] _]; [reflexivity|exact E]|]. split; [reflexivity|]. split.
    + intros i j. cbn [mentry]. revert idx. induction F as [|b b' l l' Hb _ IHl]; intros idx; [reflexivity|].
      destruct idx as [|ix idx]; [reflexivity|]. destruct (pos j ix) as [q|]; [apply Hb|apply IHl].
    + intros j. cbn [mname]. revert idx. induction F as [|b b' l l' Hb _ IHl]; intros idx; [reflexivity|].
      destruct idx as [|ix idx]; [reflexivity|]. destruct (pos j ix) as [q|]; [apply Hb|apply IHl].
  - cbn in E. destruct (check_mat k m); discriminate.
Qed.

Lemma check_leaf k (ib : bool * mat) : kw_minf k = (if fst ib then 0%nat else 1%nat) -> (forall bs idx, snd ib <> Split bs idx) ->
  (check_mat k (snd ib) <> None <-> block_ok (kw_finite k) 1 ib).
Proof.
  destruct ib as [ins m]. cbn [fst snd]. intros Hk NS.
  assert (A : forall a (f : arr -> mat), (forall m0 sh mu, m <> Stdz m0 sh mu) -> block_arr m = Some a ->
     (option_map f (check_array k a) <> None <-> block_ok (kw_finite k) 1 (ins, m))).
  { intros a f NZ BA. transitivity (check_array k a <> None); [destruct (check_array k a); cbn; split; congruence|]. rewrite check_array_ok, Hk.
    unfold block_ok. cbn [fst snd]. split.
    - intros (X & Y & Z). split; [exact NZ|]. intros a0 E. rewrite BA in E. injection E as <-. split; [exact X|]. split; [|exact Z].
      intros ->. exact Y.
    - intros [_ H]. destruct (H a BA) as (X & Y & Z). split; [exact X|]. split; [|exact Z]. destruct ins; [lia|apply Y; reflexivity]. }
  destruct m as [a|a nm tm|a nm tm|n p c nm tm|bs idx|m sh mu]; cbn [check_mat].
  - apply A; [discriminate|reflexivity].
  - apply A; [discriminate|reflexivity].
  - apply A; [discriminate|reflexivity].
  - split; [|discriminate]. intros _. split; [discriminate|]. cbn. discriminate.
  - exfalso. eapply NS. reflexivity.
  - split; [destruct (check_mat k m); cbn; congruence|]. intros [H _]. exfalso. eapply H. reflexivity.
Qed.

Lemma check_accepts_gen m : forall k (ins : bool), kw_minf k = (if ins then 0%nat else 1%nat) ->
  (check_mat k m <> None <-> forall ib : bool * mat, In ib (leaves ins m) -> block_ok (kw_finite k) 1 ib).
Proof.
  induction m as [a|a nm tm|a nm tm|n p c nm tm|bs idx IH|m sh mu IH] using mat_ind'; intros k ins Hk.
  all: try match goal with |- check_mat ?kk ?m <> None <-> _ =>
    transitivity (block_ok (kw_finite kk) 1 (ins, m)); [apply (check_leaf kk (ins, m)); [exact Hk|cbn; discriminate]|];
    cbn [leaves]; split; [intros H ib [<-|[]]; exact H|intros H; apply H; left; reflexivity] end.
  rewrite check_split. cbn [leaves].
  transitivity (check_all (sub k) bs <> None); [destruct (check_all (sub k) bs); cbn; split; congruence|].
  induction bs as [|b bs IHb]; [split; [intros _ ib []|discriminate]|]. inversion_clear IH. specialize (IHb H0).
  specialize (H (sub k) true eq_refl). change (kw_finite (sub k)) with (kw_finite k) in H. cbn [check_all flat_map].
  split.
  - intros E ib Hib. apply in_app_or in Hib. destruct (check_mat (sub k) b) as [b'|]; [|congruence].
    destruct (check_all (sub k) bs) as [bs'|]; [|congruence].
    destruct Hib as [Hib|Hib]; [apply H; [discriminate|exact Hib]|apply IHb; [discriminate|exact Hib]].
  - intros Q. assert (Q1 : check_mat (sub k) b <> None) by (apply H; intros; apply Q, in_or_app; left; assumption).
    assert (Q2 : check_all (sub k) bs <> None) by (apply IHb; intros; apply Q, in_or_app; right; assumption).
    destruct (check_mat (sub k) b), (check_all (sub k) bs); congruence.
Qed.

(** the result of a check: the same blocks with their dtype converted *)
Definition conv_arr (k : kwargs) (a : arr) : arr :=
  mkArr (a_n a) (a_p a) (a_val a) (if kw_float k then match a_dt a with I64 => F64 | d => d end else a_dt a).
Definition conv_block (k : kwargs) (ib : bool * mat) : bool * mat :=
  (fst ib, match snd ib with
   | Raw a => Raw (conv_arr k a) | Dense a nm tm => Dense (conv_arr k a) nm tm | Sparse a nm tm => Sparse (conv_arr k a) nm tm | m => m end).
Lemma check_leaves m : forall k ins m', check_mat k m = Some m' -> leaves ins m' = map (conv_block k) (leaves ins m).
Proof.
  induction m as [a|a nm tm|a nm tm|n p c nm tm|bs idx IH|m sh mu IH] using mat_ind'; intros k ins m' E.
  1-3: cbn in E; destruct (check_array k a) as [a'|] eqn:EA; [|discriminate]; injection E as <-; apply check_array_val in EA; subst a'; reflexivity.
  - cbn in E. injection E as <-. reflexivity.
  - rewrite check_split in E. destruct (check_all (sub k) bs) as [bs'|] eqn:EB; [|discriminate]. injection E as <-. cbn [leaves].
    revert bs' EB. induction bs as [|b bs IHb]; intros bs' EB; cbn in EB; [injection EB as <-; reflexivity|].
    inversion_clear IH. destruct (check_mat (sub k) b) as [b'|] eqn:Eb; [|discriminate]. destruct (check_all (sub k) bs) as [bs''|]; [|discriminate].
    injection EB as <-. cbn [flat_map]. rewrite map_app, (H (sub k) true b' Eb), (IHb H0 bs'' eq_refl). reflexivity.
  - cbn in E. destruct (check_mat k m); discriminate.
Qed.
