(** Lemmas for C75: a loop whose iteration i touches only entry i of every array. *)
From Verif Require Export S_Par.
From Coq Require Import FunctionalExtensionality.
Local Open Scope R_scope.

(** every access is at index i *)
Fixpoint local (i : nat) (b : body) : Prop :=
  match b with
  | Done => True
  | Load a j k => j = i /\ forall x, local i (k x)
  | Store a j v k => j = i /\ local i k
  | Accum r v k => local i k
  end.
(** entry i of all arrays, and the effect of a local body on it *)
Definition view (m : memory) (i : nat) : arr -> R := fun a => m a i.
Definition setv (v : arr -> R) (a : arr) (x : R) : arr -> R := fun b => if arr_eq_dec b a then x else v b.
Fixpoint run_row (b : body) (v : arr -> R) : (arr -> R) * (nat -> R) :=
  match b with
  | Done => (v, fun _ => 0)
  | Load a _ k => run_row (k (v a)) v
  | Store a _ x k => run_row k (setv v a x)
  | Accum r x k => let '(v', acc) := run_row k v in (v', fun s => (if Nat.eqb s r then x else 0) + acc s)
  end.
Fixpoint row_steps (b : body) (v : arr -> R) : nat :=
  match b with
  | Done => 0
  | Load a _ k => S (row_steps (k (v a)) v)
  | Store a _ x k => S (row_steps k (setv v a x))
  | Accum r x k => S (row_steps k v)
  end.

Lemma view_store_same m a i x : view (store m a i x) i = setv (view m i) a x.
Proof. apply functional_extensionality. intros b. unfold view, store, setv. destruct (arr_eq_dec b a); [rewrite Nat.eqb_refl|]; reflexivity. Qed.
Lemma view_store_other m a i x j : j <> i -> view (store m a i x) j = view m j.
Proof. intros H. apply functional_extensionality. intros b. unfold view, store. destruct (arr_eq_dec b a); [|reflexivity]. destruct (Nat.eqb_spec j i); [congruence|reflexivity]. Qed.

Lemma set_nth_length {A} (l : list A) k x : length (set_nth l k x) = length l.
Proof. revert k. induction l as [|y l IH]; intros [|k]; cbn; auto. Qed.
Lemma set_nth_same {A} (l : list A) k x y : nth_error l k = Some y -> nth_error (set_nth l k x) k = Some x.
Proof. revert k. induction l as [|z l IH]; intros [|k]; cbn; try discriminate; auto. Qed.
Lemma set_nth_other {A} (l : list A) k j x : j <> k -> nth_error (set_nth l k x) j = nth_error l j.
Proof. revert k j. induction l as [|z l IH]; intros [|k] [|j] H; cbn; try reflexivity; try congruence. apply IH. congruence. Qed.

Lemma concat_disjoint {A} (cs : list (list A)) j k c d x : NoDup (concat cs) -> j <> k ->
  nth_error cs j = Some c -> nth_error cs k = Some d -> In x c -> In x d -> False.
Proof.
  revert j k. induction cs as [|e cs IH]; intros j k ND HN Hj Hk Hc Hd; [destruct j; discriminate|].
  cbn in ND. assert (HD : forall y, In y e -> In y (concat cs) -> False).
  { clear -ND. induction e as [|z e IHe]; intros y Hy Hy2; [destruct Hy|]. cbn in ND. inversion ND as [|? ? Hz Hr]; subst. destruct Hy as [<-|Hy].
    - apply Hz, in_or_app. auto.
    - exact (IHe Hr y Hy Hy2). }
  assert (HC : forall l n (y : A), nth_error cs n = Some l -> In y l -> In y (concat cs)).
  { intros l n y E Hy. apply in_concat. exists l. split; [eapply nth_error_In; eauto|exact Hy]. }
  destruct j as [|j], k as [|k]; cbn in Hj, Hk.
  - congruence.
  - injection Hj as ->. eapply HD; eauto.
  - injection Hk as ->. eapply HD; eauto.
  - eapply (IH j k); eauto. clear -ND. induction e; cbn in ND; [exact ND|]. inversion ND; auto.
Qed.

Section L.
Variable loop : nat -> body.
Variable m0 : memory.
Hypothesis Hloc : forall i, local i (loop i).

Definition fin (i : nat) : arr -> R := fst (run_row (loop i) (view m0 i)).
Definition del (i : nat) : nat -> R := snd (run_row (loop i) (view m0 i)).
Definition cost (i : nat) : nat := S (row_steps (loop i) (view m0 i)).

(** thread t works on the iterations c: those behind it are finished, those ahead untouched *)
Definition tinv (m : memory) (c : list nat) (t : thread) (left : nat) : Prop :=
  exists dn cu, c = dn ++ cu ++ th_todo t /\
  (forall j, In j dn -> view m j = fin j) /\ (forall j, In j (th_todo t) -> view m j = view m0 j) /\
  (cu = [] /\ th_cur t = Done /\ (forall r, th_acc t r + lsumf (fun j => del j r) (th_todo t) = lsumf (fun j => del j r) c) /\
     left = list_sum (map cost (th_todo t)) \/
   exists i, cu = [i] /\ local i (th_cur t) /\ fst (run_row (th_cur t) (view m i)) = fin i /\
     (forall r, th_acc t r + (snd (run_row (th_cur t) (view m i)) r + lsumf (fun j => del j r) (th_todo t)) = lsumf (fun j => del j r) c) /\
     left = (row_steps (th_cur t) (view m i) + list_sum (map cost (th_todo t)))%nat).

Lemma tinv_frame m m' c t n : (forall j, In j c -> view m' j = view m j) -> tinv m c t n -> tinv m' c t n.
Proof.
  intros H (dn & cu & -> & H1 & H2 & H3). exists dn, cu. split; [reflexivity|].
  split; [intros j Hj; rewrite H; [auto|apply in_or_app; auto]|].
  split; [intros j Hj; rewrite H; [auto|apply in_or_app; right; apply in_or_app; auto]|].
  destruct H3 as [H3|(i & -> & Q)]; [left; exact H3|]. right. exists i. split; [reflexivity|].
  rewrite H; [exact Q|]. apply in_or_app; right; left; reflexivity.
Qed.

(** a step of the thread keeps its invariant, uses up one unit, and changes only entries of its chunk *)
Lemma tinv_step m c t n m' t' : NoDup c -> tinv m c t n -> thread_step loop m t = Some (m', t') ->
  exists n', n = S n' /\ tinv m' c t' n' /\ (forall j, ~ In j c -> view m' j = view m j).
Proof.
  intros ND (dn & cu & Ec & H1 & H2 & H3) HS. unfold thread_step in HS.
  destruct H3 as [(-> & Hd & Ha & Hn)|(i & -> & Hl & Hf & Ha & Hn)].
  - rewrite Hd in HS. destruct (th_todo t) as [|i r] eqn:Et; [discriminate|]. injection HS as <- <-.
    exists (row_steps (loop i) (view m0 i) + list_sum (map cost r))%nat. split; [rewrite Hn; reflexivity|]. split; [|auto].
    exists dn, [i]. cbn [th_todo th_cur th_acc]. split; [exact Ec|]. split; [exact H1|]. split; [intros j Hj; apply H2; right; exact Hj|].
    right. exists i. split; [reflexivity|]. split; [apply Hloc|]. rewrite (H2 i) by (left; reflexivity). split; [reflexivity|].
    split; [|reflexivity]. intros s. specialize (Ha s). rewrite lsumf_cons in Ha. exact Ha.
  - assert (Hi : In i c) by (rewrite Ec; apply in_or_app; right; left; reflexivity).
    assert (NI : ~ In i dn /\ ~ In i (th_todo t)).
    { rewrite Ec in ND. cbn [app] in ND. apply NoDup_remove_2 in ND. split; intros X; apply ND, in_or_app; auto. }
    destruct (th_cur t) as [|a j k|a j x k|r x k] eqn:Ecur; cbn [local] in Hl.
    + destruct (th_todo t) as [|i2 r] eqn:Et; [discriminate|]. injection HS as <- <-. cbn [run_row row_steps fst snd] in *.
      exists (row_steps (loop i2) (view m0 i2) + list_sum (map cost r))%nat. split; [rewrite Hn; reflexivity|]. split; [|auto].
      exists (dn ++ [i]), [i2]. cbn [th_todo th_cur th_acc]. split; [rewrite Ec, <- app_assoc; reflexivity|].
      split; [intros j Hj; apply in_app_or in Hj; destruct Hj as [Hj|[<-|[]]]; auto|]. split; [intros j Hj; apply H2; right; exact Hj|].
      right. exists i2. split; [reflexivity|]. split; [apply Hloc|]. rewrite (H2 i2) by (left; reflexivity). split; [reflexivity|].
      split; [|reflexivity]. intros s. specialize (Ha s). rewrite lsumf_cons in Ha. unfold del in Ha at 1. lra.
    + destruct Hl as [-> Hl]. injection HS as <- <-. cbn [run_row row_steps] in *.
      eexists. split; [rewrite Hn; reflexivity|]. split; [|auto].
      exists dn, [i]. cbn [th_todo th_cur th_acc]. split; [exact Ec|]. split; [exact H1|]. split; [exact H2|].
      right. exists i. change (m a i) with (view m i a). repeat split; auto.
    + destruct Hl as [-> Hl]. injection HS as <- <-. cbn [run_row row_steps] in *.
      eexists. split; [rewrite Hn; reflexivity|]. split.
      2:{ intros j Hj. apply view_store_other. intros ->. contradiction. }
      exists dn, [i]. cbn [th_todo th_cur th_acc]. split; [exact Ec|].
      split; [intros j Hj; rewrite view_store_other by (intros ->; tauto); auto|].
      split; [intros j Hj; rewrite view_store_other by (intros ->; tauto); auto|].
      right. exists i. rewrite view_store_same. repeat split; auto.
    + injection HS as <- <-. cbn [run_row row_steps] in *. destruct (run_row k (view m i)) as [v' acc'] eqn:Er. cbn [fst snd] in *.
      eexists. split; [rewrite Hn; reflexivity|]. split; [|auto].
      exists dn, [i]. cbn [th_todo th_cur th_acc]. split; [exact Ec|]. split; [exact H1|]. split; [exact H2|].
      right. exists i. split; [reflexivity|]. split; [exact Hl|]. rewrite Er. cbn [fst snd]. split; [exact Hf|]. split; [|reflexivity].
      intros s. specialize (Ha s). unfold add_acc. destruct (Nat.eqb s r); lra.
Qed.

Lemma tinv_over m c t n : tinv m c t n -> over t -> n = 0%nat /\ (forall j, In j c -> view m j = fin j) /\ (forall r, th_acc t r = lsumf (fun j => del j r) c).
Proof.
  intros (dn & cu & Ec & H1 & H2 & H3) [Hc Ht]. rewrite Hc, Ht in *. destruct H3 as [(-> & _ & Ha & Hn)|(i & -> & _ & Hf & Ha & Hn)].
  - split; [exact Hn|]. split.
    + intros j Hj. rewrite Ec in Hj. cbn in Hj. rewrite app_nil_r in Hj. auto.
    + intros r. specialize (Ha r). rewrite lsumf_nil in Ha. lra.
  - cbn in Hf, Hn. cbn [run_row snd] in Ha. split; [exact Hn|]. split.
    + intros j Hj. rewrite Ec in Hj. apply in_app_or in Hj. destruct Hj as [Hj|[<-|[]]]; auto.
    + intros r. specialize (Ha r). rewrite lsumf_nil in Ha. lra.
Qed.

Variable chunks : list (list nat).
Hypothesis ND : NoDup (concat chunks).

Lemma chunk_NoDup k c : nth_error chunks k = Some c -> NoDup c.
Proof.
  intros E. apply nth_error_split in E. destruct E as (l1 & l2 & E & _). rewrite E in ND. rewrite concat_app in ND. cbn in ND.
  assert (X : forall A (l l' : list A), NoDup (l ++ l') -> NoDup l /\ NoDup l').
  { induction l as [|x l IH]; intros l' H; [split; [constructor|exact H]|]. cbn in H. inversion H as [|? ? Hx Hl]; subst. destruct (IH l' Hl). split; [|assumption].
    constructor; [|assumption]. intros Y. apply Hx, in_or_app. auto. }
  apply X in ND. destruct ND as [_ Y]. apply X in Y. tauto.
Qed.

Definition sinv (s : memory * list thread) (ns : list nat) : Prop :=
  length (snd s) = length chunks /\ length ns = length chunks /\
  (forall k c t n, nth_error chunks k = Some c -> nth_error (snd s) k = Some t -> nth_error ns k = Some n -> tinv (fst s) c t n) /\
  (forall j, ~ In j (concat chunks) -> view (fst s) j = view m0 j).

Lemma set_nth_sum l k n' : nth_error l k = Some (S n') -> list_sum l = S (list_sum (set_nth l k n')).
Proof.
  revert k. induction l as [|x l IH]; intros [|k]; cbn [nth_error set_nth]; try discriminate; intros H.
  - injection H as ->. reflexivity.
  - change (list_sum (x :: l)) with (x + list_sum l)%nat. rewrite (IH _ H).
    change (list_sum (x :: set_nth l k n')) with (x + list_sum (set_nth l k n'))%nat. lia.
Qed.

Lemma nth_error_lookup {A} (l : list A) k n : length l = n -> (k < n)%nat -> exists x, nth_error l k = Some x.
Proof. intros <- H. destruct (nth_error l k) eqn:E; [eauto|]. apply nth_error_None in E. lia. Qed.

Lemma sinv_step s ns k : sinv s ns ->
  (par_step loop s k = s /\ (forall t, nth_error (snd s) k = Some t -> over t)) \/
  exists ns', sinv (par_step loop s k) ns' /\ list_sum ns = S (list_sum ns').
Proof.
  intros (L1 & L2 & HI & HO). unfold par_step. destruct (nth_error (snd s) k) as [t|] eqn:Ek; [|left; split; [reflexivity|discriminate]].
  destruct (thread_step loop (fst s) t) as [[m' t']|] eqn:ES.
  2:{ left. split; [reflexivity|]. intros t2 E2. injection E2 as <-. unfold thread_step in ES. unfold over. destruct (th_cur t); try discriminate. destruct (th_todo t); [auto|discriminate]. }
  right. assert (Hk : (k < length chunks)%nat) by (rewrite <- L1; apply nth_error_Some; congruence).
  destruct (nth_error_lookup chunks k _ eq_refl Hk) as [c Ec]. destruct (nth_error_lookup ns k _ L2 Hk) as [n En].
  destruct (tinv_step _ _ _ _ _ _ (chunk_NoDup k c Ec) (HI k c t n Ec Ek En) ES) as (n' & -> & HT & HF).
  exists (set_nth ns k n'). split; [|apply set_nth_sum, En].
  split; [cbn [snd]; rewrite set_nth_length; exact L1|]. split; [rewrite set_nth_length; exact L2|]. cbn [fst snd]. split.
  - intros j d u p Ed Eu Ep. destruct (Nat.eq_dec j k) as [->|Hjk].
    + rewrite (set_nth_same _ _ _ _ Ek) in Eu. rewrite (set_nth_same _ _ _ _ En) in Ep. injection Eu as <-. injection Ep as <-. rewrite Ec in Ed. injection Ed as <-. exact HT.
    + rewrite set_nth_other in Eu by exact Hjk. rewrite set_nth_other in Ep by exact Hjk. apply (tinv_frame (fst s)); [|eapply HI; eauto].
      intros x Hx. apply HF. intros Hx2. exact (concat_disjoint chunks j k d c x ND Hjk Ed Ec Hx Hx2).
  - intros j Hj. rewrite HF; [auto|]. intros Hx. apply Hj, in_concat. exists c. split; [eapply nth_error_In; eauto|exact Hx].
Qed.

Lemma sinv_init : sinv (m0, threads_of chunks) (map (fun c => list_sum (map cost c)) chunks).
Proof.
  unfold threads_of. split; [cbn; apply map_length|]. split; [apply map_length|]. cbn [fst snd]. split; [|auto].
  intros k c t n Ec Et En. rewrite nth_error_map, Ec in Et, En. cbn in Et, En. injection Et as <-. injection En as <-.
  exists [], []. cbn [th_todo th_cur th_acc app]. split; [reflexivity|]. split; [intros j []|]. split; [auto|]. left. repeat split; auto. intros. lra.
Qed.

Lemma sinv_run sched s ns : sinv s ns -> exists ns', sinv (par_run loop sched s) ns' /\ (list_sum ns' <= list_sum ns)%nat.
Proof.
  revert s ns. induction sched as [|k r IH]; intros s ns H; cbn; [exists ns; auto|].
  destruct (sinv_step s ns k H) as [[E _]|(ns' & H' & E)].
  - rewrite E. apply (IH s ns H).
  - destruct (IH _ _ H') as (ns2 & A & B). exists ns2. split; [exact A|lia].
Qed.

(** the result of any complete run *)
Lemma par_final sched m ts : par_run loop sched (m0, threads_of chunks) = (m, ts) -> all_over ts ->
  (forall j, In j (concat chunks) -> view m j = fin j) /\ (forall j, ~ In j (concat chunks) -> view m j = view m0 j) /\
  (forall r, reduced ts r = lsumf (fun j => del j r) (concat chunks)).
Proof.
  intros E HD. destruct (sinv_run sched _ _ sinv_init) as (ns & HS & _). rewrite E in HS. destruct HS as (L1 & L2 & HI & HO). cbn [fst snd] in *.
  assert (HA : forall k c t, nth_error chunks k = Some c -> nth_error ts k = Some t -> (forall j, In j c -> view m j = fin j) /\ (forall r, th_acc t r = lsumf (fun j => del j r) c)).
  { intros k c t Ec Et. destruct (nth_error_lookup ns k _ L2) as [n En]; [apply nth_error_Some; congruence|].
    eapply tinv_over; [eapply HI; eauto|]. unfold all_over in HD. rewrite List.Forall_forall in HD. apply HD. eapply nth_error_In; eauto. }
  split; [|split; [exact HO|]].
  - intros j Hj. apply in_concat in Hj. destruct Hj as (c & Hc & Hj). apply In_nth_error in Hc. destruct Hc as [k Ec].
    destruct (nth_error_lookup ts k _ L1) as [t Et]; [apply nth_error_Some; congruence|]. destruct (HA k c t Ec Et) as [X _]. auto.
  - intros r. unfold reduced. rewrite Rplus_0_l. clear -HA L1. revert chunks HA L1. induction ts as [|t ts IH]; intros [|c cs] HA L1; try discriminate; [reflexivity|].
    cbn [concat]. rewrite lsumf_cons, lsumf_app. destruct (HA 0%nat c t eq_refl eq_refl) as [_ X]. rewrite X. f_equal. apply IH; [|cbn in L1; lia].
    intros k. exact (HA (S k)).
Qed.

(** no races *)
Lemma par_no_race sched : ~ race (snd (par_run loop sched (m0, threads_of chunks))).
Proof.
  destruct (sinv_run sched _ _ sinv_init) as (ns & (L1 & L2 & HI & HO) & _). destruct (par_run loop sched _) as [m ts]. cbn [fst snd] in *.
  intros (j & k & t & u & a & i & w1 & w2 & Hjk & Et & Eu & A1 & A2 & _).
  assert (HA : forall q v w, nth_error ts q = Some v -> next_access v = Some (a, i, w) -> exists c, nth_error chunks q = Some c /\ In i c).
  { intros q v w Ev A. assert (Hq : (q < length chunks)%nat) by (rewrite <- L1; apply nth_error_Some; congruence).
    destruct (nth_error_lookup chunks q _ eq_refl Hq) as [c Ec]. destruct (nth_error_lookup ns q _ L2 Hq) as [n En].
    exists c. split; [exact Ec|]. destruct (HI q c v n Ec Ev En) as (dn & cu & -> & _ & _ & H3). unfold next_access in A.
    destruct H3 as [(_ & Hd & _)|(i2 & -> & Hl & _)]; [rewrite Hd in A; discriminate|].
    assert (i2 = i); [|subst; apply in_or_app; right; left; reflexivity].
    destruct (th_cur v); cbn in Hl; try discriminate; destruct Hl as [-> _]; congruence. }
  destruct (HA j t w1 Et A1) as (c & Ec & Hc). destruct (HA k u w2 Eu A2) as (d & Ed & Hd).
  exact (concat_disjoint chunks j k c d i ND Hjk Ec Ed Hc Hd).
Qed.

(** a run of effective steps ends after exactly the total number of accesses *)
Lemma effective_length sched s ns : sinv s ns -> effective loop sched s ->
  exists ns', sinv (par_run loop sched s) ns' /\ (list_sum ns = length sched + list_sum ns')%nat.
Proof.
  revert s ns. induction sched as [|k r IH]; intros s ns H HE; cbn; [exists ns; auto|].
  destruct HE as [(t & Et & Ht) HE]. destruct (sinv_step s ns k H) as [[_ E]|(ns' & H' & E)].
  - exfalso. apply Ht, E, Et.
  - destruct (IH _ _ H' HE) as (ns2 & A & B). exists ns2. split; [exact A|lia].
Qed.
Lemma not_over_pos s ns : sinv s ns -> (0 < list_sum ns)%nat -> ~ all_over (snd s).
Proof.
  intros (L1 & L2 & HI & _) HP HD. assert (Z : forall n, In n ns -> n = 0%nat).
  { intros n Hn. apply In_nth_error in Hn. destruct Hn as [k En]. assert (Hk : (k < length chunks)%nat) by (rewrite <- L2; apply nth_error_Some; congruence).
    destruct (nth_error_lookup chunks k _ eq_refl Hk) as [c Ec]. destruct (nth_error_lookup (snd s) k _ L1 Hk) as [t Et].
    eapply tinv_over; [eapply HI; eauto|]. unfold all_over in HD. rewrite List.Forall_forall in HD. apply HD. eapply nth_error_In; eauto. }
  clear -Z HP. induction ns as [|n ns IH]; cbn in HP; [lia|]. rewrite (Z n) in HP by (left; reflexivity). apply IH; [exact HP|]. intros p Hp. apply Z. right. exact Hp.
Qed.
Lemma pos_not_over s ns : sinv s ns -> list_sum ns = 0%nat -> all_over (snd s).
Proof.
  intros (L1 & L2 & HI & _) HP. unfold all_over. apply List.Forall_forall. intros t Ht. apply In_nth_error in Ht. destruct Ht as [k Et].
  assert (Hk : (k < length chunks)%nat) by (rewrite <- L1; apply nth_error_Some; congruence).
  destruct (nth_error_lookup chunks k _ eq_refl Hk) as [c Ec]. destruct (nth_error_lookup ns k _ L2 Hk) as [n En].
  assert (n = 0%nat). { clear -HP En. revert k En. induction ns as [|x ns IH]; intros [|k] E; cbn in *; try discriminate; [injection E as <-; lia|]. apply (IH ltac:(unfold list_sum; lia) k E). }
  subst n. destruct (HI k c t 0%nat Ec Et En) as (dn & cu & _ & _ & _ & H3). unfold over.
  assert (Q : list_sum (map cost (th_todo t)) = 0%nat -> th_todo t = []). { destruct (th_todo t); [reflexivity|]. cbn. discriminate. }
  destruct H3 as [(_ & Hd & _ & Hn)|(i & _ & _ & _ & _ & Hn)]; [auto|].
  destruct (th_cur t); cbn in Hn; try discriminate. auto.
Qed.
End L.
