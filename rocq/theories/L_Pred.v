(** Lemmas for C44: offsets and weights entry by entry. *)
From Verif Require Import M_Path S_Path L_Path.
From Coq Require Import Permutation.
From Verif Require Import M_Solver S_Solver.
Local Open Scope R_scope.

Lemma map_seq_nth {A B} (f : A -> B) (l : list A) d : map f l = map (fun i => f (nth i l d)) (seq 0 (length l)).
Proof.
  induction l as [|a l IH]; [reflexivity|]. simpl. f_equal. rewrite <- seq_shift, map_map. exact IH.
Qed.
Lemma add_offset_spec xb o : offset_fits o (length xb) ->
  add_offset xb o = Some (map (fun i => nth i xb 0 + offset_at o i) (seq 0 (length xb))).
Proof.
  intros H. destruct o as [|c|l]; cbn [add_offset offset_at offset_fits] in *; f_equal.
  - rewrite <- (map_id xb) at 1. rewrite (map_seq_nth (fun x => x) xb 0). apply map_ext. intros; ring.
  - apply (map_seq_nth (fun x => x + c) xb 0).
  - rewrite H, Nat.eqb_refl. f_equal. clear -H. revert l H. induction xb as [|x xb IH]; intros l H; [reflexivity|].
    destruct l as [|y l]; [discriminate|]. cbn [combine map length seq nth fst snd]. f_equal.
    rewrite <- seq_shift, map_map. apply (IH l). simpl in H. lia.
Qed.
Lemma lsum_zero_all l : (forall x, In x l -> 0 <= x) -> lsum l = 0 -> forall x, In x l -> x = 0.
Proof.
  induction l as [|y l IH]; intros Hp Hs x Hx; [destruct Hx|]. simpl in Hs.
  assert (0 <= y) by (apply Hp; left; reflexivity).
  assert (0 <= lsum l).
  { clear -Hp. induction l as [|z l IH]; simpl; [lra|]. pose proof (Hp z (or_intror (or_introl eq_refl))).
    assert (0 <= lsum l) by (apply IH; intros x [<-|Hx]; apply Hp; simpl; auto). lra. }
  destruct Hx as [<-|Hx]; [lra|]. apply IH; auto; [intros; apply Hp; right; auto|lra].
Qed.
Lemma check_weights_spec s n : weights_valid s n ->
  exists ws, check_weights s n = Some ws /\ length ws = n /\ forall i, (i < n)%nat -> nth i ws 0 = weight_at s i.
Proof.
  assert (RP : forall (c : R) k i, (i < k)%nat -> nth i (repeat c k) 0 = c).
  { intros c k. induction k; intros i Hi; [lia|]. destruct i; [reflexivity|]. simpl. apply IHk. lia. }
  intros H. destruct s as [|c|l]; cbn [check_weights weight_at weights_valid] in *.
  - exists (repeat 1 n). split; [reflexivity|]. split; [apply repeat_length|]. apply RP.
  - rewrite (proj2 (Rleb_false c 0)) by lra. exists (repeat c n). split; [reflexivity|]. split; [apply repeat_length|]. apply RP.
  - destruct H as [HL [HN [x [Hx Hx0]]]]. rewrite HL, Nat.eqb_refl. cbn [negb].
    replace (existsb (fun x => Rltb x 0) l) with false.
    + rewrite (proj2 (Reqb_false (lsum l) 0)).
      * exists l. auto.
      * intros E. apply Hx0. apply (lsum_zero_all l HN E x Hx).
    + symmetry. apply not_true_is_false. intros E. apply existsb_exists in E as [z [Hz E]]. apply Rltb_true in E. specialize (HN z Hz). lra.
Qed.
Lemma map_combine_seq (l ws : list R) : length ws = length l ->
  map (fun ab => fst ab * snd ab) (combine l ws) = map (fun i => nth i l 0 * nth i ws 0) (seq 0 (length l)).
Proof.
  revert ws. induction l as [|x l IH]; intros ws H; [reflexivity|]. destruct ws as [|y ws]; [discriminate|].
  cbn [combine map length seq nth fst snd]. f_equal. rewrite <- seq_shift, map_map. apply (IH ws). simpl in H. lia.
Qed.
Lemma compute_vec p X o b (E : offset_fits o (length X)) :
  add_offset (map (row_eta p b) X) o = Some (map (fun i => eta_row p (fst b) (snd b) (nth i X xrow0) (offset_at o i)) (seq 0 (length X))).
Proof.
  rewrite add_offset_spec by (rewrite map_length; exact E). f_equal. rewrite map_length. apply map_ext_in. intros i Hi. apply in_seq in Hi.
  rewrite (nth_indep _ 0 (row_eta p b xrow0)) by (rewrite map_length; lia). rewrite map_nth. unfold row_eta, eta_row. ring.
Qed.

Lemma nth_error_nth' {A} (l : list A) d k : (k < length l)%nat -> nth_error l k = Some (nth k l d).
Proof. revert k. induction l as [|x l IH]; intros [|k] H; simpl in *; try lia; [reflexivity|]. apply IH. lia. Qed.
Lemma py_nth_spec {A} (l : list A) d z x : py_nth l d z = Some x <-> entry_at l z x.
Proof.
  unfold py_nth, py_index, entry_at. split.
  - destruct ((0 <=? z) && (z <? Z.of_nat (length l)))%Z%bool eqn:E1.
    + apply andb_prop in E1 as [H1 H2]. apply Z.leb_le in H1. apply Z.ltb_lt in H2.
      cbn [option_map]. intros H. injection H as <-. exists (Z.to_nat z). split; [apply nth_error_nth'; lia|left; lia].
    + destruct ((- Z.of_nat (length l) <=? z) && (z <? 0))%Z%bool eqn:E2; [|discriminate].
      apply andb_prop in E2 as [H1 H2]. apply Z.leb_le in H1. apply Z.ltb_lt in H2.
      cbn [option_map]. intros H. injection H as <-. exists (Z.to_nat (z + Z.of_nat (length l))). split; [apply nth_error_nth'; lia|right; lia].
  - intros [k [E Hz]]. assert (L : (k < length l)%nat) by (apply nth_error_Some; congruence).
    rewrite (nth_error_nth' l d k L) in E. injection E as <-.
    destruct Hz as [-> | ->].
    + replace ((0 <=? Z.of_nat k) && (Z.of_nat k <? Z.of_nat (length l)))%Z%bool with true
        by (symmetry; apply andb_true_intro; split; [apply Z.leb_le|apply Z.ltb_lt]; lia).
      cbn [option_map]. rewrite Nat2Z.id. reflexivity.
    + replace ((0 <=? Z.of_nat k - Z.of_nat (length l)) && (Z.of_nat k - Z.of_nat (length l) <? Z.of_nat (length l)))%Z%bool with false
        by (symmetry; apply andb_false_iff; left; apply Z.leb_gt; lia).
      replace ((- Z.of_nat (length l) <=? Z.of_nat k - Z.of_nat (length l)) && (Z.of_nat k - Z.of_nat (length l) <? 0))%Z%bool with true
        by (symmetry; apply andb_true_intro; split; [apply Z.leb_le|apply Z.ltb_lt]; lia).
      cbn [option_map]. do 2 f_equal. lia.
Qed.
Lemma py_nth_none {A} (l : list A) d z : py_nth l d z = None <-> (z < - Z.of_nat (length l) \/ Z.of_nat (length l) <= z)%Z.
Proof.
  unfold py_nth, py_index.
  destruct ((0 <=? z) && (z <? Z.of_nat (length l)))%Z%bool eqn:E1.
  - apply andb_prop in E1 as [H1 H2]. apply Z.leb_le in H1. apply Z.ltb_lt in H2. split; [discriminate|lia].
  - destruct ((- Z.of_nat (length l) <=? z) && (z <? 0))%Z%bool eqn:E2.
    + apply andb_prop in E2 as [H1 H2]. apply Z.leb_le in H1. apply Z.ltb_lt in H2. split; [discriminate|lia].
    + split; [|reflexivity]. intros _. apply andb_false_iff in E1, E2.
      destruct E1 as [E1|E1], E2 as [E2|E2]; rewrite ?Z.leb_gt, ?Z.ltb_ge in *; lia.
Qed.
