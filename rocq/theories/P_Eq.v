(** C102: equality and conversion of families and links. *)
From Coq Require Import List Bool Lia Lra.
From Verif Require Import Base M_Link M_Dist M_Names S_Dist P_Dist P_Float.
From Verif Require Import M_Float M_Eq S_Eq.
Import ListNotations.
Local Open Scope R_scope.

Lemma kind_eqb_spec a b : kind_eqb a b = true <-> a = b.
Proof. destruct a, b; cbn; split; intros H; try reflexivity; discriminate. Qed.
Lemma list_eqb_spec a b : list_eqb a b = true <-> a = b.
Proof.
  revert b. induction a as [|x a IH]; intros [|y b]; cbn; try (split; [discriminate|discriminate]); [tauto|].
  rewrite andb_true_iff, IH, Nat.eqb_eq. split; [intros [-> ->]; reflexivity|intros H; injection H; auto].
Qed.
Lemma ends_with_spec p q : ends_with p q = true <-> exists l, p = l ++ q.
Proof.
  induction p as [|x p IH]; cbn [ends_with]; rewrite orb_true_iff, list_eqb_spec.
  - split; [intros [<-|H]; [exists []; reflexivity|discriminate]|]. intros [l H]. symmetry in H. apply app_eq_nil in H. left. symmetry. apply H.
  - rewrite IH. split.
    + intros [<-|[l ->]]; [exists []; reflexivity|exists (x :: l); reflexivity].
    + intros [[|y l] H]; [left; exact H|]. right. exists l. injection H. auto.
Qed.
Lemma ends_antisym p q : ends_with p q = true -> ends_with q p = true -> p = q.
Proof.
  rewrite !ends_with_spec. intros [l ->] [m H]. apply (f_equal (@List.length nat)) in H. rewrite !app_length in H.
  destruct l; [reflexivity|cbn in H; lia].
Qed.
Lemma ends_nil p : ends_with p [] = true.
Proof. apply ends_with_spec. exists p. symmetry. apply app_nil_r. Qed.
Lemma ends_refl p : ends_with p p = true.
Proof. apply ends_with_spec. exists []. reflexivity. Qed.
Lemma cls_ext c d : c_kind c = c_kind d -> c_path c = c_path d -> c = d.
Proof. destruct c, d; cbn; congruence. Qed.
Lemma same_class_spec c d : same_class c d = true <-> c = d.
Proof.
  unfold same_class. rewrite andb_true_iff, kind_eqb_spec, list_eqb_spec. split; [intros []; apply cls_ext; assumption|intros ->; auto].
Qed.
Lemma num_eq_spec v w : num_eq v w = true <-> same_number v w.
Proof.
  unfold same_number, num_eq. destruct v as [z|[x| | |]|], w as [z'|[x'| | |]|]; cbn;
    try (split; [discriminate|intros [[y [A B]]|[[A B]|[A B]]]; discriminate]);
    try (rewrite Reqb_true; split; [intros E; left; eexists; split; [reflexivity|rewrite E; reflexivity]
        |intros [[y [A B]]|[[A B]|[A B]]]; try discriminate; injection A as <-; injection B as <-; reflexivity]);
    try (split; [intros _; right; (left; split; reflexivity) || (right; split; reflexivity)|reflexivity]).
Qed.
Lemma same_number_sym v w : same_number v w -> same_number w v.
Proof. intros [[x [A B]]|[[A B]|[A B]]]; [left; eauto|right; left; auto|right; right; auto]. Qed.

(** eq_method of w on v and of v on w agree when the classes are related *)
Lemma eq_kind v w : eq_method v w = true -> c_kind (i_cls w) = c_kind (i_cls v).
Proof.
  unfold eq_method, isinstance, subclass. destruct (c_kind (i_cls v)) eqn:E; rewrite ?andb_true_iff; cbn [c_kind];
    intros H; apply kind_eqb_spec; rewrite ?E in H; destruct H; intuition.
Qed.

(** The operator ==, for instances of the shipped classes and of unmodified subclasses of them. *)
Theorem C102_equality : forall v w, py_equal v w = true <-> should_equal v w.
Proof.
  intros v w. unfold py_equal.
  assert (M : forall a b, eq_method a b = true <->
     match c_kind (i_cls a) with
     | KTweedie | KNegBin => c_kind (i_cls b) = c_kind (i_cls a) /\ same_number (i_par a) (i_par b)
     | KTweedieLink => subclass (i_cls b) (i_cls a) = true /\ same_number (i_par a) (i_par b)
     | _ => subclass (i_cls b) (i_cls a) = true
     end).
  { intros a b. unfold eq_method, isinstance. destruct (c_kind (i_cls a)) eqn:E; rewrite ?andb_true_iff, ?num_eq_spec; try reflexivity;
      unfold subclass; cbn [c_kind c_path]; rewrite andb_true_iff, kind_eqb_spec; intuition (apply ends_nil). }
  unfold should_equal.
  destruct (subclass (i_cls w) (i_cls v) && negb (same_class (i_cls w) (i_cls v)))%bool eqn:D.
  - apply andb_true_iff in D. destruct D as [D1 D2]. apply negb_true_iff in D2.
    assert (NE : i_cls w <> i_cls v) by (intros E; apply same_class_spec in E; congruence).
    assert (D1' := D1). unfold subclass in D1'. apply andb_true_iff in D1'. destruct D1' as [K P]. apply kind_eqb_spec in K.
    assert (ND : subclass (i_cls v) (i_cls w) = true -> False).
    { intros H. unfold subclass in H. apply andb_true_iff in H. apply NE. apply cls_ext; [exact K|]. apply ends_antisym; [exact P|apply H]. }
    rewrite M, K. destruct (c_kind (i_cls v)); intuition (try (apply same_number_sym; assumption)); exfalso; auto.
  - rewrite M. assert (X : subclass (i_cls w) (i_cls v) = true <-> i_cls w = i_cls v).
    { split; [|intros ->; unfold subclass; rewrite andb_true_iff, kind_eqb_spec; split; [reflexivity|apply ends_refl]].
      intros H. rewrite H in D. cbn [andb] in D. apply negb_false_iff in D. apply same_class_spec, D. }
    destruct (c_kind (i_cls v)); rewrite ?X; tauto.
Qed.
Print Assumptions C102_equality.

Lemma constructed_par x : constructed x -> match c_kind (i_cls x) with
  | KTweedie | KTweedieLink => exists v, set_power v = Stored (i_par x)
  | KNegBin => exists v, set_theta v = Stored (i_par x)
  | _ => True end.
Proof.
  intros [v H]. unfold construct in H. destruct (c_kind (i_cls x)); try exact I; exists v;
    [destruct (set_power v)|destruct (set_theta v)|destruct (set_power v)]; try discriminate; injection H as <-; reflexivity.
Qed.
Lemma stored_num v w : set_power v = Stored w \/ set_theta v = Stored w -> w <> PyOther.
Proof.
  intros H. destruct v as [z|f|]; cbn in H.
  - destruct H as [H|H]; destruct (_ : bool) in H; try discriminate; injection H as <-; discriminate.
  - destruct H as [H|H]; match type of H with (if ?c then _ else _) = _ => destruct c end; try discriminate; injection H as <-; discriminate.
  - destruct H as [H|H]; discriminate.
Qed.
Lemma same_refl v : v <> PyOther -> v <> PyNum NaN -> same_number v v.
Proof.
  intros A B. destruct v as [z|[x| | |]|]; try congruence; [left; eexists; split; reflexivity|left; eexists; split; reflexivity|right; left; auto|right; right; auto].
Qed.

(** An equivalence relation - except that a Tweedie family or link with power NaN, which the constructor accepts, is not
    equal to itself. *)
Theorem C102_equivalence :
  (forall x, constructed x -> (py_equal x x = true <-> ~ is_nan x)) /\
  (forall x y, py_equal x y = py_equal y x) /\
  (forall x y z, py_equal x y = true -> py_equal y z = true -> py_equal x z = true).
Proof.
  assert (SY : forall x y, should_equal x y -> should_equal y x).
  { intros x y H. unfold should_equal in *. destruct (c_kind (i_cls x)) eqn:E;
      lazymatch type of H with _ /\ _ => destruct H as [H N] | _ => idtac end; rewrite H, ?E; cbv iota;
      lazymatch goal with |- _ /\ _ => split; [first [exact E|rewrite H; reflexivity|reflexivity]|apply same_number_sym, N] | _ => reflexivity end. }
  split; [|split].
  - intros x C. rewrite C102_equality. unfold should_equal, is_nan. pose proof (constructed_par x C) as P.
    assert (NN : forall p, same_number p p -> p <> PyNum NaN) by (intros p [[y [A B]]|[[A B]|[A B]]] ->; discriminate).
    destruct (c_kind (i_cls x)) eqn:E;
      try (split; [intros _ N; destruct C as [v C]; unfold construct in C; rewrite E in C; injection C as C; apply (f_equal i_par) in C; cbn in C; rewrite N in C; discriminate|reflexivity]);
      (split; [intros [_ H]; apply NN, H|intros N; split; [reflexivity|]; destruct P as [v P]; apply same_refl; [apply (stored_num v); auto|exact N]]).
  - intros x y. destruct (py_equal x y) eqn:A, (py_equal y x) eqn:B; try reflexivity.
    + apply C102_equality, SY, C102_equality in A. congruence.
    + apply C102_equality, SY, C102_equality in B. congruence.
  - intros x y z A B. rewrite C102_equality in *.
    assert (TN : forall a b c, same_number a b -> same_number b c -> same_number a c).
    { intros a b c [[u [P Q]]|[[P Q]|[P Q]]] [[v [R0 T]]|[[R0 T]|[R0 T]]]; subst; try discriminate.
      - left. exists u. split; [exact P|]. congruence.
      - right; left; auto.
      - right; right; auto. }
    unfold should_equal in *. destruct (c_kind (i_cls x)) eqn:E.
    all: lazymatch type of A with _ /\ _ => destruct A as [A N] | _ => idtac end; rewrite A, ?E in B; cbv iota in B.
    all: lazymatch type of B with _ /\ _ => destruct B as [B M]; split; [congruence|eapply TN; eassumption] | _ => congruence end.
Qed.
Print Assumptions C102_equivalence.

(** Equal instances compute the same. *)
Theorem C102_same_behaviour : forall x y, py_equal x y = true -> as_family x = as_family y /\ as_link x = as_link y.
Proof.
  intros x y H. apply C102_equality in H. unfold should_equal in H. unfold as_family, as_link.
  assert (V : forall a b, same_number a b -> num_value a = num_value b) by (intros a b [[u [-> ->]]|[[-> ->]|[-> ->]]]; reflexivity).
  destruct (c_kind (i_cls x)) eqn:E; lazymatch type of H with _ /\ _ => destruct H as [H N]; rewrite H, ?E, (V _ _ N) | _ => rewrite H, ?E end; split; reflexivity.
Qed.
Print Assumptions C102_same_behaviour.

Lemma set_int z : set_power (PyInt z) = Stored (PyInt z).
Proof.
  unfold set_power, num_gt, num_lt. destruct (Rltb 0 (IZR z)) eqn:A, (Rltb (IZR z) 1) eqn:B; try reflexivity.
  apply Rltb_true in A, B. apply lt_IZR in A, B. exfalso. lia.
Qed.
Lemma tweedie_int c z : c_kind c = KTweedie \/ c_kind c = KTweedieLink -> construct c (PyInt z) = Some (mkInst c (PyInt z)).
Proof. intros [H|H]; unfold construct; rewrite H, set_int; reflexivity. Qed.
Lemma tweedie_again x : constructed x -> is_tweedie x -> construct (i_cls x) (i_par x) = Some x.
Proof.
  intros C T. pose proof (constructed_par x C) as P.
  assert (Q : exists v, set_power v = Stored (i_par x)) by (destruct T as [T|T]; rewrite T in P; exact P).
  destruct Q as [v Q]. destruct (C82_stored_power v (i_par x) Q) as (_ & _ & _ & _ & R0).
  destruct x as [c p]. unfold construct. cbn [i_cls i_par] in *. destruct T as [T|T]; cbn [i_cls] in T; rewrite T, R0; reflexivity.
Qed.
(** to_tweedie: exactly the families and links with a Tweedie representation have one; the converted instance computes the
    same; it equals the original exactly if that is a Tweedie instance (with a power that is not NaN). *)
Theorem C102_to_tweedie : forall x safe, constructed x ->
  (~ has_tweedie x -> to_tweedie safe x = if safe then Raises else NoneResult) /\
  (has_tweedie x -> exists t, to_tweedie safe x = Inst t /\ constructed t /\ is_tweedie t /\ to_tweedie safe t = Inst t /\
     (py_equal x t = true <-> is_tweedie x /\ ~ is_nan x) /\
     (forall f, as_family x = Some f -> exists g, as_family t = Some g /\
        (forall l, deviance g l = deviance f l) /\ (forall y, in_y_range g y = in_y_range f y) /\ auto_link g = auto_link f /\
        forall mu, mean_range f mu -> unit_variance g mu = unit_variance f mu /\
                                      forall y, support f y -> unit_deviance g y mu = unit_deviance f y mu) /\
     (forall k, as_link x = Some k -> exists h, as_link t = Some h /\
        forall z, link_fn h z = link_fn k z /\ raw_inverse h z = raw_inverse k z /\ link_derivative h z = link_derivative k z /\
                  inverse_derivative h z = inverse_derivative k z /\ inverse_derivative2 h z = inverse_derivative2 k z)).
Proof.
  intros x safe C. split.
  { unfold has_tweedie, to_tweedie. destruct (c_kind (i_cls x)); intros H; try reflexivity; exfalso; apply H; exact I. }
  intros H. destruct (c_kind (i_cls x)) eqn:E; unfold has_tweedie in H; rewrite E in H; try contradiction.
  1, 6: (assert (T : is_tweedie x) by (unfold is_tweedie; auto); exists x;
    assert (TT : to_tweedie safe x = Inst x) by (unfold to_tweedie; rewrite E, (tweedie_again x C T); reflexivity);
    split; [exact TT|]; split; [exact C|]; split; [exact T|]; split; [exact TT|]; split;
    [rewrite (proj1 C102_equivalence x C); tauto|]; split;
    [intros f Hf; exists f; split; [exact Hf|]; split; [reflexivity|]; split; [reflexivity|]; split; [reflexivity|]; intros mu _; split; reflexivity
    |intros k Hk; exists k; split; [exact Hk|]; intros z; repeat (split; [reflexivity|]); reflexivity]).
  1, 2, 3, 4: (match type of E with _ = ?k =>
      let z := match k with KNormal => constr:(0%Z) | KPoisson => constr:(1%Z) | KGamma => constr:(2%Z) | _ => constr:(3%Z) end in
      let p := match k with KNormal => constr:(0) | KPoisson => constr:(1) | KGamma => constr:(2) | _ => constr:(3) end in
      set (t := mkInst (mkCls KTweedie []) (PyInt z)); exists t;
      assert (TT : construct (i_cls t) (PyInt z) = Some t) by (apply tweedie_int; left; reflexivity);
      split; [unfold to_tweedie; rewrite E; change (mkCls KTweedie []) with (i_cls t); rewrite TT; reflexivity|];
      split; [exists (PyInt z); exact TT|]; split; [left; reflexivity|];
      split; [unfold to_tweedie; change (c_kind (i_cls t)) with KTweedie; cbv iota; change (i_par t) with (PyInt z); rewrite TT; reflexivity|];
      split; [rewrite C102_equality; unfold should_equal, is_tweedie; rewrite E; split;
        [intros Q; rewrite <- Q in E; discriminate|intros [[Q|Q] _]; discriminate]|];
      split; [intros f Hf; exists (TweedieF p); split; [reflexivity|]; unfold as_family in Hf; rewrite E in Hf; injection Hf as <-
        |intros kk Hk; unfold as_link in Hk; rewrite E in Hk; discriminate] end;
      match goal with |- (forall l, _ = deviance ?f l) /\ _ =>
        match goal with |- context [TweedieF ?p] => destruct (C07_named_is_tweedie f p eq_refl) as (UV & UD & DV & _ & _ & _ & _ & _ & YR) end end;
      split; [intros l; symmetry; apply DV|]; split; [intros y; symmetry; apply YR|];
      split; [unfold auto_link; cbn [tweedie_repr]; reflexivity|];
      intros mu Hm; split; [symmetry; apply UV, Hm|intros y Hy; symmetry; apply UD; assumption]).
  all: (match type of E with _ = ?k =>
      let z := match k with KIdentity => constr:(0%Z) | _ => constr:(1%Z) end in
      let p := match k with KIdentity => constr:(0) | _ => constr:(1) end in
      set (t := mkInst (mkCls KTweedieLink []) (PyInt z)); exists t;
      assert (TT : construct (i_cls t) (PyInt z) = Some t) by (apply tweedie_int; right; reflexivity);
      split; [unfold to_tweedie; rewrite E; change (mkCls KTweedieLink []) with (i_cls t); rewrite TT; reflexivity|];
      split; [exists (PyInt z); exact TT|]; split; [right; reflexivity|];
      split; [unfold to_tweedie; change (c_kind (i_cls t)) with KTweedieLink; cbv iota; change (i_par t) with (PyInt z); rewrite TT; reflexivity|];
      split; [rewrite C102_equality; unfold should_equal, is_tweedie; rewrite E; split;
        [intros Q; rewrite <- Q in E; discriminate|intros [[Q|Q] _]; discriminate]|];
      split; [intros f Hf; unfold as_family in Hf; rewrite E in Hf; discriminate|];
      intros kk Hk; exists (TweedieL p); split; [reflexivity|]; unfold as_link in Hk; rewrite E in Hk; injection Hk as <- end;
      intros z; unfold link_fn, raw_inverse, link_derivative, inverse_derivative, inverse_derivative2;
      repeat match goal with |- context [Req_EM_T ?a ?b] => destruct (Req_EM_T a b); try (exfalso; lra) end;
      repeat (split; [reflexivity|]); reflexivity).
Qed.
Print Assumptions C102_to_tweedie.

(** A subclass of the normal family, powers 1 and 1.0, a power that is not a number. *)
Example ex102_nonvacuous :
  let tw v := mkInst (mkCls KTweedie []) v in
  constructed (tw (PyInt 1)) /\ constructed (tw (PyNum NaN)) /\ constructed (mkInst (mkCls KNormal [7%nat]) PyOther) /\
  py_equal (tw (PyInt 1)) (tw (PyNum (Fin 1))) = true /\
  py_equal (tw (PyInt 1)) (mkInst (mkCls KPoisson []) PyOther) = false /\
  py_equal (mkInst (mkCls KNormal []) PyOther) (mkInst (mkCls KNormal [7%nat]) PyOther) = false /\
  py_equal (mkInst (mkCls KTweedie [7%nat]) (PyInt 1)) (tw (PyInt 1)) = true /\
  py_equal (tw (PyNum NaN)) (tw (PyNum NaN)) = false.
Proof.
  intros tw. split; [exists (PyInt 1); apply tweedie_int; left; reflexivity|]. split; [exists (PyNum NaN); reflexivity|].
  split; [exists PyOther; reflexivity|].
  assert (E1 : py_equal (tw (PyInt 1)) (tw (PyNum (Fin 1))) = true).
  { apply C102_equality. split; [reflexivity|]. left. exists 1. split; reflexivity. }
  split; [exact E1|]. split; [reflexivity|]. split; [reflexivity|]. split; [|reflexivity].
  apply C102_equality. split; [reflexivity|]. left. exists 1. split; reflexivity.
Qed.

