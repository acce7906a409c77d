(** C95: hyperparameters are stored as given, and clone, get_params and set_params agree with the constructor. *)
From Coq Require Import List String Bool. Import ListNotations.
From Verif Require Import M_Params S_Params.
Local Open Scope string_scope.

Lemma in_names_iff l n : in_names l n = true <-> In n (map fst l).
Proof.
  unfold in_names. rewrite existsb_exists. split.
  - intros [x [H E]]. apply String.eqb_eq in E. subst. apply in_map, H.
  - intros H. apply in_map_iff in H. destruct H as [x [E H]]. exists x. split; [exact H|]. apply String.eqb_eq, E.
Qed.
Lemma assoc_cons {V} x (y : V) l n : assoc ((x, y) :: l) n = if String.eqb x n then Some y else assoc l n.
Proof. unfold assoc. cbn [find fst]. destruct (String.eqb x n); reflexivity. Qed.
Lemma assoc_none {V} (l : list (string * V)) n : assoc l n = None <-> ~ In n (map fst l).
Proof.
  unfold assoc. induction l as [|[k v] l IH]; cbn; [tauto|]. destruct (String.eqb_spec k n); [subst; split; [discriminate|intros H; exfalso; apply H; auto]|].
  rewrite IH. split; [intros H [E|E]; [apply n0, E|apply H, E]|intros H E; apply H; auto].
Qed.
Lemma assoc_in {V} (l : list (string * V)) n v : NoDup (map fst l) -> (assoc l n = Some v <-> In (n, v) l).
Proof.
  unfold assoc. induction l as [|[k w] l IH]; cbn; intros ND; [split; [discriminate|intros []]|]. inversion ND; subst. destruct (String.eqb_spec k n).
  - subst. split; [intros E; inversion E; auto|]. intros [E|E]; [inversion E; reflexivity|]. exfalso. apply H1. apply (in_map fst) in E. exact E.
  - rewrite IH by assumption. split; [auto|]. intros [E|E]; [inversion E; contradiction|exact E].
Qed.
Lemma known_bind {V} (c : cls) (kw : list (string * V)) : forallb (fun kv => in_names (sig_of c) (fst kv)) kw = true <-> known c kw.
Proof.
  rewrite forallb_forall. split.
  - intros H n v Hin. apply in_names_iff, (H (n, v) Hin).
  - intros H [n v] Hin. apply in_names_iff, (H n v Hin).
Qed.

(** the value of a parameter in the constructor's environment *)
Definition env_of {V} (lit : string -> V) (c : cls) (kw : list (string * V)) (p : string) : option V :=
  match assoc kw p with Some v => Some v | None => match assoc (sig_of c) p with Some t => Some (lit t) | None => None end end.
(** what a constructed object looks like: every parameter its value, and alpha_search of the CV class the base default *)
Definition built {V} (lit : string -> V) (c : cls) (kw : list (string * V)) : attrs V :=
  fun n => match c with
           | GLRCV => if String.eqb n "alpha_search" then Some (lit "False") else env_of lit c kw n
           | GLR => env_of lit c kw n
           end.

Lemma env_param {V} lit c (kw : list (string * V)) p : param c p -> exists v, env_of lit c kw p = Some v.
Proof.
  intros H. unfold env_of. destruct (assoc kw p) as [v|]; [eauto|]. destruct (assoc (sig_of c) p) as [t|] eqn:E; [eauto|].
  apply assoc_none in E. contradiction.
Qed.
Lemma env_other {V} lit c (kw : list (string * V)) p : known c kw -> ~ param c p -> env_of lit c kw p = None.
Proof.
  intros K H. unfold env_of. destruct (assoc kw p) as [v|] eqn:E.
  - exfalso. unfold assoc in E. destruct (find _ kw) as [[k w]|] eqn:F; [|discriminate]. apply find_some in F. destruct F as [F1 F2]. apply String.eqb_eq in F2. cbn in F2. subst k.
    apply H, (K p w F1).
  - destruct (assoc (sig_of c) p) eqn:E2; [|reflexivity]. exfalso. apply H. destruct (in_dec string_dec p (map fst (sig_of c))) as [I|I]; [exact I|].
    apply assoc_none in I. rewrite I in E2. discriminate.
Qed.
Lemma run_sets_at {V} sets (env : string -> option V) a n : NoDup (map fst sets) ->
  run_sets sets env a n = match assoc sets n with Some p => match env p with Some v => Some v | None => a n end | None => a n end.
Proof.
  unfold run_sets. revert a. induction sets as [|[x y] l IH]; intros a ND; [reflexivity|]. inversion ND; subst. cbn [fold_left fst snd].
  rewrite IH by assumption. rewrite assoc_cons. destruct (String.eqb_spec x n).
  - subst. assert (E : assoc l n = None) by (apply assoc_none; assumption). rewrite E. destruct (env y); [|reflexivity]. unfold setattr. rewrite String.eqb_refl. reflexivity.
  - assert (A : forall v, setattr a x v n = a n) by (intros v; unfold setattr; destruct (String.eqb_spec n x); [subst; contradiction|reflexivity]).
    destruct (env y); rewrite ?A; reflexivity.
Qed.
Lemma eval_kwargs_at {V} (env : string -> option V) l n : NoDup (map fst l) ->
  assoc (eval_kwargs env l) n = match assoc l n with Some p => env p | None => None end.
Proof.
  induction l as [|[x y] l IH]; intros ND; [reflexivity|]. inversion ND; subst. cbn [eval_kwargs flat_map fst snd]. fold (eval_kwargs env l).
  rewrite assoc_cons. destruct (String.eqb_spec x n).
  - subst. destruct (env y); cbn [app]; [rewrite assoc_cons, String.eqb_refl; reflexivity|]. rewrite IH by assumption.
    rewrite (proj2 (assoc_none l n)) by assumption. reflexivity.
  - destruct (env y); cbn [app]; [|apply IH; assumption]. rewrite assoc_cons. destruct (String.eqb_spec x n); [contradiction|]. apply IH; assumption.
Qed.
Lemma eval_kwargs_names {V} (env : string -> option V) l k v : In (k, v) (eval_kwargs env l) -> In k (map fst l).
Proof.
  unfold eval_kwargs. rewrite in_flat_map. intros [[x y] [H1 H2]]. cbn in H2. destruct (env y); [|destruct H2]. destruct H2 as [E|[]]. inversion E; subst.
  apply (in_map fst) in H1. exact H1.
Qed.
Fixpoint nodupb (l : list string) : bool := match l with nil => true | x :: r => negb (existsb (String.eqb x) r) && nodupb r end.
Lemma nodupb_ok l : nodupb l = true -> NoDup l.
Proof.
  induction l as [|x r IH]; intros H; [constructor|]. cbn in H. apply andb_true_iff in H. destruct H as [H1 H2]. constructor; [|apply IH, H2].
  intros Hin. apply negb_true_iff in H1. assert (T : existsb (String.eqb x) r = true) by (apply existsb_exists; exists x; split; [exact Hin|apply String.eqb_refl]). congruence.
Qed.
(** where an attribute of a new object comes from: a parameter, or a default of the base class *)
Definition origin (c : cls) (n : string) : option (string + string) :=
  match assoc base_sets n with
  | Some p => match assoc (super_of c) p with Some q => Some (inl q) | None => match assoc base_sig p with Some t => Some (inr t) | None => None end end
  | None => match assoc (sets_of c) n with Some p => Some (inl p) | None => None end
  end.
Definition origin_is (o : option (string + string)) (p : string) : bool := match o with Some (inl q) => String.eqb q p | _ => false end.
Lemma origin_param c n : param c n -> origin c n = Some (inl n).
Proof.
  intros H. assert (A : forallb (fun p => origin_is (origin c p) p) (map fst (sig_of c)) = true) by (destruct c; vm_compute; reflexivity).
  rewrite forallb_forall in A. specialize (A n H). unfold origin_is in A. destruct (origin c n) as [[q|t]|]; try discriminate. apply String.eqb_eq in A. subst. reflexivity.
Qed.
Lemma origin_other c n : ~ param c n -> origin c n = if (match c with GLR => false | GLRCV => String.eqb n "alpha_search" end) then Some (inr "False") else None.
Proof.
  intros H. destruct (match c with GLR => false | GLRCV => String.eqb n "alpha_search" end) eqn:E.
  - destruct c; [discriminate|]. apply String.eqb_eq in E. subst. reflexivity.
  - assert (A : forallb (fun p => in_names (sig_of c) p || match c with GLR => false | GLRCV => String.eqb p "alpha_search" end) (map fst base_sets ++ map fst (sets_of c)) = true) by (destruct c; vm_compute; reflexivity).
    rewrite forallb_forall in A.
    assert (N : ~ In n (map fst base_sets ++ map fst (sets_of c))).
    { intros Hin. specialize (A n Hin). apply orb_true_iff in A. destruct A as [A|A]; [apply in_names_iff in A; apply H, A|congruence]. }
    unfold origin. rewrite (proj2 (assoc_none base_sets n)), (proj2 (assoc_none (sets_of c) n)); [reflexivity| |]; intros Hin; apply N, in_or_app; auto.
Qed.
Lemma construct_built {V} lit c (kw : list (string * V)) : known c kw ->
  exists a, construct lit c kw = Some a /\ forall n, a n = built lit c kw n.
Proof.
  intros K. unfold construct, bind_args. rewrite (proj2 (known_bind c kw) K). fold (env_of lit c kw).
  unfold base_init, bind_args.
  assert (F : forallb (fun kv : string * V => in_names base_sig (fst kv)) (eval_kwargs (env_of lit c kw) (super_of c)) = true).
  { apply forallb_forall. intros [k v] Hin. apply eval_kwargs_names in Hin. cbn [fst].
    assert (A : forallb (in_names base_sig) (map fst (super_of c)) = true) by (destruct c; vm_compute; reflexivity).
    rewrite forallb_forall in A. apply A, Hin. }
  rewrite F. eexists. split; [reflexivity|]. intros n.
  rewrite run_sets_at by (apply nodupb_ok; reflexivity). rewrite run_sets_at by (apply nodupb_ok; destruct c; reflexivity).
  assert (ND : NoDup (map fst (super_of c))) by (apply nodupb_ok; destruct c; reflexivity).
  transitivity (match origin c n with Some (inl q) => env_of lit c kw q | Some (inr t) => Some (lit t) | None => None end).
  - unfold origin. destruct (assoc base_sets n) as [p|] eqn:EB.
    + rewrite eval_kwargs_at by exact ND. destruct (assoc (super_of c) p) as [q|] eqn:ES.
      * assert (PQ : exists v, env_of lit c kw q = Some v).
        { apply env_param. assert (A : forallb (fun xy => in_names (sig_of c) (snd xy)) (super_of c) = true) by (destruct c; vm_compute; reflexivity).
          rewrite forallb_forall in A. unfold assoc in ES. destruct (find _ (super_of c)) as [[k w]|] eqn:EF; [|discriminate]. apply find_some in EF.
          inversion ES; subst. apply in_names_iff, (A _ (proj1 EF)). }
        destruct PQ as [v ->]. reflexivity.
      * destruct (assoc base_sig p) as [t|] eqn:EG; [reflexivity|]. exfalso.
        assert (A : forallb (fun xy => in_names base_sig (snd xy)) base_sets = true) by (vm_compute; reflexivity).
        rewrite forallb_forall in A. unfold assoc in EB. destruct (find _ base_sets) as [[k w]|] eqn:EF; [|discriminate]. apply find_some in EF.
        inversion EB; subst. apply assoc_none in EG. apply EG, in_names_iff, (A _ (proj1 EF)).
    + destruct (assoc (sets_of c) n); [destruct (env_of lit c kw s)|]; reflexivity.
  - unfold built. destruct (in_dec string_dec n (map fst (sig_of c))) as [P|P].
    + rewrite (origin_param c n P). destruct c; [reflexivity|]. destruct (String.eqb_spec n "alpha_search"); [|reflexivity].
      subst. exfalso. apply in_names_iff in P. vm_compute in P. discriminate.
    + rewrite (origin_other c n P). destruct c; [symmetry; apply env_other; assumption|].
      destruct (String.eqb n "alpha_search"); [reflexivity|]. symmetry. apply env_other; assumption.
Qed.
Lemma sig_nodup c : NoDup (map fst (sig_of c)).
Proof. apply nodupb_ok. destruct c; reflexivity. Qed.
Lemma env_wanted {V} lit c (kw : list (string * V)) p v : NoDup (map fst kw) -> env_of lit c kw p = Some v -> wanted lit c kw p v.
Proof.
  intros ND E. unfold env_of in E. destruct (assoc kw p) as [w|] eqn:A.
  - inversion E; subst. left. apply assoc_in; assumption.
  - right. split; [apply assoc_none, A|]. destruct (assoc (sig_of c) p) as [t|] eqn:B; [|discriminate]. inversion E; subst. exists t. split; [|reflexivity].
    apply assoc_in; [apply sig_nodup|exact B].
Qed.

(** The constructor stores every argument under its own name, unchanged, and defaults elsewhere; there are no other
    attributes (alpha_search of the CV class apart); an unknown keyword raises. *)
Theorem C95_stored : forall V (lit : string -> V) c kw, NoDup (map fst kw) ->
  (known c kw -> exists a, construct lit c kw = Some a /\
     (forall p, param c p -> exists v, a p = Some v /\ wanted lit c kw p v) /\
     (forall n, ~ param c n -> (c = GLRCV -> n <> "alpha_search") -> a n = None)) /\
  (~ known c kw -> construct lit c kw = None).
Proof.
  intros V lit c kw ND. split.
  - intros K. destruct (construct_built lit c kw K) as [a [E A]]. exists a. split; [exact E|]. split.
    + intros p P. destruct (env_param lit c kw p P) as [v Ev]. exists v. split; [|apply env_wanted; assumption]. rewrite A. unfold built. destruct c; [exact Ev|].
      destruct (String.eqb_spec p "alpha_search"); [|exact Ev]. subst. exfalso. apply in_names_iff in P. vm_compute in P. discriminate.
    + intros n P Hn. rewrite A. unfold built. destruct c; [apply env_other; assumption|].
      destruct (String.eqb_spec n "alpha_search"); [exfalso; apply (Hn eq_refl), e|apply env_other; assumption].
  - intros NK. unfold construct, bind_args. destruct (forallb _ kw) eqn:F; [|reflexivity]. exfalso. apply NK, known_bind, F.
Qed.
Print Assumptions C95_stored.

Lemma get_each_some {V} l (a : attrs V) : (forall n, In n l -> a n <> None) ->
  exists kw, get_each l a = Some kw /\ map fst kw = l /\ forall n v, In (n, v) kw -> a n = Some v.
Proof.
  induction l as [|n l IH]; intros H; [exists nil; repeat split; intros ? ? []|]. cbn. destruct (a n) as [v|] eqn:E; [|exfalso; apply (H n); [left; reflexivity|exact E]].
  destruct IH as [kw [-> [M G]]]; [intros m Hm; apply H; right; exact Hm|]. exists ((n, v) :: kw). split; [reflexivity|]. split; [cbn; rewrite M; reflexivity|].
  intros m w [I|I]; [inversion I; subst; exact E|apply G, I].
Qed.

(** get_params returns exactly the parameters with their values; a clone of any object whose parameters are set - fitted or
    not, after any assignments - has the same parameter values and none of its other attributes. *)
Theorem C95_clone : forall V (lit : string -> V) c (a : attrs V), (forall p, param c p -> a p <> None) ->
  exists kw b, get_params c a = Some kw /\ map fst kw = map fst (sig_of c) /\ (forall n v, In (n, v) kw -> a n = Some v) /\
    clone lit c a = Some b /\ (forall p, param c p -> b p = a p) /\
    (forall n, ~ param c n -> (c = GLRCV -> n <> "alpha_search") -> b n = None).
Proof.
  intros V lit c a Ha. destruct (get_each_some (map fst (sig_of c)) a Ha) as [kw [G [M A]]].
  assert (ND : NoDup (map fst kw)) by (rewrite M; apply sig_nodup).
  assert (K : known c kw) by (intros n v Hin; unfold param; rewrite <- M; apply (in_map fst) in Hin; exact Hin).
  destruct (proj1 (C95_stored V lit c kw ND) K) as [b [B [W O]]].
  exists kw, b. split; [exact G|]. split; [exact M|]. split; [exact A|]. split; [unfold clone, get_params; rewrite G; exact B|]. split; [|exact O].
  intros p P. destruct (W p P) as [v [-> Q]]. destruct Q as [Q|[Q _]]; [symmetry; apply A, Q|]. exfalso. apply Q. rewrite M. exact P.
Qed.
Print Assumptions C95_clone.

(** set_params changes the named parameters and nothing else; an unknown name raises, and what came before it in the call
    stays set. *)
Theorem C95_set_params : forall V c (a : attrs V) kw, NoDup (map fst kw) ->
  (known c kw -> snd (set_params c a kw) = true /\
     (forall n v, In (n, v) kw -> fst (set_params c a kw) n = Some v) /\ (forall n, ~ In n (map fst kw) -> fst (set_params c a kw) n = a n)) /\
  (~ known c kw -> snd (set_params c a kw) = false /\ exists l1 l2 n v, kw = (l1 ++ (n, v) :: l2)%list /\ known c l1 /\ ~ param c n /\
     fst (set_params c a kw) = fst (set_params c a l1)).
Proof.
  intros V c a kw. revert a. induction kw as [|[n v] r IH]; intros a ND.
  - split; [|intros H; exfalso; apply H; intros ? ? []]. intros _. split; [reflexivity|]. split; [intros ? ? []|reflexivity].
  - inversion ND; subst. destruct (IH (setattr a n v) H2) as [P Q]. cbn [set_params]. destruct (in_names (sig_of c) n) eqn:E.
    + split.
      * intros K. destruct P as [P0 [P1 P2]]; [intros m w Hm; apply (K m w); right; exact Hm|]. split; [exact P0|]. split.
        -- intros m w [I|I]; [inversion I; subst; clear I|apply P1, I]. rewrite P2 by assumption. unfold setattr. rewrite String.eqb_refl. reflexivity.
        -- intros m Hm. rewrite P2 by (intros I; apply Hm; right; exact I). unfold setattr. destruct (String.eqb_spec m n); [subst; exfalso; apply Hm; left; reflexivity|reflexivity].
      * intros NK. destruct Q as [Q0 (l1 & l2 & m & w & E1 & K1 & N1 & S1)].
        { intros K. apply NK. intros m w [I|I]; [inversion I; subst; apply in_names_iff, E|apply (K m w I)]. }
        split; [exact Q0|]. exists ((n, v) :: l1), l2, m, w. split; [cbn; rewrite E1; reflexivity|]. split.
        { intros k z [I|I]; [inversion I; subst; apply in_names_iff, E|apply (K1 k z I)]. }
        split; [exact N1|]. cbn [set_params]. rewrite E. exact S1.
    + split.
      * intros K. exfalso. assert (T : in_names (sig_of c) n = true) by (apply in_names_iff, (K n v); left; reflexivity). congruence.
      * intros _. split; [reflexivity|]. exists nil, r, n, v. split; [reflexivity|]. split; [intros ? ? []|]. split; [|reflexivity].
        intros P'. apply in_names_iff in P'. congruence.
Qed.
Print Assumptions C95_set_params.

(** The two estimators agree on the default of every parameter they share, and GeneralizedLinearRegressorCV has every
    parameter of GeneralizedLinearRegressor except alpha and alpha_search. *)
Theorem C95_defaults : forall p t, In (p, t) glr_sig -> In (p, t) cv_sig \/ p = "alpha" \/ p = "alpha_search".
Proof.
  assert (A : forallb (fun pt => match assoc cv_sig (fst pt) with Some t' => String.eqb t' (snd pt) | None => (String.eqb (fst pt) "alpha" || String.eqb (fst pt) "alpha_search")%bool end) glr_sig = true) by (vm_compute; reflexivity).
  rewrite forallb_forall in A. intros p t H. specialize (A (p, t) H). cbn [fst snd] in A. destruct (assoc cv_sig p) as [t'|] eqn:E.
  - apply String.eqb_eq in A. subst. left. apply assoc_in; [apply (sig_nodup GLRCV)|exact E].
  - right. apply orb_true_iff in A. destruct A as [A|A]; apply String.eqb_eq in A; auto.
Qed.
Print Assumptions C95_defaults.

(** A constructor call with two arguments, a failing one, and a clone of a fitted object. *)
Example ex95_nonvacuous :
  known GLR [("min_alpha", "0.1"); ("min_alpha_ratio", "0.01")] /\ ~ known GLR [("min_alfa", "0.1")] /\
  (exists a, construct (fun t => t) GLR [("min_alpha", "0.1"); ("min_alpha_ratio", "0.01")] = Some a /\
     a "min_alpha" = Some "0.1" /\ a "min_alpha_ratio" = Some "0.01" /\ a "l1_ratio" = Some "0" /\ a "coef_" = None /\
     exists b, clone (fun t => t) GLR (setattr a "coef_" "1.5") = Some b /\ b "min_alpha" = Some "0.1" /\ b "coef_" = None) /\
  construct (fun t => t) GLRCV [("alpha", "1")] = None.
Proof.
  split; [|split; [|split]].
  - intros n v H. apply in_names_iff. destruct H as [H|[H|[]]]; inversion H; reflexivity.
  - intros K. specialize (K "min_alfa" "0.1" (or_introl eq_refl)). apply in_names_iff in K. vm_compute in K. discriminate.
  - eexists. split; [vm_compute; reflexivity|]. split; [reflexivity|]. split; [reflexivity|]. split; [reflexivity|]. split; [reflexivity|].
    eexists. split; [vm_compute; reflexivity|]. split; reflexivity.
  - vm_compute. reflexivity.
Qed.
