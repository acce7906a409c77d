(** C110: the front end of fit: which formula, response, intercept and copy of X a call gets. *)
From Coq Require Import List Arith Bool Lia. Import ListNotations.
From Verif Require Import M_Input S_Input.

Lemma term_eqb_eq a b : term_eqb a b = true <-> a = b.
Proof.
  destruct a, b; simpl; split; intro H; try discriminate; try reflexivity.
  - apply Nat.eqb_eq in H; congruence.
  - injection H as ->; apply Nat.eqb_refl.
Qed.
Lemma mem_In t l : existsb (term_eqb t) l = true <-> In t l.
Proof.
  rewrite existsb_exists; split.
  - intros (u & H & E); apply term_eqb_eq in E; now subst.
  - intro H; exists t; split; [easy | now apply term_eqb_eq].
Qed.
Lemma in_add t u l : In t (add u l) <-> t = u \/ In t l.
Proof.
  unfold add; destruct (existsb (term_eqb u) l) eqn:E.
  - apply mem_In in E; split; [auto | intros [ -> | H ]; auto].
  - rewrite in_app_iff; simpl; intuition congruence.
Qed.
Lemma in_remove t u l : In t (remove u l) <-> t <> u /\ In t l.
Proof.
  unfold remove; rewrite filter_In; destruct (term_eqb u t) eqn:E; simpl.
  - apply term_eqb_eq in E; intuition congruence.
  - assert (N : u <> t) by (intro C; apply term_eqb_eq in C; congruence). intuition congruence.
Qed.
Lemma term_dec (a b : term) : {a = b} + {a <> b}.
Proof. destruct (term_eqb a b) eqn:E; [left; now apply term_eqb_eq | right; intro C; apply term_eqb_eq in C; congruence]. Qed.
Lemma says_signed p t b : says p t b <-> (b, t) = signed (fst p) (snd p).
Proof.
  destruct p as [s i]; split.
  - intro H; inversion H; subst; reflexivity.
  - destruct i; simpl; intro H; injection H as -> ->; constructor.
Qed.
Lemma silent_cons t p l : silent_about t (p :: l) <-> (forall b, ~ says p t b) /\ silent_about t l.
Proof.
  unfold silent_about; split.
  - intro H; split; [intro b; apply H; now left | intros q b I; apply H; now right].
  - intros [A B] q b [ <- | I ]; auto.
Qed.
Lemma last_word_cons t p l b : last_word t (p :: l) b <-> last_word t l b \/ silent_about t l /\ says p t b.
Proof.
  split.
  - intros (l1 & q & l2 & E & S1 & S2). destruct l1 as [|a l1]; simpl in E; injection E as -> ->.
    + right; auto.
    + left; exists l1, q, l2; auto.
  - intros [(l1 & q & l2 & -> & S1 & S2) | [S1 S2]].
    + exists (p :: l1), q, l2; auto.
    + exists [], p, l; auto.
Qed.
(** a term is in the sum iff its last mention puts it in, or nothing mentions it and it was there *)
Lemma in_sum t l : forall acc, In t (sum_terms l acc) <-> last_word t l true \/ silent_about t l /\ In t acc.
Proof.
  induction l as [|[s i] l IH]; intro acc; simpl.
  - split; [intro H; right; split; [intros p b [] | easy] | intros [(l1 & p & l2 & E & _) | [_ H]]; [destruct l1; discriminate | easy]].
  - destruct (signed s i) as [s' u] eqn:E. rewrite IH, last_word_cons, silent_cons.
    assert (S0 : forall b v, says (s, i) v b <-> b = s' /\ v = u).
    { intros b v; rewrite says_signed; simpl; rewrite E; split; [intro H; injection H; auto | intros [-> ->]; auto]. }
    destruct s'.
    + rewrite in_add. destruct (term_dec t u) as [-> | N].
      * split; [intros [H | [H _]]; auto; left; right; split; [easy | now apply S0] |].
        intros [[H | [H _]] | [[H _] _]]; auto. exfalso; apply (H true); now apply S0.
      * split.
        { intros [H | [H [A | A]]]; auto; [contradiction|]. right; split; [split; auto; intros b C; apply S0 in C; tauto | easy]. }
        intros [[H | [_ C]] | [[_ H] A]]; auto. apply S0 in C; tauto.
    + rewrite in_remove. destruct (term_dec t u) as [-> | N].
      * split; [intros [H | [_ [C _]]]; auto; congruence |].
        intros [[H | [_ C]] | [[H _] _]]; auto; [apply S0 in C as [C _]; discriminate | exfalso; apply (H false); now apply S0].
      * split.
        { intros [H | [H [_ A]]]; auto. right; split; [split; auto; intros b C; apply S0 in C; tauto | easy]. }
        intros [[H | [_ C]] | [[_ H] A]]; auto. apply S0 in C; tauto.
Qed.
Lemma word_or_silent t l : (exists b, last_word t l b) \/ silent_about t l.
Proof.
  induction l as [|p l [[b IH] | IH]].
  - right; intros p b [].
  - left; exists b; apply last_word_cons; auto.
  - destruct p as [s i]; destruct (signed s i) as [b u] eqn:E; destruct (term_dec t u) as [-> | N].
    + left; exists b; apply last_word_cons; right; split; [easy | apply says_signed; simpl; congruence].
    + right; apply silent_cons; split; [| easy]. intros c C; apply says_signed in C; simpl in C; rewrite E in C; injection C; intros; contradiction.
Qed.
Lemma last_word_one t l b c : last_word t l b -> last_word t l c -> b = c.
Proof.
  induction l as [|p l IH]; [intros (l1 & q & l2 & E & _); destruct l1; discriminate|].
  rewrite !last_word_cons. intros [A | [A S1]] [B | [B S2]]; auto.
  - exfalso; destruct A as (l1 & q & l2 & -> & S1 & _). exact (B q b ltac:(apply in_or_app; right; now left) S1).
  - exfalso; destruct B as (l1 & q & l2 & -> & S2 & _). exact (A q c ltac:(apply in_or_app; right; now left) S2).
  - apply says_signed in S1, S2; rewrite <- S1 in S2; congruence.
Qed.
Lemma not_silent t l b : last_word t l b -> ~ silent_about t l.
Proof. intros (l1 & q & l2 & -> & S1 & _) C. exact (C q b ltac:(apply in_or_app; right; now left) S1). Qed.
(** whether the parsed right-hand side holds the intercept *)
Definition parsed_of (f : formula_arg) (fi : bool) : option parsed :=
  match f with FString w => Some (default_parser fi w) | FFormula g => Some g | FOther => None end.
Lemma has_one f fi g b : parsed_of f fi = Some g -> (existsb (term_eqb One) (f_rhs g) = b <-> asks_intercept f fi b).
Proof.
  destruct f as [w | h |]; simpl; intro E; [| | discriminate]; injection E as <-.
  - unfold default_parser; cbn [f_rhs].
    assert (Q := in_sum One (w_rhs w) (if fi then [One] else [])). rewrite <- mem_In in Q.
    assert (F : In One (if fi then [One] else []) <-> fi = true) by (destruct fi; simpl; intuition congruence).
    rewrite F in Q. destruct (existsb _ _); split.
    + intros <-. destruct Q as [Q _]; destruct (Q eq_refl) as [L | [L ->]]; auto.
    + intros [L | [L ->]].
      * destruct Q as [Q _]; destruct (Q eq_refl) as [M | [M _]]; [exact (last_word_one _ _ _ _ M L) | destruct (not_silent _ _ _ L M)].
      * destruct Q as [Q _]; destruct (Q eq_refl) as [M | [_ M]]; [destruct (not_silent _ _ _ M L) | easy].
    + intros <-. destruct (word_or_silent One (w_rhs w)) as [[[|] L] | L]; auto.
      * destruct Q as [_ Q]; specialize (Q (or_introl L)); discriminate.
      * right; split; auto. destruct fi; [| easy]. destruct Q as [_ Q]; specialize (Q (or_intror (conj L eq_refl))); discriminate.
    + intros [L | [L ->]]; [destruct b | destruct fi]; auto; destruct Q as [_ Q]; apply Q; auto.
  - destruct (existsb _ _) eqn:E.
    + apply mem_In in E; intuition congruence.
    + assert (~ In One (f_rhs h)) by (rewrite <- mem_In; congruence). destruct b; intuition congruence.
Qed.

Lemma frame_dec x : frame x \/ ~ frame x.
Proof. destruct x; [left; eexists; eexists; reflexivity | | |]; right; intros (a & b & C); discriminate. Qed.
(** one unfolding of the front end for each of the two situations *)
Lemma with_formula p x y f : formula_in_force p x f -> set_up_and_check p x y =
  bind (parse_formula f (p_fit_intercept p)) (fun '(lhs, rhs) =>
    match lhs, y with
    | Some _, true => Err EYGiven
    | _, _ => if Bool.eqb (existsb (term_eqb One) rhs) (p_fit_intercept p)
              then match lhs, y with Some l, _ => Ok (mkInput (YFormula l) (Some rhs) None) | None, true => Ok (mkInput YPassed (Some rhs) None) | None, false => Err ENoY end
              else Err EIntercept
    end).
Proof.
  intros [(pa & c & ->) F]. unfold set_up_and_check; rewrite F. destruct (parse_formula _ _) as [[[l|] rhs]|e]; [| | reflexivity];
  destruct y; cbn [bind]; try reflexivity; destruct (Bool.eqb _ _); reflexivity.
Qed.
Definition copies (p : params) (x : xarg) : option bool :=
  option_map (fun c => c || match dt_of x with Some DInteger => true | _ => false end || tabmat_copies x)
    (check_copies (should_copy_X (p_copy_X p)) (p_cd p) (match x with XDense DInteger c => XDense DFloat64 c | XSparse DInteger f => XSparse DFloat64 f | _ => x end)).
Lemma without_formula p x y : no_formula p x -> set_up_and_check p x y =
  if match p_copy_X p with Some false => true | _ => false end && negb (is_contiguous x) && match x with XFrame _ _ => true | _ => false end then Err ENoncontiguous
  else if negb y then Err ENoY
  else if match p_copy_X p with Some false => true | _ => false end && match dt_of x with Some DInteger => true | _ => false end then Err EIntegers
  else Ok (mkInput YPassed None (copies p x)).
Proof.
  intros [N | N]; unfold set_up_and_check; [| rewrite N]; unfold copies.
  - destruct x as [pa c | d c | d f | d]; [exfalso; apply N; eexists; eexists; reflexivity | | |];
    destruct y; destruct (p_copy_X p) as [[|]|]; try destruct d; try destruct c; try destruct pa; reflexivity.
  - destruct x as [pa c | d c | d f | d]; destruct y; destruct (p_copy_X p) as [[|]|]; try destruct d; try destruct c; try destruct pa; reflexivity.
Qed.
Lemma formula_or_not p x : (exists f, formula_in_force p x f) \/ no_formula p x.
Proof.
  destruct (frame_dec x) as [F | F]; [| right; now left]. destruct (p_formula p) as [f|] eqn:E; [left; exists f; now split | right; now right].
Qed.
Lemma not_both p x f : formula_in_force p x f -> no_formula p x -> False.
Proof. intros [F E] [N | N]; [contradiction | congruence]. Qed.
Lemma one_formula p x f g : formula_in_force p x f -> formula_in_force p x g -> f = g.
Proof. intros [_ A] [_ B]; congruence. Qed.
Lemma parse_ok f fi : parse_formula f fi =
  match parsed_of f fi with
  | None => Err EFormulaType
  | Some g => match left_side f with Some [t] => Ok (Some [t], f_rhs g) | Some _ => Err ELhs | None => Ok (None, f_rhs g) end
  end.
Proof.
  destruct f as [w | g |]; simpl; [| | reflexivity]; unfold parse_formula; simpl;
  [destruct (w_lhs w) as [[|? [|? ?]]|] | destruct (f_lhs g) as [[|? [|? ?]]|]]; reflexivity.
Qed.
Lemma left_of f fi g : parsed_of f fi = Some g -> f <> FOther /\ left_side f = f_lhs g.
Proof. destruct f; simpl; intro E; [| | discriminate]; injection E as <-; (split; [discriminate | reflexivity]). Qed.

(** C110: a call passes the front end exactly when the formula (if X is a frame) is a formula with at most one response, the
    response comes from one place, the intercept agrees, and no forbidden copy is needed. *)
Theorem C110_accept p x y : (exists i, set_up_and_check p x y = Ok i) <-> fine p x y.
Proof.
  unfold fine. destruct (formula_or_not p x) as [[f F] | N].
  - rewrite (with_formula p x y f F), parse_ok. split.
    + intros [i H]. left; exists f. destruct (parsed_of f (p_fit_intercept p)) as [g|] eqn:G; [| discriminate].
      destruct (left_of _ _ _ G) as [NO L]. split; [exact F | split; [exact NO |]].
      destruct (left_side f) as [[|t [|? ?]]|] eqn:LS; try discriminate; cbn [bind] in H.
      * destruct y; [discriminate|]. destruct (Bool.eqb _ _) eqn:B; [| discriminate]. apply Bool.eqb_prop in B.
        split; [right; split; [now exists t | reflexivity] | exact (proj1 (has_one _ _ _ _ G) B)].
      * destruct (Bool.eqb _ _) eqn:B; [| destruct y; discriminate]. apply Bool.eqb_prop in B.
        destruct y; [| discriminate]. split; [now left | exact (proj1 (has_one _ _ _ _ G) B)].
    + intros [(f' & F' & NO & L & A) | [N _]]; [| destruct (not_both _ _ _ F N)].
      rewrite (one_formula _ _ _ _ F' F) in *. destruct (parsed_of f (p_fit_intercept p)) as [g|] eqn:G; [| destruct f; [discriminate | discriminate | congruence]].
      apply (has_one _ _ _ _ G) in A. destruct L as [[-> ->] | [[t ->] ->]]; cbn [bind]; rewrite A, Bool.eqb_reflx; eexists; reflexivity.
  - rewrite (without_formula p x y N). split.
    + intros [i H]. right; split; [exact N|]. destruct y; [split; [reflexivity|] | exfalso; revert H; destruct (_ && _ && _); discriminate].
      intro C; rewrite C in H; split; intro D.
      * unfold scattered in D; subst x; discriminate.
      * destruct x as [? ? | d c | d f | d]; [contradiction | | |]; simpl in D; subst d; cbn in H; try rewrite andb_false_r in H; discriminate.
    + intros [(f & F & _) | [_ [-> C]]]; [destruct (not_both _ _ _ F N)|]. cbn [negb].
      destruct (p_copy_X p) as [[|]|]; try (eexists; reflexivity). destruct (C eq_refl) as [C1 C2].
      destruct x as [[|] [|] | [| | |] [|] | [| | |] f | [| | |]]; simpl in C2; try (eexists; reflexivity); exfalso; auto; apply C1; reflexivity.
Qed.
(** ... and a refusal says why. *)
Theorem C110_refusal p x y e : set_up_and_check p x y = Err e -> blame p x y e.
Proof.
  destruct (formula_or_not p x) as [[f F] | N].
  - rewrite (with_formula p x y f F), parse_ok. destruct (parsed_of f (p_fit_intercept p)) as [g|] eqn:G.
    + destruct (left_of _ _ _ G) as [NO L]. destruct (left_side f) as [[|t [|u l]]|] eqn:LS; cbn [bind].
      * intro H; injection H as <-. exists f, []; split; [exact F | split; [exact LS | simpl; lia]].
      * destruct y; [intro H; injection H as <-; split; [reflexivity | exists f, [t]; now split]|].
        destruct (Bool.eqb _ _) eqn:B; [discriminate|]. intro H; injection H as <-. exists f; split; [exact F|].
        apply (has_one _ _ _ _ G). apply Bool.eqb_false_iff in B. destruct (existsb _ _), (p_fit_intercept p); simpl; congruence.
      * intro H; injection H as <-. exists f, (t :: u :: l); split; [exact F | split; [exact LS | simpl; lia]].
      * destruct (Bool.eqb _ _) eqn:B.
        { destruct y; [discriminate|]. intro H; injection H as <-. split; [reflexivity | right; exists f; now split]. }
        intro H. assert (E : e = EIntercept) by (destruct y; congruence). subst e. exists f; split; [exact F|].
        apply (has_one _ _ _ _ G). apply Bool.eqb_false_iff in B. destruct (existsb _ _), (p_fit_intercept p); simpl; congruence.
    + intro H; injection H as <-. destruct f; try discriminate. exact F.
  - rewrite (without_formula p x y N).
    destruct (p_copy_X p) as [[|]|] eqn:C; cbn [andb];
    [destruct y; cbn [negb]; [discriminate | intro H; injection H as <-; split; [reflexivity | now left]] |
    | destruct y; cbn [negb]; [discriminate | intro H; injection H as <-; split; [reflexivity | now left]]].
    destruct x as [[|] [|] | d c | d f | d]; cbn [is_contiguous negb andb dt_of];
    [ | intro H; injection H as <-; repeat split; assumption | | | | | ];
    rewrite ?andb_false_r; (destruct y; cbn [negb]; [| intro H; injection H as <-; split; [reflexivity | now left]]); try discriminate;
    destruct d; try discriminate; intro H; injection H as <-; split; (reflexivity || assumption).
Qed.
(** the intercept of an accepted formula fit is the fit_intercept of the constructor; every other term is decided by its last mention *)
Theorem C110_terms p x y i f : set_up_and_check p x y = Ok i -> formula_in_force p x f ->
  exists ts, i_terms i = Some ts /\ (In One ts <-> p_fit_intercept p = true) /\
    match f with
    | FString w => forall n, In (V n) ts <-> last_word (V n) (w_rhs w) true
    | FFormula g => ts = f_rhs g
    | FOther => False
    end.
Proof.
  intros H F. rewrite (with_formula p x y f F), parse_ok in H.
  destruct (parsed_of f (p_fit_intercept p)) as [g|] eqn:G; [| discriminate].
  assert (Q : i_terms i = Some (f_rhs g) /\ existsb (term_eqb One) (f_rhs g) = p_fit_intercept p).
  { destruct (left_side f) as [[|t [|? ?]]|] eqn:LS; try discriminate; cbn [bind] in H.
    - destruct y; [discriminate|]. destruct (Bool.eqb _ _) eqn:B; [| discriminate]. apply Bool.eqb_prop in B. injection H as <-; auto.
    - destruct (Bool.eqb _ _) eqn:B; [| destruct y; discriminate]. apply Bool.eqb_prop in B. destruct y; [injection H as <-; auto | discriminate]. }
  destruct Q as [Q B]. exists (f_rhs g); split; [exact Q | split; [rewrite <- mem_In, B; tauto|]].
  destruct f as [w | h |]; [| injection G as ->; reflexivity | discriminate].
  injection G as <-. intro n. unfold default_parser; cbn [f_rhs]. rewrite in_sum. split; [intros [L | [_ L]]; [easy | destruct (p_fit_intercept p); simpl in L; [destruct L as [L | []]; discriminate | contradiction]] | auto].
Qed.
(** a string that does not mention the constant is read with whatever fit_intercept says: it is never refused for its intercept *)
Theorem C110_silent_string p x y w : silent_about One (w_rhs w) -> p_formula p = Some (FString w) -> set_up_and_check p x y <> Err EIntercept.
Proof.
  intros S1 E H. apply C110_refusal in H. destruct H as (f & [_ F] & A). rewrite E in F; injection F as <-.
  destruct A as [L | [_ C]]; [exact (not_silent _ _ _ L S1) | destruct (p_fit_intercept p); discriminate].
Qed.
(** the response comes from the left-hand side exactly when X is a frame and the formula has one; otherwise it is the y passed *)
Theorem C110_response p x y i : set_up_and_check p x y = Ok i ->
  (forall l, i_y i = YFormula l <-> exists f, formula_in_force p x f /\ left_side f = Some l) /\ (i_y i = YPassed <-> y = true).
Proof.
  intros H. destruct (formula_or_not p x) as [[f F] | N].
  - pose proof H as H'. rewrite (with_formula p x y f F), parse_ok in H'.
    destruct (parsed_of f (p_fit_intercept p)) as [g|] eqn:G; [| discriminate].
    assert (U : forall l, (exists f, formula_in_force p x f /\ left_side f = Some l) <-> left_side f = Some l).
    { intro l; split; [intros (f' & F' & L); now rewrite (one_formula _ _ _ _ F F') | intro L; exists f; now split]. }
    destruct (left_side f) as [[|t [|? ?]]|] eqn:LS; try discriminate; cbn [bind] in H'.
    + destruct y; [discriminate|]. destruct (Bool.eqb _ _); [| discriminate]. injection H' as <-; cbn [i_y].
      split; [intro l; rewrite U; split; intro E; congruence | split; discriminate].
    + destruct (Bool.eqb _ _); [| destruct y; discriminate]. destruct y; [injection H' as <- | discriminate]; cbn [i_y].
      split; [intro l; rewrite U; split; discriminate | tauto].
  - pose proof H as H'. rewrite (without_formula p x y N) in H'. destruct (_ && _ && _); [discriminate|].
    destruct y; cbn [negb] in H'; [| discriminate]. destruct (_ && _); [discriminate|]. injection H' as <-; cbn [i_y].
    split; [| tauto]. intro l; split; [discriminate | intros (f & F & _); destruct (not_both _ _ _ F N)].
Qed.
(** a float array (dense or CSC) is copied iff copy_X is True; an integer array is always copied or refused *)
Theorem C110_copy p x y i : set_up_and_check p x y = Ok i -> floats x ->
  (match x with XSparse _ f => f = Csc | XTabmat _ => False | _ => True end) ->
  (i_copied i = Some true <-> p_copy_X p = Some true) /\ (i_copied i = Some false <-> p_copy_X p <> Some true).
Proof.
  intros H Fl A. assert (N : no_formula p x) by (left; intros (a & b & ->); contradiction).
  rewrite (without_formula p x y N) in H.
  destruct (_ && _ && _); [discriminate|]. destruct (negb y); [discriminate|]. destruct (_ && _); [discriminate|]. injection H as <-. cbn [i_copied].
  destruct x as [? ? | d c | d f | d]; [contradiction | | | contradiction]; simpl in Fl.
  - destruct Fl as [-> | ->]; cbn; destruct (p_copy_X p) as [[|]|]; cbn; split; split; congruence.
  - subst f. destruct Fl as [-> | ->]; cbn; destruct (p_copy_X p) as [[|]|]; cbn; split; split; congruence.
Qed.
Theorem C110_integers p x y i : set_up_and_check p x y = Ok i -> integers x -> (forall d, x <> XTabmat d) ->
  p_copy_X p <> Some false /\ i_copied i = Some true.
Proof.
  intros H In_ T. assert (N : no_formula p x) by (left; intros (a & b & ->); contradiction).
  rewrite (without_formula p x y N) in H.
  destruct (_ && _ && _); [discriminate|]. destruct (negb y); [discriminate|].
  destruct x as [? ? | d c | d f | d]; [contradiction | | | destruct (T d eq_refl)]; simpl in In_; subst d; cbn [dt_of] in H;
  (destruct (p_copy_X p) as [[|]|] eqn:C; cbn [andb] in H; [| discriminate |]); injection H as <-; cbn [i_copied]; (split; [congruence|]);
  unfold copies; cbn; rewrite ?orb_true_r; reflexivity.
Qed.
(** "copy_X=False: X is not copied" fails: bool, half-precision and object arrays and CSR and COO matrices are copied silently *)
Theorem C110_copy_refuted p x i : p_copy_X p = Some false -> set_up_and_check p x true = Ok i ->
  (i_copied i = Some true <->
   match x with
   | XDense d _ => d = DOther
   | XSparse d f => d = DOther \/ f <> Csc
   | _ => False
   end).
Proof.
  intros C H. destruct (formula_or_not p x) as [[f F] | N].
  - rewrite (with_formula p x true f F), parse_ok in H.
    assert (i_copied i = None).
    { destruct (parsed_of f (p_fit_intercept p)) as [g|] eqn:G; [| discriminate].
      destruct (left_side f) as [[|t [|? ?]]|] eqn:LS; try discriminate; cbn [bind] in H.
      destruct (Bool.eqb _ _); [| discriminate]. injection H as <-; reflexivity. }
    destruct F as [(a & b & ->) _]. rewrite H0; split; [discriminate | intros []].
  - rewrite (without_formula p x true N), C in H. cbn [negb andb] in H.
    destruct x as [pa c | d c | d f | d]; cbn [dt_of is_contiguous] in H.
    + destruct (_ && _); [discriminate|]. injection H as <-. unfold copies; simpl. split; [discriminate | intros []].
    + rewrite andb_false_r in H. destruct d; try discriminate; injection H as <-; cbn [i_copied]; unfold copies; rewrite C; cbn; split; congruence.
    + cbn [negb andb] in H. destruct d; try discriminate; injection H as <-; cbn [i_copied]; unfold copies; rewrite C; cbn;
      destruct f, (p_cd p); cbn; split; intro D; try discriminate; try reflexivity; auto; try (right; discriminate); destruct D as [D | D]; congruence.
    + cbn [negb andb] in H. destruct d; try discriminate; injection H as <-; unfold copies; cbn; split; (discriminate || intros []).
Qed.
(** a formula given with an array X is ignored: the call behaves as if there were none *)
Theorem C110_formula_ignored p f x y : ~ frame x ->
  set_up_and_check (mkParams (Some f) (p_fit_intercept p) (p_copy_X p) (p_cd p)) x y
  = set_up_and_check (mkParams None (p_fit_intercept p) (p_copy_X p) (p_cd p)) x y.
Proof. intro N. rewrite !without_formula by (left; exact N). reflexivity. Qed.

(** ** Histories *)
Lemma run_app e a b : run e (a ++ b) = run (run e a) b.
Proof. apply fold_left_app. Qed.
Lemma front_params e x y : e_params (fst (fit_front e x y)) = e_params e.
Proof.
  unfold fit_front; destruct x; try reflexivity. destruct (p_formula _); [| reflexivity].
  destruct (parse_formula _ _) as [[[?|] ?]|?]; [destruct y | |]; reflexivity.
Qed.
Lemma run_params a : forall e, e_params (run e a) = params_after (e_params e) a.
Proof. induction a as [|[x y | q] a IH]; intro e; simpl; [reflexivity | unfold run in *; simpl; rewrite IH, front_params; reflexivity | unfold run in *; simpl; rewrite IH; reflexivity]. Qed.
Lemma params_app a : forall p b, params_after p (a ++ b) = params_after (params_after p a) b.
Proof. induction a as [|[x y | q] a IH]; intros p b; simpl; auto. Qed.
(** what one call does to the two specs *)
Lemma step_y e o : (exists l, read_response (e_params e) o l /\ e_yspec (step e o) = Some l) \/
  ((forall l, ~ read_response (e_params e) o l) /\ e_yspec (step e o) = e_yspec e).
Proof.
  destruct o as [x y | q]; [| right; split; [intros l (x & f & t & C & _); discriminate | reflexivity]].
  destruct (formula_or_not (e_params e) x) as [[f F] | N].
  - pose proof F as [(pa & c & ->) E]. simpl. unfold fit_front. rewrite E, parse_ok.
    assert (Z : forall l, read_response (e_params e) (OFit (XFrame pa c) y) l -> y = false /\ exists t, left_side f = Some [t] /\ l = [t]).
    { intros l (x' & f' & t & C & F' & L & El). injection C as <- ->. rewrite (one_formula _ _ _ _ F' F) in L. split; [easy | exists t; easy]. }
    destruct (parsed_of f _) as [g|] eqn:G.
    + destruct (left_side f) as [[|t [|? ?]]|] eqn:LS.
      * right; split; [intros l R0; apply Z in R0 as (_ & t & R1 & _); discriminate | reflexivity].
      * destruct y; [right; split; [intros l R0; apply Z in R0 as [R0 _]; discriminate | reflexivity]|].
        left; exists [t]; split; [exists (XFrame pa c), f, t; auto | reflexivity].
      * right; split; [intros l' R0; apply Z in R0 as (_ & t' & R1 & _); discriminate | reflexivity].
      * right; split; [intros l R0; apply Z in R0 as (_ & t & R1 & _); discriminate | reflexivity].
    + right; split; [| reflexivity]. intros l R0; apply Z in R0 as (_ & t & R1 & _). destruct f; discriminate.
  - right; split; [intros l (x' & f' & t & C & F' & _); injection C as <- ->; exact (not_both _ _ _ F' N)|].
    simpl. unfold fit_front. destruct x as [pa c | | |]; try reflexivity.
    destruct N as [N | N]; [destruct N; eexists; eexists; reflexivity | rewrite N; reflexivity].
Qed.
Lemma parsed_terms_of f fi g l : parsed_of f fi = Some g -> (parsed_terms f fi l <-> l = f_rhs g).
Proof. destruct f; simpl; intro E; [| | discriminate]; injection E as <-; tauto. Qed.
Lemma step_x e o : (exists l, read_design (e_params e) o l /\ e_xspec (step e o) = Some l) \/
  ((forall l, ~ read_design (e_params e) o l) /\ e_xspec (step e o) = e_xspec e).
Proof.
  destruct o as [x y | q]; [| right; split; [intros l (x & y & f & C & _); discriminate | reflexivity]].
  destruct (formula_or_not (e_params e) x) as [[f F] | N].
  - pose proof F as [(pa & c & ->) E]. simpl. unfold fit_front. rewrite E, parse_ok.
    assert (Z : forall l, read_design (e_params e) (OFit (XFrame pa c) y) l ->
      (left_side f = None \/ (exists t, left_side f = Some [t]) /\ y = false) /\ asks_intercept f (p_fit_intercept (e_params e)) (p_fit_intercept (e_params e)) /\ f <> FOther).
    { intros l (x' & y' & f' & C & F' & L & A & P). injection C as <- <-. rewrite (one_formula _ _ _ _ F' F) in *. split; [exact L | split; [exact A|]]. intros ->; exact P. }
    destruct (parsed_of f _) as [g|] eqn:G.
    + assert (W : forall l, read_design (e_params e) (OFit (XFrame pa c) y) l <->
         (left_side f = None \/ (exists t, left_side f = Some [t]) /\ y = false) /\ existsb (term_eqb One) (f_rhs g) = p_fit_intercept (e_params e) /\ l = f_rhs g).
      { intro l; split.
        - intros (x' & y' & f' & C & F' & L & A & P). injection C as <- <-. rewrite (one_formula _ _ _ _ F' F) in *.
          split; [exact L | split; [now apply (has_one _ _ _ _ G) | now apply (parsed_terms_of _ _ _ _ G)]].
        - intros (L & B & ->). exists (XFrame pa c), y, f. split; [reflexivity | split; [exact F | split; [exact L | split]]];
          [now apply (has_one _ _ _ _ G) | now apply (parsed_terms_of _ _ _ _ G)]. }
      destruct (left_side f) as [[|t [|? ?]]|] eqn:LS.
      * right; split; [intros l R0; apply W in R0 as ([R0 | [[t R0] _]] & _); discriminate | reflexivity].
      * destruct y; [right; split; [intros l R0; apply W in R0 as ([R0 | [_ R0]] & _); discriminate | reflexivity]|].
        cbn [fst e_xspec]. destruct (Bool.eqb _ _) eqn:B.
        { apply Bool.eqb_prop in B. left; exists (f_rhs g); split; [apply W; split; [right; split; [now exists t | reflexivity] | auto] | reflexivity]. }
        right; split; [| reflexivity]. intros l R0; apply W in R0 as (_ & R0 & _). apply Bool.eqb_false_iff in B; contradiction.
      * right; split; [intros l' R0; apply W in R0 as ([R0 | [[t' R0] _]] & _); discriminate | reflexivity].
      * cbn [fst e_xspec]. destruct (Bool.eqb _ _) eqn:B.
        { apply Bool.eqb_prop in B. left; exists (f_rhs g); split; [apply W; auto | reflexivity]. }
        right; split; [| reflexivity]. intros l R0; apply W in R0 as (_ & R0 & _). apply Bool.eqb_false_iff in B; contradiction.
    + right; split; [| reflexivity]. intros l R0; apply Z in R0 as (_ & _ & R0). destruct f; [discriminate | discriminate | congruence].
  - right; split; [intros l (x' & y' & f' & C & F' & _); injection C as <- <-; exact (not_both _ _ _ F' N)|].
    simpl. unfold fit_front. destruct x as [pa c | | |]; try reflexivity.
    destruct N as [N | N]; [destruct N; eexists; eexists; reflexivity | rewrite N; reflexivity].
Qed.
(** a field that every call either sets to what it read or leaves alone holds what the last such call read *)
Lemma history (Q : params -> op -> list term -> Prop) (get : est -> option (list term)) p h :
  (forall q o l l', Q q o l -> Q q o l' -> l = l') ->
  (forall e o, (exists l, Q (e_params e) o l /\ get (step e o) = Some l) \/ ((forall l, ~ Q (e_params e) o l) /\ get (step e o) = get e)) ->
  get (mkEst p None None) = None ->
  forall l, get (run (mkEst p None None) h) = Some l <-> last_such Q p h l.
Proof.
  intros QD ST G0. set (e := mkEst p None None) in *.
  induction h as [|o h IH] using rev_ind.
  - intro l; simpl. rewrite G0. split; [discriminate | intros (a & o & b & E & _); destruct a; discriminate].
  - intro l. rewrite run_app. change (run (run e h) [o]) with (step (run e h) o).
    destruct (ST (run e h) o) as [(l0 & R0 & ->) | [R0 ->]]; rewrite run_params in R0; cbn [e_params e] in R0.
    + split.
      * intro E; injection E as ->. exists h, o, []; split; [reflexivity | split; [exact R0|]]. intros b1 o' b2 l' C; destruct b1; discriminate.
      * intros (a & o' & b & E & R1 & NL). destruct b as [|z b] using rev_ind.
        { apply app_inj_tail in E as [-> ->]. f_equal; exact (QD _ _ _ _ R0 R1). }
        clear IHb. rewrite app_comm_cons, app_assoc in E. apply app_inj_tail in E as [-> ->].
        exfalso; exact (NL b z [] l0 eq_refl R0).
    + rewrite IH. split.
      * intros (a & o' & b & -> & R1 & NL). exists a, o', (b ++ [o]). split; [now rewrite <- app_assoc | split; [exact R1|]].
        intros b1 z b2 l' E. destruct b2 as [|w b2] using rev_ind.
        { apply app_inj_tail in E as [-> ->]. apply R0. }
        clear IHb2. rewrite app_comm_cons, app_assoc in E. apply app_inj_tail in E as [-> ->]. exact (NL b1 z b2 l' eq_refl).
      * intros (a & o' & b & E & R1 & NL). destruct b as [|z b] using rev_ind.
        { apply app_inj_tail in E as [-> ->]. destruct (R0 _ R1). }
        clear IHb. rewrite app_comm_cons, app_assoc in E. apply app_inj_tail in E as [-> ->].
        exists a, o', b; split; [reflexivity | split; [exact R1|]]. intros b1 w b2 l' ->. apply (NL b1 w (b2 ++ [z]) l'). now rewrite <- app_assoc.
Qed.
Lemma response_one q o l l' : read_response q o l -> read_response q o l' -> l = l'.
Proof.
  intros (? & f & t & E1 & F & L & ->) (? & f' & t' & E2 & F' & L' & ->). rewrite E1 in E2; injection E2 as <-.
  rewrite (one_formula _ _ _ _ F F') in L. congruence.
Qed.
Lemma design_one q o l l' : read_design q o l -> read_design q o l' -> l = l'.
Proof.
  intros (? & ? & f & E1 & F & _ & _ & P) (? & ? & f' & E2 & F' & _ & _ & P'). rewrite E1 in E2; injection E2 as <- <-.
  rewrite (one_formula _ _ _ _ F F') in P. destruct f'; simpl in *; [congruence | congruence | contradiction].
Qed.
(** C110: the response covariance_matrix(X, y) works with, after any history of fits and set_params: the left-hand side of the
    last two-sided formula that a fit without y read - whether that fit succeeded or not, whatever has been fitted or set since
    with other formulas, and whatever y is passed - and the y passed only if there was none. *)
Theorem C110_covariance_response p h :
  (forall l, covariance_y (run (mkEst p None None) h) = YFormula l <-> last_such read_response p h l) /\
  (covariance_y (run (mkEst p None None) h) = YPassed <-> forall l, ~ last_such read_response p h l).
Proof.
  pose proof (history read_response e_yspec p h response_one step_y eq_refl) as A.
  unfold covariance_y. destruct (e_yspec (run (mkEst p None None) h)) as [l0|].
  - split; [intro l; rewrite <- A; split; intro E; congruence | split; [discriminate | intro C; destruct (C l0); now apply A]].
  - split; [intro l; rewrite <- A; split; discriminate | split; [intros _ l C; apply A in C; discriminate | reflexivity]].
Qed.
(** C110: and the terms a data frame is expanded into by predict, score and covariance_matrix: those of the last call of fit that read
    a formula, even if that call was then refused for want of y and the coefficients are of an earlier fit. *)
Theorem C110_frame_terms p h l : frame_terms (run (mkEst p None None) h) = Some l <-> last_such read_design p h l.
Proof. exact (history read_design e_xspec p h design_one step_x eq_refl l). Qed.
(** every accepted formula fit is such a call, and what it read is what it was fitted with *)
Theorem C110_fitted_terms p h x y i f : formula_in_force (params_after p h) x f -> set_up_and_check (params_after p h) x y = Ok i ->
  frame_terms (run (mkEst p None None) (h ++ [OFit x y])) = i_terms i.
Proof.
  intros F H. rewrite run_app. change (run ?e [?o]) with (step e o). set (e := run (mkEst p None None) h).
  assert (P : e_params e = params_after p h) by apply run_params.
  simpl. unfold fit_front, frame_terms. rewrite P. pose proof F as [(pa & c & Ex) E]. rewrite Ex at 1. rewrite E.
  rewrite (with_formula _ _ _ _ F) in H.
  destruct (parse_formula f _) as [[[l|] rhs]|]; [| | discriminate]; cbn [bind] in H.
  - destruct y; [discriminate|]. cbn [fst e_xspec]. destruct (Bool.eqb _ _); [injection H as <-; reflexivity | discriminate].
  - cbn [fst e_xspec]. destruct (Bool.eqb _ _); [| destruct y; discriminate]. destruct y; [injection H as <-; reflexivity | discriminate].
Qed.

(** ** Non-vacuity *)
(** "y ~ x0 + x1 - x0", fit_intercept=True: accepted, terms 1 and x1, response from the formula *)
Definition ex110_f := FString (mkWritten (Some [V 9]) [(true, IV 0); (true, IV 1); (false, IV 0)]).
Definition ex110_p := mkParams (Some ex110_f) true None false.
Example ex110_accept : set_up_and_check ex110_p (XFrame true true) false = Ok (mkInput (YFormula [V 9]) (Some [One; V 1]) None).
Proof. reflexivity. Qed.
(** the string "x0 - 1" contradicts fit_intercept=True, "x0 - 1 + 1" does not *)
Example ex110_minus : set_up_and_check (mkParams (Some (FString (mkWritten None [(true, IV 0); (false, I1)]))) true None false) (XFrame true true) true = Err EIntercept
  /\ (exists i, set_up_and_check (mkParams (Some (FString (mkWritten None [(true, IV 0); (false, I1); (true, I1)]))) true None false) (XFrame true true) true = Ok i).
Proof. split; [reflexivity | eexists; reflexivity]. Qed.
(** a two-sided fit, then set_params(formula=None) and a fit to an array with its own y: covariance_matrix(X, y) still goes by the formula *)
Example ex110_stale : covariance_y (run (mkEst ex110_p None None) [OFit (XFrame true true) false; OSet (mkParams None true None false); OFit (XFrame true true) true]) = YFormula [V 9].
Proof. reflexivity. Qed.
(** a refused fit leaves its response behind too *)
Example ex110_failed : let p := mkParams (Some (FString (mkWritten (Some [V 9]) [(true, IV 0); (false, I1)]))) true None false in
  snd (fit_front (mkEst p None None) (XFrame true true) false) = Err EIntercept /\ covariance_y (fst (fit_front (mkEst p None None) (XFrame true true) false)) = YFormula [V 9].
Proof. split; reflexivity. Qed.
(** a model fitted with "x0" and then asked to fit "x1" without y: refused, but frames are expanded into the new term from then on *)
Example ex110_orphan : let p t := mkParams (Some (FString (mkWritten None [(true, IV t)]))) true None false in
  let e := run (mkEst (p 0) None None) [OFit (XFrame true true) true; OSet (p 1)] in
  snd (fit_front e (XFrame true true) false) = Err ENoY /\ frame_terms e = Some [One; V 0] /\
  frame_terms (fst (fit_front e (XFrame true true) false)) = Some [One; V 1].
Proof. repeat split; reflexivity. Qed.
(** a boolean array with copy_X=False *)
Example ex110_bool : exists i, set_up_and_check (mkParams None true (Some false) false) (XDense DOther true) true = Ok i /\ i_copied i = Some true.
Proof. eexists; split; reflexivity. Qed.

Print Assumptions C110_accept.
Print Assumptions C110_refusal.
Print Assumptions C110_terms.
Print Assumptions C110_silent_string.
Print Assumptions C110_response.
Print Assumptions C110_copy.
Print Assumptions C110_integers.
Print Assumptions C110_copy_refuted.
Print Assumptions C110_formula_ignored.
Print Assumptions C110_covariance_response.
Print Assumptions C110_frame_terms.
Print Assumptions C110_fitted_terms.
