(** C92: what fit and predict accept as design matrix and target, and that validation changes nothing. *)
From Coq Require Import List String Bool PeanoNat Lia. Import ListNotations.
From Coq Require Import Reals.
From Verif Require Import M_Float M_Matrix S_Matrix L_Matrix.

Lemma kw_accepts b f m : check_mat (mkKw b f 1) m <> None <-> acceptable f m.
Proof. apply (check_accepts_gen m (mkKw b f 1) false eq_refl). Qed.
Lemma f64_content m : same_content m (to_f64 m).
Proof. destruct m; repeat split. Qed.
Lemma f64_ok f m : acceptable f (to_f64 m) <-> acceptable f m.
Proof.
  unfold acceptable, block_ok. destruct m; cbn [to_f64 leaves]; try tauto; split; intros H ib [<-|[]];
  (split; [cbn; discriminate|]; intros a0 E; cbn in E; injection E as <-; pose proof (proj2 (H _ (or_introl eq_refl)) _ eq_refl) as Q; exact Q).
Qed.
Lemma content_trans m1 m2 m3 : same_content m1 m2 -> same_content m2 m3 -> same_content m1 m3.
Proof. intros (A & B & C & D) (A' & B' & C' & D'). repeat split; intros; congruence. Qed.
Lemma y_spec y n : (exists v, check_y y = Some v /\ List.length v = n) <-> exists v, y_values y n v.
Proof.
  assert (F : forall v, forallb is_fin v = true <-> forall t, In t v -> exists x, t = Fin x).
  { intros v. rewrite forallb_forall. split; intros H t Ht; specialize (H t Ht); [destruct t; try discriminate; eexists; reflexivity|destruct H as [x ->]; reflexivity]. }
  unfold y_values. split.
  - intros [v [E L]]. destruct y as [|w|c w]; cbn in E; [discriminate| |].
    + destruct (forallb is_fin w) eqn:EF; [|discriminate]. injection E as ->. exists v. split; [left; reflexivity|]. split; [exact L|apply F, EF].
    + destruct (Nat.eqb_spec c 1) as [->|]; [|discriminate]. destruct (forallb is_fin w) eqn:EF; [|discriminate]. injection E as ->.
      exists v. split; [right; reflexivity|]. split; [exact L|apply F, EF].
  - intros [v [[->| ->] [L H]]]; exists v; (split; [|exact L]); cbn; rewrite (proj2 (F v) H); reflexivity.
Qed.
Lemma y_value y v : check_y y = Some v -> y_values y (List.length v) v.
Proof.
  intros E. destruct y as [|w|c w]; cbn in E; [discriminate| |].
  - destruct (forallb is_fin w) eqn:EF; [|discriminate]. injection E as ->. split; [left; reflexivity|]. split; [reflexivity|].
    intros t Ht. rewrite forallb_forall in EF. specialize (EF t Ht). destruct t; try discriminate. eexists; reflexivity.
  - destruct (Nat.eqb_spec c 1) as [->|]; [|discriminate]. destruct (forallb is_fin w) eqn:EF; [|discriminate]. injection E as ->.
    split; [right; reflexivity|]. split; [reflexivity|].
    intros t Ht. rewrite forallb_forall in EF. specialize (EF t Ht). destruct t; try discriminate. eexists; reflexivity.
Qed.

Lemma int_matrix X : int_block X = true <-> integer_matrix X.
Proof. destruct X as [a|a nm tm|a nm tm|n p c nm tm|bs idx|m sh mu]; cbn; try (destruct (a_dt a); split; congruence); split; (discriminate || tauto). Qed.
(** Exactly what fit accepts: a target of finite values, one per row; every dense or sparse block with at least one
    row, at least one column unless inside a split matrix, finite entries if force_all_finite; no standardized block;
    and integers only if copying is allowed.  For every nesting of blocks. *)
Theorem C92_fit_accepts : forall copy_X finite X y,
  fit_validate copy_X finite X y <> None <->
  (integer_matrix X -> copy_X <> Some false) /\ acceptable finite X /\ exists v, y_values y (nrows X) v.
Proof.
  intros c f X y. rewrite <- int_matrix. unfold fit_validate. transitivity
    (match convert_int c X with None => False | Some X => check_X_y (mkKw true f 1) X y <> None end).
  { destruct y; [cbn; destruct (convert_int c X); cbn; split; try congruence; try tauto| |];
      (destruct (convert_int c X) as [X1|]; [destruct (check_X_y (mkKw true f 1) X1 _) as [[? ?]|]; split; congruence|split; congruence]). }
  assert (Q : forall X1, nrows X1 = nrows X -> (acceptable f X1 <-> acceptable f X) ->
     (check_X_y (mkKw true f 1) X1 y <> None <-> acceptable f X /\ exists v, y_values y (nrows X) v)).
  { intros X1 EN EA. unfold check_X_y. rewrite <- (y_spec y (nrows X)), <- EA, <- (kw_accepts true f X1). rewrite <- EN. split.
    - intros H. destruct (check_y y) as [v|]; [|congruence]. destruct (Nat.eqb_spec (nrows X1) (List.length v)) as [E|]; [|congruence].
      destruct (check_mat (mkKw true f 1) X1); [|congruence]. split; [discriminate|]. exists v. split; [reflexivity|symmetry; exact E].
    - intros [H [v [-> L]]]. rewrite L, Nat.eqb_refl. destruct (check_mat (mkKw true f 1) X1); [discriminate|congruence]. }
  unfold convert_int. destruct (int_block X).
  - destruct c as [[|]|].
    + rewrite Q; [|symmetry; apply (f64_content X)|apply f64_ok]. split; [intros H; split; [discriminate|exact H]|intros [_ H]; exact H].
    + split; [tauto|]. intros [H _]. apply (H eq_refl). reflexivity.
    + rewrite Q; [|symmetry; apply (f64_content X)|apply f64_ok]. split; [intros H; split; [discriminate|exact H]|intros [_ H]; exact H].
  - rewrite Q; [|reflexivity|tauto]. split; [intros H; split; [discriminate|exact H]|intros [_ H]; exact H].
Qed.
Print Assumptions C92_fit_accepts.

(** Validation hands on the matrix with the same shape, entries, column names and term names, the values of y, and the
    number of columns; after it no block holds integers. *)
Theorem C92_fit_content : forall copy_X finite X y X' v p, fit_validate copy_X finite X y = Some (X', v, p) ->
  same_content X X' /\ p = ncols X /\ y_values y (nrows X) v /\
  forall ins b a, In (ins, b) (leaves false X') -> block_arr b = Some a -> a_dt a <> I64.
Proof.
  intros c f X y X' v p E. unfold fit_validate in E.
  assert (E1 : exists X1, convert_int c X = Some X1 /\ check_X_y (mkKw true f 1) X1 y = Some (X', v) /\ p = ncols X').
  { destruct y; [discriminate| |]; (destruct (convert_int c X) as [X1|]; [|discriminate]; exists X1; split; [reflexivity|];
      destruct (check_X_y (mkKw true f 1) X1 _) as [[X2 v2]|]; [|discriminate]; injection E as <- <- <-; split; reflexivity). }
  clear E. destruct E1 as (X1 & C1 & E & ->).
  assert (S1 : same_content X X1).
  { unfold convert_int in C1. destruct (int_block X); [|injection C1 as <-; repeat split]. destruct c as [[|]|]; try discriminate; injection C1 as <-; apply f64_content. }
  unfold check_X_y in E. destruct (check_y y) as [w|] eqn:EY; [|discriminate]. destruct (Nat.eqb_spec (nrows X1) (List.length w)) as [EN|]; [|discriminate].
  destruct (check_mat (mkKw true f 1) X1) as [X2|] eqn:EM; [|discriminate]. injection E as <- <-.
  pose proof (check_content _ _ _ EM) as S2. pose proof (content_trans _ _ _ S1 S2) as S3.
  split; [exact S3|]. split; [symmetry; apply S3|]. split.
  - destruct S1 as [EN' _]. rewrite EN', EN. apply y_value, EY.
  - intros ins b a Hin Hb. rewrite (check_leaves _ _ false _ EM) in Hin. apply in_map_iff in Hin. destruct Hin as [[ins0 b0] [EQ _]].
    unfold conv_block in EQ. cbn [fst snd] in EQ. injection EQ as <- <-. destruct b0; cbn in Hb; try discriminate; injection Hb as <-; cbn; destruct (a_dt _); discriminate.
Qed.
Print Assumptions C92_fit_content.

(** Validating a validated matrix changes nothing at all. *)
Theorem C92_idempotent : forall k m m', check_mat k m = Some m' -> check_mat k m' = Some m'.
Proof.
  intros k m. revert k.
  assert (A : forall k a a', check_array k a = Some a' -> check_array k a' = Some a').
  { intros k a a' E. pose proof (check_array_val k a a' E) as V. assert (OK : check_array k a' <> None).
    { apply check_array_ok. subst a'. cbn. assert (H : check_array k a <> None) by congruence. apply check_array_ok in H. exact H. }
    destruct (check_array k a') as [a''|] eqn:E'; [|congruence]. apply check_array_val in E'. subst a'' a'. cbn. f_equal. f_equal. destruct (kw_float k), (a_dt a); reflexivity. }
  induction m as [a|a nm tm|a nm tm|n p c nm tm|bs idx IH|m sh mu IH] using mat_ind'; intros k m' E.
  - cbn in E. destruct (check_array k a) as [a'|] eqn:EA; [|discriminate]. injection E as <-. cbn. rewrite (A k a a' EA). reflexivity.
  - cbn in E. destruct (check_array k a) as [a'|] eqn:EA; [|discriminate]. injection E as <-. cbn. rewrite (A k a a' EA). reflexivity.
  - cbn in E. destruct (check_array k a) as [a'|] eqn:EA; [|discriminate]. injection E as <-. cbn. rewrite (A k a a' EA). reflexivity.
  - cbn in E. injection E as <-. reflexivity.
  - rewrite check_split in E. destruct (check_all (sub k) bs) as [bs'|] eqn:EB; [|discriminate]. injection E as <-. rewrite check_split.
    assert (G : check_all (sub k) bs' = Some bs'); [|rewrite G; reflexivity].
    revert bs' EB. induction bs as [|b bs IHb]; intros bs' EB; cbn in EB; [injection EB as <-; reflexivity|].
    inversion_clear IH. destruct (check_mat (sub k) b) as [b'|] eqn:Eb; [|discriminate]. destruct (check_all (sub k) bs) as [bs''|]; [|discriminate].
    injection EB as <-. cbn [check_all]. rewrite (H (sub k) b' Eb), (IHb H0 bs'' eq_refl). reflexivity.
  - cbn in E. destruct (check_mat k m); discriminate.
Qed.
Print Assumptions C92_idempotent.

(** Exactly what predict accepts. *)
Theorem C92_predict_accepts : forall p X, predict_validate p X <> None <-> acceptable true X /\ ncols X = p.
Proof.
  intros p X. unfold predict_validate. rewrite <- (kw_accepts false true X). destruct (check_mat (mkKw false true 1) X) as [X'|] eqn:E.
  - destruct (check_content _ _ _ E) as (_ & EC & _). rewrite <- EC. destruct (Nat.eqb_spec (ncols X) p) as [Q|Q].
    + split; [intros _; split; [congruence|exact Q]|congruence].
    + split; [congruence|]. intros [_ H]. contradiction.
  - split; [congruence|]. intros [H _]. congruence.
Qed.
Print Assumptions C92_predict_accepts.

(** Data that fit accepted (with the default finiteness check) is accepted by predict, with the same content. *)
Theorem C92_predict_after_fit : forall copy_X X y X' v p, fit_validate copy_X true X y = Some (X', v, p) ->
  exists X'', predict_validate p X = Some X'' /\ same_content X X'' /\ same_content X' X''.
Proof.
  intros c X y X' v p E. destruct (C92_fit_content c true X y X' v p E) as (S1 & Ep & _).
  assert (A : acceptable true X) by (apply (C92_fit_accepts c true X y); congruence).
  assert (P : predict_validate p X <> None) by (apply C92_predict_accepts; split; [exact A|symmetry; exact Ep]).
  destruct (predict_validate p X) as [X''|] eqn:EP; [|congruence]. exists X''. split; [reflexivity|].
  unfold predict_validate in EP. destruct (check_mat _ X) as [X2|] eqn:EM; [|discriminate]. destruct (Nat.eqb _ _); [|discriminate]. injection EP as <-.
  pose proof (check_content _ _ _ EM) as S2. split; [exact S2|]. eapply content_trans; [|exact S2].
  destruct S1 as (A1 & A2 & A3 & A4). repeat split; intros; congruence.
Qed.
Print Assumptions C92_predict_after_fit.

(** Finding F50: with force_all_finite=False fit validates data with a NaN or an infinity, predict never does: it has
    no such argument. *)
Theorem C92_nonfinite : forall X y v, has_nonfinite X -> (forall p, predict_validate p X = None) /\
  (forall copy_X, fit_validate copy_X true X y = None) /\
  (acceptable false X -> y_values y (nrows X) v -> fit_validate None false X y <> None).
Proof.
  intros X y v (ins & b & a & i & j & Hin & Hb & Hi & Hj & N).
  assert (NA : ~ acceptable true X).
  { intros A. destruct (A _ Hin) as [_ H]. cbn [snd] in H. destruct (H a Hb) as (_ & _ & F). destruct (F eq_refl i j Hi Hj) as [x E]. exact (N x E). }
  split; [|split].
  - intros p. destruct (predict_validate p X) eqn:E; [|reflexivity]. exfalso. apply NA. apply (C92_predict_accepts p X). congruence.
  - intros c. destruct (fit_validate c true X y) eqn:E; [|reflexivity]. exfalso. apply NA. apply (C92_fit_accepts c true X y). congruence.
  - intros A Y. apply C92_fit_accepts. split; [discriminate|]. split; [exact A|exists v; exact Y].
Qed.
Print Assumptions C92_nonfinite.

(** Finding F51: a standardized matrix, alone or as a block, is always refused (its one-dimensional shift goes through
    check_array with ensure_2d=True). *)
Theorem C92_standardized_refused : forall X ins m sh mult, In (ins, Stdz m sh mult) (leaves false X) ->
  (forall p, predict_validate p X = None) /\ forall copy_X f y, fit_validate copy_X f X y = None.
Proof.
  intros X ins m sh mult Hin.
  assert (NA : forall f, ~ acceptable f X) by (intros f A; destruct (A _ Hin) as [H _]; apply (H m sh mult); reflexivity).
  split.
  - intros p. destruct (predict_validate p X) eqn:E; [|reflexivity]. exfalso. apply (NA true). apply (C92_predict_accepts p X). congruence.
  - intros c f y. destruct (fit_validate c f X y) eqn:E; [|reflexivity]. exfalso. apply (NA f). apply (C92_fit_accepts c f X y). congruence.
Qed.
Print Assumptions C92_standardized_refused.

(** A split matrix of an integer dense block with names, an empty sparse block and a categorical block. *)
Definition ex92_X : mat :=
  Split [Dense (mkArr 2 1 (fun i _ => Fin (INR i)) I64) (fun _ => Some "a"%string) (fun _ => Some "a"%string);
         Sparse (mkArr 2 0 (fun _ _ => NaN) F32) (fun _ => None) (fun _ => None);
         Categ 2 2 (fun i => Some i) (fun j => Some (if Nat.eqb j 0 then "c__x" else "c__y")%string) (fun _ => Some "c"%string)]
        [[1%nat]; []; [0%nat; 2%nat]].
Example ex92_nonvacuous : exists X' v, fit_validate None true ex92_X (Y2 1 [Fin 1; Fin 2]) = Some (X', v, 3%nat) /\
  mentry X' 1 1 = Some (Fin 1) /\ mentry X' 1 0 = Some (Fin 0) /\ mname X' 0 = (Some "c__x"%string, Some "c"%string) /\
  predict_validate 3 ex92_X <> None /\ predict_validate 2 ex92_X = None /\
  fit_validate None true (Sparse (mkArr 2 0 (fun _ _ => NaN) F32) (fun _ => None) (fun _ => None)) (Y1 [Fin 1; Fin 2]) = None /\
  has_nonfinite (Raw (mkArr 1 1 (fun _ _ => NaN) F64)) /\ acceptable false (Raw (mkArr 1 1 (fun _ _ => NaN) F64)).
Proof.
  eexists. eexists. split; [reflexivity|]. split; [reflexivity|]. split; [reflexivity|]. split; [reflexivity|].
  split; [discriminate|]. split; [reflexivity|]. split; [reflexivity|]. split.
  - exists false, (Raw (mkArr 1 1 (fun _ _ => NaN) F64)), (mkArr 1 1 (fun _ _ => NaN) F64), 0%nat, 0%nat.
    split; [left; reflexivity|]. split; [reflexivity|]. split; [cbn; lia|]. split; [cbn; lia|]. discriminate.
  - intros ib [<-|[]]. split; [discriminate|]. intros a [= <-]. cbn. repeat split; try lia; discriminate.
Qed.
