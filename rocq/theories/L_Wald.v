(** Lemmas for Wald tests. *)
From Verif Require Import M_Cov S_Cov L_Lin L_CV L_Cov.
From Coq Require Import FunctionalExtensionality String List Sorted.
Import ListNotations.
From Verif Require Import M_Solver S_Solver.
Local Open Scope R_scope.

Lemma inv_form_iff q A d s : inv_form q A d s <-> nonsingular q A /\ exists x, (forall i, (i < q)%nat -> mulv q A x i = d i) /\ s = rsum q (fun i => d i * x i).
Proof.
  split.
  - intros [B [H1 [H2 ->]]]. split; [apply invertible_nonsingular; exists B; exact H1|]. exists (mulv q B d). split; [|apply quad_mulv].
    intros i Hi. rewrite <- mulv_mulm. unfold mulv. rewrite (rsum_single q i).
    + rewrite (proj1 (prod_is_mulm q A B identity) H1 i i Hi Hi). unfold identity. rewrite Nat.eqb_refl. ring.
    + exact Hi.
    + intros j Hj Hne. rewrite (proj1 (prod_is_mulm q A B identity) H1 i j Hi Hj). unfold identity. destruct (Nat.eqb_spec i j); [congruence|ring].
  - intros [NS [x [Hx ->]]]. destruct (gsolve_mat_complete q A (fun i k => unit_vec k i) NS) as [B EB]. apply gsolve_mat_sound in EB as [_ EB].
    exists B. split; [intros i j Hi Hj; exact (EB i j Hi)|]. split.
    + intros i j Hi Hj. exact (right_left_inverse q A B (fun a b Ha Hb => EB a b Ha) NS i j Hi Hj).
    + rewrite quad_mulv. apply rsum_ext. intros i Hi. f_equal.
      apply (nonsingular_unique q A x (mulv q B d) NS); [|exact Hi]. intros j Hj. rewrite Hx by exact Hj. rewrite <- mulv_mulm. unfold mulv. rewrite (rsum_single q j).
      * rewrite EB by exact Hj. unfold unit_vec. rewrite Nat.eqb_refl. ring.
      * exact Hj.
      * intros l Hl Hne. rewrite EB by exact Hj. unfold unit_vec. destruct (Nat.eqb_spec j l); [congruence|ring].
Qed.
Lemma inv_form_fun q A d s s' : inv_form q A d s -> inv_form q A d s' -> s = s'.
Proof.
  rewrite !inv_form_iff. intros [NS [x [Hx ->]]] [_ [y [Hy ->]]]. apply rsum_ext. intros i Hi. f_equal.
  apply (nonsingular_unique q A x y NS); [|exact Hi]. intros j Hj. rewrite Hx, Hy by exact Hj. reflexivity.
Qed.
Lemma inv_form_ext q A A' d d' s : (forall i j, (i < q)%nat -> (j < q)%nat -> A i j = A' i j) -> (forall i, (i < q)%nat -> d i = d' i) ->
  inv_form q A d s -> inv_form q A' d' s.
Proof.
  intros HA Hd. rewrite !inv_form_iff. intros [NS [x [Hx ->]]].
  assert (M : forall z i, (i < q)%nat -> mulv q A' z i = mulv q A z i) by (intros z i Hi; unfold mulv; apply rsum_ext; intros j Hj; rewrite HA by assumption; reflexivity).
  split.
  - intros z Hz. apply NS. intros i Hi. rewrite <- M by exact Hi. apply Hz, Hi.
  - exists x. split; [intros i Hi; rewrite M, Hx by exact Hi; apply Hd, Hi|]. apply rsum_ext. intros i Hi. rewrite Hd by exact Hi. reflexivity.
Qed.

Definition rhs_arr (R0 : restr) (r : option arr) : arr := match r with Some a => a | None => mkArr (rq R0) (fun _ => 0) end.
Lemma wald_matrix_iff nb V beta R0 r s q : wald_matrix nb V beta R0 r = Some (s, q) <->
  rcols R0 = nb /\ alen (rhs_arr R0 r) = rq R0 /\ q = rq R0 /\ inv_form q (restr_cov nb R0 V) (resid nb R0 (aval (rhs_arr R0 r)) beta) s.
Proof.
  unfold wald_matrix. fold (rhs_arr R0 r). cbn zeta. destruct (Nat.eqb_spec (rq R0) (alen (rhs_arr R0 r))) as [E1|E1]; cbn [negb].
  2:{ split; [discriminate|]. intros [_ [H _]]. congruence. }
  destruct (Nat.eqb_spec (rcols R0) nb) as [E2|E2]; cbn [negb].
  2:{ split; [discriminate|]. intros [H _]. congruence. }
  fold (resid nb R0 (aval (rhs_arr R0 r)) beta).
  replace (fun q0 s0 : nat => rsum nb (fun l : nat => rsum nb (fun j : nat => rR R0 q0 j * V j l) * rR R0 s0 l)) with (restr_cov nb R0 V).
  2:{ apply functional_extensionality. intros a. apply functional_extensionality. intros b. unfold restr_cov. rewrite rsum_swap. apply rsum_ext. intros l _. rewrite <- rsum_scal_r. reflexivity. }
  fold (resid nb R0 (aval (rhs_arr R0 r)) beta). set (A := restr_cov nb R0 V). set (d := resid nb R0 (aval (rhs_arr R0 r)) beta).
  change (fun q0 : nat => rsum nb (fun j : nat => rR R0 q0 j * beta j) - aval (rhs_arr R0 r) q0) with d.
  split.
  - destruct (gsolve (rq R0) A d) as [x|] eqn:E; [|discriminate]. intros H. injection H as Hs Hq. subst q.
    split; [exact E2|]. split; [congruence|]. split; [reflexivity|].
    apply inv_form_iff. split; [exact (gsolve_nonsingular _ _ _ _ E)|]. exists x. split; [exact (gsolve_sound _ _ _ _ E)|symmetry; exact Hs].
  - intros [_ [_ [-> F]]]. apply inv_form_iff in F as [NS [x [Hx ->]]]. destruct (gsolve_iff _ A d x NS Hx) as [y [-> Hy]].
    f_equal. f_equal. apply rsum_ext. intros i Hi. rewrite Hy by exact Hi. reflexivity.
Qed.
Lemma wald_some_eq (o o' : option wald_result) : (forall s q, o = Some (s, q) <-> o' = Some (s, q)) -> o = o'.
Proof.
  intros H. destruct o as [[s q]|].
  - symmetry. apply H. reflexivity.
  - destruct o' as [[s q]|]; [|reflexivity]. apply H. reflexivity.
Qed.

(** positive semi-definite matrices *)
Lemma quad_line k A x z t : sym k A -> quad k A (fun i => x i + t * z i) = quad k A x + 2 * t * rsum k (fun i => z i * mulv k A x i) + t * t * quad k A z.
Proof.
  intros HS. rewrite !quad_mulv.
  assert (M : forall i, mulv k A (fun j => x j + t * z j) i = mulv k A x i + t * mulv k A z i).
  { intros i. unfold mulv. rewrite <- rsum_scal, <- rsum_plus. apply rsum_ext. intros; ring. }
  rewrite (rsum_ext k _ (fun i => x i * mulv k A x i + t * (z i * mulv k A x i) + t * (x i * mulv k A z i) + t * t * (z i * mulv k A z i))) by (intros; rewrite M; ring).
  rewrite !rsum_plus, !rsum_scal. rewrite (dot_sym k A x z HS). ring.
Qed.
Lemma psd_kernel k A x : sym k A -> psd k A -> quad k A x = 0 -> forall i, (i < k)%nat -> mulv k A x i = 0.
Proof.
  intros HS HP H0 i Hi. set (z := mulv k A x). set (b := rsum k (fun i => z i * z i)).
  assert (Hb : b = 0).
  { assert (Q : forall t, 0 <= 2 * t * b + t * t * quad k A z).
    { intros t. pose proof (HP (fun i => x i + t * z i)) as H. rewrite quad_line in H by exact HS. rewrite H0 in H. fold z in H. fold b in H. lra. }
    assert (Hz : 0 <= quad k A z) by apply HP. assert (0 <= b) by (apply rsum_nonneg; intros; nra).
    destruct (Req_dec b 0) as [|Hne]; [assumption|exfalso].
    assert (0 < b) by lra. pose proof (Q (- b / (quad k A z + 1))) as HQ.
    assert (0 < quad k A z + 1) by lra.
    replace (2 * (- b / (quad k A z + 1)) * b + - b / (quad k A z + 1) * (- b / (quad k A z + 1)) * quad k A z)
      with (- (b * b) * (quad k A z + 2) / ((quad k A z + 1) * (quad k A z + 1))) in HQ by (field; lra).
    assert (0 < b * b * (quad k A z + 2) / ((quad k A z + 1) * (quad k A z + 1))) by (apply Rdiv_lt_0_compat; nra).
    unfold Rdiv in *. lra. }
  assert (HZ : forall j, (j < k)%nat -> z j * z j = 0) by (apply (rsum_zero_inv k); [intros; nra|exact Hb]).
  specialize (HZ i Hi). unfold z in HZ. destruct (Rmult_integral _ _ HZ); assumption.
Qed.
Lemma restr_cov_sym nb R0 V k : sym nb V -> sym k (restr_cov nb R0 V).
Proof.
  intros HV a b _ _. unfold restr_cov. rewrite rsum_swap. apply rsum_ext. intros j Hj. apply rsum_ext. intros l Hl. rewrite (HV l j) by assumption. ring.
Qed.
Lemma restr_cov_quad nb R0 V k x : quad k (restr_cov nb R0 V) x = quad nb V (fun j => rsum k (fun q => x q * rR R0 q j)).
Proof.
  unfold quad, restr_cov.
  transitivity (rsum k (fun i => rsum k (fun j => rsum nb (fun a => rsum nb (fun b => x i * rR R0 i a * V a b * (x j * rR R0 j b)))))).
  { apply rsum_ext. intros i _. apply rsum_ext. intros j _. rewrite <- rsum_scal, <- rsum_scal_r. apply rsum_ext. intros a _. rewrite <- rsum_scal, <- rsum_scal_r. apply rsum_ext. intros; ring. }
  transitivity (rsum nb (fun a => rsum nb (fun b => rsum k (fun i => rsum k (fun j => x i * rR R0 i a * V a b * (x j * rR R0 j b)))))).
  { rewrite (rsum_ext k _ (fun i => rsum nb (fun a => rsum k (fun j => rsum nb (fun b => x i * rR R0 i a * V a b * (x j * rR R0 j b)))))) by (intros; apply rsum_swap).
    rewrite rsum_swap. apply rsum_ext. intros a _.
    rewrite (rsum_ext k _ (fun i => rsum nb (fun b => rsum k (fun j => x i * rR R0 i a * V a b * (x j * rR R0 j b))))) by (intros; apply rsum_swap).
    apply rsum_swap. }
  apply rsum_ext. intros a _. apply rsum_ext. intros b _.
  rewrite <- rsum_scal_r, <- rsum_scal_r. apply rsum_ext. intros i _. rewrite <- rsum_scal. apply rsum_ext. intros; ring.
Qed.
Lemma restr_cov_psd nb R0 V k : psd nb V -> psd k (restr_cov nb R0 V).
Proof. intros H x. rewrite restr_cov_quad. apply H. Qed.

(** change of restrictions *)
Lemma left_mul_cov nb M R0 V a b : restr_cov nb (left_mul M R0) V a b = mulm (rq R0) M (mulm (rq R0) (restr_cov nb R0 V) (transpose M)) a b.
Proof.
  unfold restr_cov, left_mul, mulm, transpose. cbn [rR rq]. set (q := rq R0).
  transitivity (rsum nb (fun j => rsum nb (fun l => rsum q (fun s => rsum q (fun t => M a s * (rR R0 s j * V j l * rR R0 t l) * M b t))))).
  { apply rsum_ext. intros j _. apply rsum_ext. intros l _. rewrite <- !rsum_scal_r. apply rsum_ext. intros s _. rewrite <- rsum_scal. apply rsum_ext. intros; ring. }
  transitivity (rsum q (fun s => rsum q (fun t => rsum nb (fun j => rsum nb (fun l => M a s * (rR R0 s j * V j l * rR R0 t l) * M b t))))).
  { rewrite (rsum_ext nb _ (fun j => rsum q (fun s => rsum nb (fun l => rsum q (fun t => M a s * (rR R0 s j * V j l * rR R0 t l) * M b t))))) by (intros; apply rsum_swap).
    rewrite rsum_swap. apply rsum_ext. intros s _.
    rewrite (rsum_ext nb _ (fun j => rsum q (fun t => rsum nb (fun l => M a s * (rR R0 s j * V j l * rR R0 t l) * M b t)))) by (intros; apply rsum_swap).
    apply rsum_swap. }
  apply rsum_ext. intros s _. rewrite <- rsum_scal. apply rsum_ext. intros t _. rewrite <- rsum_scal_r, <- rsum_scal. apply rsum_ext. intros j _.
  rewrite <- rsum_scal_r, <- rsum_scal. apply rsum_ext. intros; ring.
Qed.
Lemma left_mul_resid nb M R0 r r' beta a : r' a = rsum (rq R0) (fun s => M a s * r s) ->
  resid nb (left_mul M R0) r' beta a = mulv (rq R0) M (resid nb R0 r beta) a.
Proof.
  intros Hr. unfold resid, left_mul, mulv. cbn [rR rq]. rewrite Hr.
  rewrite (rsum_ext nb _ (fun j => rsum (rq R0) (fun s => M a s * (rR R0 s j * beta j)))) by (intros; rewrite <- rsum_scal_r; apply rsum_ext; intros; ring).
  rewrite rsum_swap, <- rsum_minus. apply rsum_ext. intros s _. rewrite rsum_scal. ring.
Qed.
Lemma left_mul_form nb M R0 V r r' beta s : invertible (rq R0) M -> (forall a, (a < rq R0)%nat -> r' a = rsum (rq R0) (fun s => M a s * r s)) ->
  inv_form (rq R0) (restr_cov nb R0 V) (resid nb R0 r beta) s <-> inv_form (rq R0) (restr_cov nb (left_mul M R0) V) (resid nb (left_mul M R0) r' beta) s.
Proof.
  intros HM Hr. apply invertible_nonsingular in HM. pose proof (nonsingular_transpose _ _ HM) as HMt. set (q := rq R0) in *.
  set (A := restr_cov nb R0 V). set (A' := restr_cov nb (left_mul M R0) V).
  assert (EA : forall x a, mulv q A' x a = mulv q M (mulv q A (mulv q (transpose M) x)) a).
  { intros x a. transitivity (mulv q (mulm q M (mulm q A (transpose M))) x a).
    - unfold mulv. apply rsum_ext. intros j _. f_equal. apply left_mul_cov.
    - rewrite mulv_mulm. apply mulv_ext. intros j _. apply mulv_mulm. }
  assert (SC : forall u x, rsum q (fun i => mulv q M u i * x i) = rsum q (fun i => u i * mulv q (transpose M) x i)).
  { intros u x. unfold mulv, transpose. rewrite (rsum_ext q _ (fun i => rsum q (fun j => M i j * u j * x i))) by (intros; rewrite <- rsum_scal_r; reflexivity).
    rewrite rsum_swap. apply rsum_ext. intros j _. rewrite <- rsum_scal. apply rsum_ext. intros; ring. }
  rewrite !inv_form_iff. split.
  - intros [NS [x [Hx ->]]]. split.
    + intros z Hz. apply HMt. intros i Hi. revert i Hi. apply NS. apply HM. intros i Hi. rewrite <- EA. apply Hz, Hi.
    + destruct (gsolve_complete q (transpose M) x HMt) as [y Ey]. pose proof (gsolve_sound _ _ _ _ Ey) as Hy. exists y. split.
      * intros i Hi. rewrite EA, (left_mul_resid nb M R0 r r' beta i (Hr i Hi)). apply mulv_ext. intros j Hj. rewrite <- Hx by exact Hj. apply mulv_ext. exact Hy.
      * rewrite (rsum_ext q (fun i => resid nb (left_mul M R0) r' beta i * y i) (fun i => mulv q M (resid nb R0 r beta) i * y i)).
        2:{ intros i Hi. rewrite (left_mul_resid nb M R0 r r' beta i (Hr i Hi)). reflexivity. }
        rewrite SC. apply rsum_ext. intros i Hi. rewrite Hy by exact Hi. reflexivity.
  - intros [NS [y [Hy ->]]]. split.
    + intros z Hz. destruct (gsolve_complete q (transpose M) z HMt) as [u Eu]. pose proof (gsolve_sound _ _ _ _ Eu) as Hu.
      assert (U0 : forall j, (j < q)%nat -> u j = 0).
      { apply NS. intros i Hi. rewrite EA. rewrite (mulv_ext q M _ (fun _ => 0)).
        - unfold mulv. apply rsum_zero. intros; ring.
        - intros j Hj. rewrite (mulv_ext q A _ z) by exact Hu. apply Hz, Hj. }
      intros j Hj. rewrite <- Hu by exact Hj. unfold mulv. apply rsum_zero. intros i Hi. rewrite U0 by exact Hi. ring.
    + exists (mulv q (transpose M) y). split.
      * intros i Hi. revert i Hi. apply (nonsingular_unique q M _ _ HM). intros i Hi. rewrite <- EA, Hy by exact Hi. apply left_mul_resid. apply Hr, Hi.
      * rewrite <- SC. apply rsum_ext. intros i Hi. rewrite (left_mul_resid nb M R0 r r' beta i (Hr i Hi)). reflexivity.
Qed.

(** selection matrices *)
Definition selection (nb : nat) (js : list nat) : restr := mkRestr (length js) nb (fun i j => if Nat.eqb j (nth i js O) then 1 else 0).
Lemma select_sum nb j (f : nat -> R) : (j < nb)%nat -> rsum nb (fun l => (if Nat.eqb l j then 1 else 0) * f l) = f j.
Proof.
  intros Hj. rewrite (rsum_single nb j); [rewrite Nat.eqb_refl; ring|exact Hj|]. intros l _ Hne. destruct (Nat.eqb_spec l j); [congruence|ring].
Qed.
Lemma selection_cov nb js V i s : (nth i js O < nb)%nat -> (nth s js O < nb)%nat -> restr_cov nb (selection nb js) V i s = sub_mat V js i s.
Proof.
  intros Hi Hs. unfold restr_cov, selection, sub_mat. cbn [rR].
  rewrite (rsum_ext nb _ (fun j => (if Nat.eqb j (nth i js O) then 1 else 0) * V j (nth s js O))).
  - apply (select_sum nb _ (fun j => V j (nth s js O))); exact Hi.
  - intros j _. rewrite (rsum_ext nb _ (fun l => (if Nat.eqb l (nth s js O) then 1 else 0) * ((if Nat.eqb j (nth i js O) then 1 else 0) * V j l))) by (intros; ring).
    apply (select_sum nb _ (fun l => (if Nat.eqb j (nth i js O) then 1 else 0) * V j l)); exact Hs.
Qed.
Lemma selection_resid nb js r beta i : (nth i js O < nb)%nat -> resid nb (selection nb js) r beta i = sub_diff beta js r i.
Proof. intros Hi. unfold resid, selection, sub_diff. cbn [rR]. rewrite (select_sum nb _ beta) by exact Hi. reflexivity. Qed.
Lemma selection_form nb js V r beta s : (forall j, In j js -> (j < nb)%nat) ->
  inv_form (length js) (restr_cov nb (selection nb js) V) (resid nb (selection nb js) r beta) s <-> inv_form (length js) (sub_mat V js) (sub_diff beta js r) s.
Proof.
  intros H. assert (N : forall i, (i < length js)%nat -> (nth i js O < nb)%nat) by (intros i Hi; apply H, nth_In, Hi).
  split; apply inv_form_ext; intros; rewrite ?selection_cov, ?selection_resid; auto.
Qed.

(** looking names up *)
Lemma index_of_spec s l j : index_of s l = Some j <-> first_position s l j.
Proof.
  unfold first_position. revert j. induction l as [|t l IH]; intros j; simpl.
  - split; [discriminate|]. intros [H _]. destruct j; discriminate.
  - destruct (String.eqb_spec s t) as [->|Hne].
    + split.
      * intros H. injection H as <-. split; [reflexivity|]. intros; lia.
      * intros [H1 H2]. destruct j as [|j]; [reflexivity|]. exfalso. apply (H2 0%nat); [lia|reflexivity].
    + split.
      * destruct (index_of s l) as [j'|] eqn:E; [|discriminate]. intros H. injection H as <-. destruct (proj1 (IH j') eq_refl) as [H1 H2].
        split; [exact H1|]. intros [|i] Hi; simpl; [congruence|]. apply H2. lia.
      * intros [H1 H2]. destruct j as [|j]; simpl in H1; [congruence|].
        assert (E : index_of s l = Some j) by (apply IH; split; [exact H1|]; intros i Hi; apply (H2 (S i)); lia). rewrite E. reflexivity.
Qed.
Lemma first_position_fun s l i j : first_position s l i -> first_position s l j -> i = j.
Proof. intros H1 H2. apply index_of_spec in H1, H2. congruence. Qed.
Lemma indices_spec names fs js : all_opt (map (fun f => index_of f names) fs) = Some js <-> Forall2 (fun f j => first_position f names j) fs js.
Proof.
  revert js. induction fs as [|f fs IH]; intros js; simpl.
  - split; [intros H; injection H as <-; constructor|]. inversion 1. reflexivity.
  - destruct (index_of f names) as [j|] eqn:E.
    + destruct (all_opt (map (fun f => index_of f names) fs)) as [js'|] eqn:E2.
      * split.
        -- intros H. injection H as <-. constructor; [apply index_of_spec, E|apply IH; reflexivity].
        -- inversion 1 as [|a b c d H1 H2]; subst. apply index_of_spec in H1. rewrite E in H1. injection H1 as ->. apply IH in H2. injection H2 as ->. reflexivity.
      * split; [discriminate|]. inversion 1 as [|a b c d H1 H2]; subst. apply IH in H2. discriminate.
    + split; [discriminate|]. inversion 1 as [|a b c d H1 H2]; subst. apply index_of_spec in H1. congruence.
Qed.
Lemma positions_spec names t : all_positions names t (positions t names).
Proof.
  split.
  - unfold positions. assert (H : forall a n, StronglySorted lt (filter (fun i => String.eqb (nth i names EmptyString) t) (seq a n)) ).
    { intros a n. revert a. induction n as [|n IH]; intros a; simpl; [constructor|]. destruct (String.eqb _ t); [|apply IH]. constructor; [apply IH|].
      apply Forall_forall. intros x Hx. apply filter_In in Hx as [Hx _]. apply in_seq in Hx. lia. }
    apply H.
  - intros j. unfold positions. rewrite filter_In, in_seq, String.eqb_eq. split.
    + intros [Hj <-]. apply nth_error_nth'. lia.
    + intros H. assert (Hl : (j < length names)%nat) by (apply nth_error_Some; congruence). split; [lia|]. apply nth_error_nth. exact H.
Qed.
Lemma sorted_same (a b : list nat) : StronglySorted lt a -> StronglySorted lt b -> (forall j, In j a <-> In j b) -> a = b.
Proof.
  intros Ha. revert b. induction Ha as [|x a Ha IH Hx]; intros b Hb E.
  - destruct b as [|y b]; [reflexivity|]. exfalso. apply (E y). left. reflexivity.
  - destruct Hb as [|y b Hb Hy]; [exfalso; apply (E x); left; reflexivity|].
    rewrite Forall_forall in Hx, Hy.
    assert (x = y).
    { destruct (proj1 (E x) (or_introl eq_refl)) as [->|H1]; [reflexivity|]. destruct (proj2 (E y) (or_introl eq_refl)) as [->|H2]; [reflexivity|].
      specialize (Hx _ H2). specialize (Hy _ H1). lia. }
    subst y. f_equal. apply IH; [exact Hb|]. intros j. split; intros Hj.
    + destruct (proj1 (E j) (or_intror Hj)) as [<-|H]; [|exact H]. specialize (Hx _ Hj). lia.
    + destruct (proj2 (E j) (or_intror Hj)) as [<-|H]; [|exact H]. specialize (Hy _ Hj). lia.
Qed.
Lemma all_positions_fun names t js : all_positions names t js -> js = positions t names.
Proof. intros [H1 H2]. destruct (positions_spec names t) as [H3 H4]. apply sorted_same; [exact H1|exact H3|]. intros j. rewrite H2, H4. reflexivity. Qed.
Lemma terms_positions names ts jss : Forall2 (all_positions names) ts jss <-> jss = map (fun t => positions t names) ts.
Proof.
  split.
  - induction 1 as [|t js ts jss H1 H2 IH]; [reflexivity|]. simpl. rewrite (all_positions_fun _ _ _ H1), IH. reflexivity.
  - intros ->. induction ts; simpl; constructor; [apply positions_spec|exact IHts].
Qed.
Lemma forall2_len {A B} (P : A -> B -> Prop) l l' : Forall2 P l l' -> length l = length l'.
Proof. induction 1; cbn; congruence. Qed.
Lemma repeat_rhs_len (jss : list (list nat)) (l : list R) : length l = length jss ->
  length (concat (map (fun lv : list nat * R => repeat (snd lv) (length (fst lv))) (combine jss l))) = length (concat jss).
Proof.
  revert l. induction jss as [|a jss IH]; intros [|v l] HL; cbn in *; try discriminate; [reflexivity|]. rewrite !app_length, repeat_length. f_equal. apply IH. lia.
Qed.
