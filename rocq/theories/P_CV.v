(** Theorems C43: cross-validation. *)
From Verif Require Import M_CV S_CV L_Path L_Path2 L_Path3 L_Pred L_CV P_Path.
From Coq Require Import Permutation.
From Verif Require Import M_Solver S_Solver.
Local Open Scope R_scope.

(** The rows split by KFold: every row is in exactly one test fold, the training rows of a fold are the
    other ones, both in the original order, and fold sizes differ by at most one. *)
Theorem C43_kfold : forall n k folds, kfold n k = Some folds ->
  length folds = k /\
  (forall f, In f folds -> forall r, (In r (fd_test f) \/ In r (fd_train f)) <-> (r < n)%nat) /\
  (forall f r, In f folds -> In r (fd_test f) -> ~ In r (fd_train f)) /\
  (forall r, (r < n)%nat -> exists i, (i < k)%nat /\ forall j, (j < k)%nat -> (In r (fd_test (nth j folds (mkFold [] []))) <-> j = i)) /\
  (forall i, (i < k)%nat -> (n / k <= length (fd_test (nth i folds (mkFold [] []))) <= n / k + 1)%nat).
Proof.
  intros n k folds H. unfold kfold in H. destruct (Nat.leb_spec k 1); [discriminate|]. destruct (Nat.ltb_spec n k); [discriminate|].
  cbn [orb] in H. injection H as <-.
  set (mask := fun i r => (Nat.leb (fold_start n k i) r && Nat.ltb r (fold_start n k i + fold_size n k i))%bool).
  assert (M : forall i r, mask i r = true <-> (fold_start n k i <= r < fold_start n k i + fold_size n k i)%nat).
  { intros i r. unfold mask. rewrite andb_true_iff, Nat.leb_le, Nat.ltb_lt. tauto. }
  set (F := fun i => mkFold (filter (fun r => negb (mask i r)) (seq 0 n)) (filter (mask i) (seq 0 n))).
  assert (NT : forall i, (i < k)%nat -> nth i (map F (seq 0 k)) (mkFold [] []) = F i).
  { intros i Hi. rewrite (nth_indep _ _ (F 0%nat)) by (rewrite map_length, seq_length; exact Hi). rewrite map_nth, seq_nth by exact Hi. reflexivity. }
  change (map (fun i => _) (seq 0 k)) with (map F (seq 0 k)). split; [|split; [|split; [|split]]].
  - rewrite map_length, seq_length. reflexivity.
  - intros f Hf r. apply in_map_iff in Hf as [i [<- Hi]]. cbn [F fd_test fd_train]. rewrite !filter_In, in_seq.
    destruct (mask i r); simpl; split; [intros [[? _]|[_ ?]]; [lia|discriminate]|left; split; [lia|reflexivity]|intros [[_ ?]|[? _]]; [discriminate|lia]|right; split; [lia|reflexivity]].
  - intros f r Hf A B. apply in_map_iff in Hf as [i [<- Hi]]. cbn [F fd_test fd_train] in *. apply filter_In in A as [_ A]. apply filter_In in B as [_ B].
    rewrite A in B. discriminate.
  - intros r Hr. destruct (fold_find n k r k) as [i [Hi Hir]]; [rewrite fold_start_total by lia; exact Hr|].
    exists i. split; [exact Hi|]. intros j Hj. rewrite NT by exact Hj. cbn [F fd_test]. rewrite filter_In, in_seq, M. split.
    + intros [_ Hjr]. destruct (Nat.lt_trichotomy j i) as [L|[L|L]]; [|exact L|].
      * pose proof (fold_start_mono n k (S j) i L). simpl in *. lia.
      * pose proof (fold_start_mono n k (S i) j L). simpl in *. lia.
    + intros ->. split; [lia|exact Hir].
  - intros i Hi. rewrite NT by exact Hi. cbn [F fd_test].
    assert (EL : filter (mask i) (seq 0 n) = seq (fold_start n k i) (fold_size n k i)).
    { pose proof (fold_start_mono n k (S i) k Hi) as Q. rewrite fold_start_total in Q by lia. cbn [fold_start] in Q.
      replace n with (fold_start n k i + (fold_size n k i + (n - fold_start n k i - fold_size n k i)))%nat at 1 by lia.
      rewrite !seq_app, !filter_app. cbn [Nat.add].
      assert (FF : forall g a m, (forall r, In r (seq a m) -> g r = false) -> filter g (seq a m) = []).
      { clear. intros g a m. revert a. induction m as [|m IH]; intros a Hg; [reflexivity|]. simpl.
        rewrite Hg by (left; reflexivity). apply IH. intros r Hr. apply Hg. right. exact Hr. }
      assert (FT : forall g a m, (forall r, In r (seq a m) -> g r = true) -> filter g (seq a m) = seq a m).
      { clear. intros g a m. revert a. induction m as [|m IH]; intros a Hg; [reflexivity|]. simpl.
        rewrite Hg by (left; reflexivity). f_equal. apply IH. intros r Hr. apply Hg. right. exact Hr. }
      rewrite FF, FT, FF; [rewrite app_nil_r; reflexivity| | |].
      - intros r Hr. apply in_seq in Hr. apply not_true_is_false. rewrite M. lia.
      - intros r Hr. apply in_seq in Hr. apply M. lia.
      - intros r Hr. apply in_seq in Hr. apply not_true_is_false. rewrite M. lia. }
    rewrite EL, seq_length. unfold fold_size. destruct (Nat.ltb i (n mod k)); lia.
Qed.
Print Assumptions C43_kfold.

(** The alphas searched are the user's in descending order, for every l1_ratio. *)
Theorem C43_alphas : forall solve u P1 P2 l1s l mi ra na se h a folds rows r,
  cv_fit solve u P1 P2 l1s (Some l) mi ra na se h a folds rows = Some r ->
  forall i, (i < length l1s)%nat -> Permutation (nth i (cv_alphas r) []) l /\ descending (nth i (cv_alphas r) []).
Proof.
  intros solve u P1 P2 l1s l mi ra na se h a folds rows r H i Hi. unfold cv_fit in H.
  destruct (all_opt (map (at_l1 u P1 P2) l1s)) as [us|] eqn:EU; [|discriminate].
  pose proof (all_opt_length _ _ EU) as LU. rewrite map_length in LU. cbn [cv_grid] in H.
  destruct (all_opt (map _ folds)) as [table|]; [|discriminate]. destruct folds; [discriminate|].
  destruct (np_argmin _); [|discriminate]. destruct (nth_error us _); [|discriminate].
  destruct (rows_path _ _ _ _ _ _ _); [|discriminate]. injection H as <-. cbn [cv_alphas].
  assert (E : nth i (map (fun _ : user => sort_desc l) us) [] = sort_desc l).
  { rewrite <- LU in Hi. clear -Hi. revert i Hi. induction us as [|x us IH]; intros i Hi; [simpl in Hi; lia|].
    destruct i; [reflexivity|]. simpl. apply IH. simpl in Hi. lia. }
  rewrite E. split; [apply sort_desc_perm|apply sort_desc_desc].
Qed.
Print Assumptions C43_alphas.

Lemma at_l1_spec u P1 P2 l1 u' : at_l1 u P1 P2 l1 = Some u' -> with_l1_ratio u P1 P2 l1 u'.
Proof.
  unfold at_l1. destruct (setup_p1 P1 (u_p u) 1 l1) as [a|] eqn:E1; [|discriminate].
  destruct (setup_p2 P2 (u_p u) 1 l1) as [b|] eqn:E2; [|discriminate]. intros H. injection H as <-.
  unfold with_l1_ratio. cbn [set_penalties u_n u_p u_X u_y u_w u_off u_ic u_fam u_link u_P1 u_P2 u_lb u_ub u_scale].
  split; [reflexivity|]. split.
  - destruct P1 as [|l]; cbn [setup_p1] in E1; [|destruct (Nat.eqb _ _); [|discriminate]]; injection E1 as <-; intros j; cbn [asked_P1]; ring.
  - destruct P2 as [|l|r c M]; cbn [setup_p2] in E2; [|destruct (Nat.eqb _ _); [|discriminate]|destruct (_ && _)%bool; [|discriminate]];
      injection E2 as <-; intros i j; cbn [asked_P2 p2_entry]; try (destruct (Nat.eqb i j); ring); field.
Qed.

(** The chosen l1_ratio_ and alpha_ minimise the mean over the folds of the held-out deviances of the
    models trained without the fold, over the whole grid; among ties the first l1_ratio and the first
    (largest) alpha is taken. *)
Theorem C43_choice : forall solve u P1 P2 l1s alphas mi ra na se h a folds rows r,
  folds_weighted rows folds ->
  cv_fit solve u P1 P2 l1s alphas mi ra na se h a folds rows = Some r ->
  exists (us : list user) (path : fold -> nat -> nat -> R * (nat -> R)),
    (forall i, (i < length l1s)%nat -> with_l1_ratio u P1 P2 (nth i l1s 0) (nth i us u)) /\
    (forall f i, In f folds -> (i < length l1s)%nat ->
       exists fp, rows_path solve (nth i us u) se h a (nth i (cv_alphas r) []) (rows_at rows (fd_train f)) = Some fp /\
         forall j, (j < length (nth i (cv_alphas r) []))%nat -> nth_error (fp_path fp) j = Some (path f i j)) /\
    let bi := cv_best_l1 r in let bj := cv_best_alpha r in
    (bi < length l1s)%nat /\ (bj < length (nth bi (cv_alphas r) []))%nat /\
    cv_l1_ratio r = nth bi l1s 0 /\ cv_alpha r = nth bj (nth bi (cv_alphas r) []) 0 /\
    forall i j, (i < length l1s)%nat -> (j < length (nth i (cv_alphas r) []))%nat ->
      cv_score u rows folds path bi bj <= cv_score u rows folds path i j /\
      (before (i, j) (bi, bj) -> cv_score u rows folds path bi bj < cv_score u rows folds path i j).
Proof.
  intros solve u P1 P2 l1s alphas mi ra na se h a folds rows r [HW HT] H. unfold cv_fit in H.
  destruct (all_opt (map (at_l1 u P1 P2) l1s)) as [us|] eqn:EU; [|discriminate].
  pose proof (all_opt_length _ _ EU) as LU. rewrite map_length in LU.
  destruct (cv_grid _ _ _ _ _ _ _) as [grid|] eqn:EG; [|discriminate].
  destruct (cv_grid_rect _ _ _ _ _ _ _ _ EG) as [LG [m Hm]]. rewrite LU in *.
  destruct (all_opt (map _ folds)) as [table|] eqn:ET; [|discriminate].
  pose proof (all_opt_length _ _ ET) as LT. rewrite map_length in LT.
  assert (Hne : folds <> []) by (intros ->; discriminate).
  replace (match folds with [] => None | _ :: _ => _ end) with (match np_argmin (concat (map (fun i => map (fun j => mean_opt (map (fun ft => nth j (nth i ft []) None) table)) (seq 0 (length (nth 0 grid [])))) (seq 0 (length l1s)))) with
    | None => None
    | Some q => match nth_error us (q / length (nth 0 grid [])) with
      | None => None
      | Some ub => match rows_path solve ub se h a (nth (q / length (nth 0 grid [])) grid []) (norm_rows rows) with
          | None => None
          | Some fp => Some (mkCV (nth (q / length (nth 0 grid [])) l1s 0) (nth (q mod length (nth 0 grid [])) (nth (q / length (nth 0 grid [])) grid []) 0) (q / length (nth 0 grid [])) (q mod length (nth 0 grid [])) grid table fp
                                  (nth (q mod length (nth 0 grid [])) (fp_path fp) (0, fun _ => 0)))
          end end end) in H by (destruct folds; [congruence|reflexivity]).
  set (NA := length (nth 0 grid [])) in *.
  set (rp := fun f i => rows_path solve (nth i us u) se h a (nth i grid []) (rows_at rows (fd_train f))).
  set (path := fun f i j => match rp f i with Some fp => nth j (fp_path fp) (0, fun _ => 0) | None => (0, fun _ => 0) end).
  (* entries of the table *)
  assert (RP : forall f i, In f folds -> (i < length l1s)%nat -> exists fp, rp f i = Some fp).
  { intros f i Hf Hi. destruct (In_nth folds f f Hf) as [k [Hk Ek]].
    pose proof (all_opt_nth _ folds table k f [] ET Hk) as Q. cbn beta in Q. rewrite Ek in Q.
    pose proof (all_opt_nth _ (combine us grid) (nth k table []) i (u, []) [] Q) as Q2. rewrite combine_length, LU, LG, Nat.min_id in Q2.
    specialize (Q2 Hi). cbn beta in Q2. rewrite combine_nth in Q2 by congruence. cbn [fst snd] in Q2. unfold fold_deviances in Q2.
    rewrite pick_norm in Q2. destruct (Reqb _ 0); [discriminate|]. rewrite rows_path_norm in Q2 by exact HW.
    change (pick rows (fd_train f)) with (rows_at rows (fd_train f)) in Q2. fold (rp f i) in Q2.
    destruct (rp f i) as [fp|]; [eauto|discriminate]. }
  assert (AT1 : forall i, (i < length l1s)%nat -> at_l1 u P1 P2 (nth i l1s 0) = Some (nth i us u)) by (intros i Hi; apply (all_opt_nth _ l1s us i 0 u EU Hi)).
  assert (FAM : forall i, (i < length l1s)%nat -> u_fam (nth i us u) = u_fam u /\ u_link (nth i us u) = u_link u /\ u_p (nth i us u) = u_p u).
  { intros i Hi. specialize (AT1 i Hi). unfold at_l1 in AT1. destruct (setup_p1 _ _ _ _); [|discriminate]. destruct (setup_p2 _ _ _ _); [|discriminate].
    injection AT1 as <-. auto. }
  assert (TB : forall k i j d, (k < length folds)%nat -> (i < length l1s)%nat -> (j < m)%nat ->
     nth j (nth i (nth k table []) []) None = Some (heldout u (rows_at rows (fd_test (nth k folds d))) (path (nth k folds d) i j))).
  { intros k i j d Hk Hi Hj.
    pose proof (all_opt_nth _ folds table k d [] ET Hk) as Q. cbn beta in Q. set (f := nth k folds d) in *.
    assert (Hf : In f folds) by (apply nth_In; exact Hk).
    pose proof (all_opt_nth _ (combine us grid) (nth k table []) i (u, []) [] Q) as Q2. rewrite combine_length, LU, LG, Nat.min_id in Q2.
    specialize (Q2 Hi). cbn beta in Q2. rewrite combine_nth in Q2 by congruence. cbn [fst snd] in Q2. unfold fold_deviances in Q2.
    rewrite !pick_norm in Q2. destruct (Reqb _ 0); [discriminate|]. rewrite rows_path_norm in Q2 by exact HW.
    change (pick rows (fd_train f)) with (rows_at rows (fd_train f)) in Q2. fold (rp f i) in Q2.
    destruct (rp f i) as [fp|] eqn:ER; [|discriminate]. injection Q2 as Q2. rewrite <- Q2.
    assert (Lp : (j < length (fp_path fp))%nat) by (rewrite (rows_path_length _ _ _ _ _ _ _ _ ER), Hm by lia; exact Hj).
    rewrite (nth_indep _ None (test_deviance (nth i us u) (map (norm_row (lsum (map r_w rows))) (pick rows (fd_test f))) (0, fun _ => 0))) by (rewrite map_length; exact Lp).
    rewrite map_nth. rewrite test_deviance_norm by exact HW. rewrite test_deviance_heldout by (apply HT, Hf).
    f_equal. destruct (FAM i Hi) as [F1 [F2 F3]]. unfold heldout. rewrite F1, F2, F3. unfold path. rewrite ER. reflexivity. }
  assert (NAm : (0 < length l1s)%nat -> NA = m) by (intros Hz; apply Hm; exact Hz).
  set (avg := fun i j => mean_opt (map (fun ft => nth j (nth i ft []) None) table)).
  assert (AV : forall i j, (i < length l1s)%nat -> (j < m)%nat -> avg i j = Some (cv_score u rows folds path i j)).
  { intros i j Hi Hj. unfold avg. pose (d := mkFold [] []).
    replace (map (fun ft => nth j (nth i ft []) None) table)
      with (map Some (map (fun f => heldout u (rows_at rows (fd_test f)) (path f i j)) folds)).
    - rewrite mean_opt_some. unfold cv_score. rewrite map_length. reflexivity.
    - apply nth_error_ext. intros k. rewrite !nth_error_map. destruct (Nat.lt_ge_cases k (length folds)) as [L|L].
      + assert (L2 : (k < length table)%nat) by (rewrite LT; exact L). rewrite (nth_error_nth' folds d L), (nth_error_nth' table [] L2). simpl. f_equal. symmetry. apply TB; assumption.
      + rewrite (proj2 (nth_error_None folds k) L), (proj2 (nth_error_None table k)) by (rewrite LT; exact L). reflexivity. }
  destruct (np_argmin _) as [q|] eqn:EQ; [|discriminate].
  change (np_argmin (concat (map (fun i => map (avg i) (seq 0 NA)) (seq 0 (length l1s)))) = Some q) in EQ.
  pose proof (np_argmin_lt _ _ EQ) as Lq. rewrite concat_grid_length in Lq.
  assert (L0 : (0 < length l1s)%nat) by (destruct (length l1s); simpl in Lq; lia). rewrite (NAm L0) in *.
  assert (m0 : m <> 0%nat) by (intros ->; rewrite Nat.mul_0_r in Lq; lia).
  assert (Hbi : (q / m < length l1s)%nat) by (apply Nat.div_lt_upper_bound; [exact m0|lia]).
  assert (Hbj : (q mod m < m)%nat) by (apply Nat.mod_upper_bound; exact m0).
  destruct (nth_error us (q / m)) as [ub|] eqn:EUb; [|discriminate].
  destruct (rows_path _ _ _ _ _ _ _) as [fp|] eqn:EFP; [|discriminate]. injection H as <-. cbn [cv_alphas cv_best_l1 cv_best_alpha cv_l1_ratio cv_alpha].
  exists us, path. split; [intros i Hi; apply at_l1_spec, AT1, Hi|]. split.
  { intros f i Hf Hi. destruct (RP f i Hf Hi) as [fpp E]. exists fpp. split; [exact E|]. intros j Hj.
    unfold path. rewrite E. apply nth_error_nth'. rewrite (rows_path_length _ _ _ _ _ _ _ _ E). exact Hj. }
  split; [exact Hbi|]. split; [rewrite Hm by exact Hbi; exact Hbj|]. split; [reflexivity|]. split; [reflexivity|].
  replace (concat (map (fun i => map (avg i) (seq 0 m)) (seq 0 (length l1s))))
    with (map Some (concat (map (fun i => map (cv_score u rows folds path i) (seq 0 m)) (seq 0 (length l1s))))) in EQ.
  2:{ rewrite concat_map, map_map. f_equal. apply map_ext_in. intros i Hi. apply in_seq in Hi. rewrite map_map. apply map_ext_in. intros j Hj. apply in_seq in Hj.
      symmetry. apply AV; lia. }
  rewrite np_argmin_some in EQ. apply argmin_spec in EQ as [mm [E1 [E2 E3]]].
  assert (Eq : q = (q / m * m + q mod m)%nat) by (rewrite (Nat.div_mod q m m0) at 1; lia).
  rewrite Eq in E1. rewrite concat_grid_nth in E1 by assumption. injection E1 as <-. cbn [Nat.add] in *.
  intros i j Hi Hj. rewrite Hm in Hj by exact Hi. split.
  - apply (E2 _ (i * m + j)%nat). rewrite concat_grid_nth by assumption. reflexivity.
  - intros B. apply (E3 _ (i * m + j)%nat); [rewrite concat_grid_nth by assumption; reflexivity|].
    destruct B as [B|[B1 B2]]; cbn [fst snd] in *; [|subst i; lia].
    assert (S i * m <= q / m * m)%nat by (apply Nat.mul_le_mono_r; lia). simpl in *. lia.
Qed.
Print Assumptions C43_choice.

(** Ties towards the largest alpha: no entry of the chosen l1_ratio with the same score has a larger alpha. *)
Theorem C43_ties : forall solve u P1 P2 l1s l mi ra na se h a folds rows r,
  folds_weighted rows folds ->
  cv_fit solve u P1 P2 l1s (Some l) mi ra na se h a folds rows = Some r ->
  exists path, forall i j, (i < length l1s)%nat -> (j < length (nth i (cv_alphas r) []))%nat ->
    cv_score u rows folds path i j = cv_score u rows folds path (cv_best_l1 r) (cv_best_alpha r) ->
    (cv_best_l1 r <= i)%nat /\ (i = cv_best_l1 r -> nth j (nth i (cv_alphas r) []) 0 <= cv_alpha r).
Proof.
  intros solve u P1 P2 l1s l mi ra na se h a folds rows r HW H.
  destruct (C43_choice _ _ _ _ _ _ _ _ _ _ _ _ _ _ _ HW H) as [us [path [_ [_ [B1 [B2 [_ [EA HM]]]]]]]].
  exists path. intros i j Hi Hj ES. destruct (HM i j Hi Hj) as [_ HB]. split.
  - destruct (Nat.le_gt_cases (cv_best_l1 r) i) as [L|L]; [exact L|]. specialize (HB (or_introl L)). lra.
  - intros ->. rewrite EA. destruct (C43_alphas _ _ _ _ _ _ _ _ _ _ _ _ _ _ _ H (cv_best_l1 r) B1) as [_ D].
    apply D; [|exact Hj]. destruct (Nat.le_gt_cases (cv_best_alpha r) j) as [L|L]; [exact L|].
    specialize (HB (or_intror (conj eq_refl L))). lra.
Qed.
Print Assumptions C43_ties.

(** The returned model is the path refitted on all rows with the chosen l1_ratio along its whole alpha
    grid, read at alpha_: coef_ is its entry, predictions default to it, and asking for alpha_ (or any
    alpha of the grid) finds an entry with that alpha. *)
Theorem C43_refit : forall solve u P1 P2 l1s alphas mi ra na se h a folds rows r,
  lsum (map r_w rows) <> 0 ->
  cv_fit solve u P1 P2 l1s alphas mi ra na se h a folds rows = Some r ->
  exists ub fp, with_l1_ratio u P1 P2 (cv_l1_ratio r) ub /\
    rows_path solve ub se h a (nth (cv_best_l1 r) (cv_alphas r) []) rows = Some fp /\
    nth_error (fp_path fp) (cv_best_alpha r) = Some (cv_coef r) /\
    nth_error (nth (cv_best_l1 r) (cv_alphas r) []) (cv_best_alpha r) = Some (cv_alpha r) /\
    (forall w X o, linear_predictor (cv_estimator u r) w X o SelNone SelNone
       = compute_linear_predictor (u_p u) w X o (cv_coef r) (fp_path fp) SelNone) /\
    (exists i, find_alpha_index (m_alphas (cv_estimator u r)) (cv_alpha r) = Some i /\
       nth i (m_alphas (cv_estimator u r)) 0 = cv_alpha r /\ (i <= cv_best_alpha r)%nat).
Proof.
  intros solve u P1 P2 l1s alphas mi ra na se h a folds rows r HW H. unfold cv_fit in H.
  destruct (all_opt (map (at_l1 u P1 P2) l1s)) as [us|] eqn:EU; [|discriminate].
  pose proof (all_opt_length _ _ EU) as LU. rewrite map_length in LU.
  destruct (cv_grid _ _ _ _ _ _ _) as [grid|] eqn:EG; [|discriminate].
  destruct (cv_grid_rect _ _ _ _ _ _ _ _ EG) as [LG [m Hm]]. rewrite LU in *.
  destruct (all_opt (map _ folds)) as [table|] eqn:ET; [|discriminate].
  destruct folds as [|f0 fs]; [discriminate|].
  set (NA := length (nth 0 grid [])) in *.
  destruct (np_argmin _) as [q|] eqn:EQ; [|discriminate].
  apply np_argmin_lt in EQ. rewrite (concat_grid_length (fun i j => mean_opt (map (fun ft => nth j (nth i ft []) None) table))) in EQ.
  assert (L0 : (0 < length l1s)%nat) by (destruct (length l1s); simpl in EQ; lia).
  assert (NAm : NA = m) by (apply Hm; exact L0). rewrite NAm in *.
  assert (m0 : m <> 0%nat) by (intros ->; rewrite Nat.mul_0_r in EQ; lia).
  assert (Hbi : (q / m < length l1s)%nat) by (apply Nat.div_lt_upper_bound; [exact m0|lia]).
  assert (Hbj : (q mod m < m)%nat) by (apply Nat.mod_upper_bound; exact m0).
  destruct (nth_error us (q / m)) as [ub|] eqn:EUb; [|discriminate].
  destruct (rows_path _ _ _ _ _ _ _) as [fp|] eqn:EFP; [|discriminate]. injection H as <-. cbn [cv_alphas cv_best_l1 cv_best_alpha cv_l1_ratio cv_alpha cv_coef cv_estimator cv_refit m_alphas].
  rewrite norm_rows_map, rows_path_norm in EFP by exact HW.
  pose proof (rows_path_length _ _ _ _ _ _ _ _ EFP) as LP. rewrite Hm in LP by exact Hbi.
  exists ub, fp. split.
  { pose proof (all_opt_nth _ l1s us (q / m) 0 u EU Hbi) as E. cbn beta in E. apply nth_error_nth with (d := u) in EUb. rewrite EUb in E. apply at_l1_spec, E. }
  split; [exact EFP|]. split; [apply nth_error_nth'; rewrite LP; exact Hbj|].
  split; [apply nth_error_nth'; rewrite Hm by exact Hbi; exact Hbj|]. split; [reflexivity|].
  assert (EA : fp_alphas fp = nth (q / m) grid []).
  { unfold rows_path in EFP. destruct (start_guess _ _ _); [|discriminate]. unfold fit_path in EFP. destruct (solve_path _ _ _ _ _) as [sols|]; [|discriminate].
    destruct (rev sols); [discriminate|]. injection EFP as <-. reflexivity. }
  rewrite EA. destruct (C41_stored (nth (q / m) grid []) (q mod m)) as [i [F1 [F2 F3]]]; [rewrite Hm by exact Hbi; exact Hbj|].
  exists i. auto.
Qed.
Print Assumptions C43_refit.

(** Multiplying all sample weights by a positive constant changes nothing. *)
Theorem C43_weight_scale : forall solve u P1 P2 l1s alphas mi ra na se h a folds rows c, 0 < c ->
  cv_fit solve u P1 P2 l1s alphas mi ra na se h a folds (scale_weights c rows)
  = cv_fit solve u P1 P2 l1s alphas mi ra na se h a folds rows.
Proof.
  intros solve u P1 P2 l1s alphas mi ra na se h a folds rows c Hc. unfold cv_fit.
  replace (norm_rows (scale_weights c rows)) with (norm_rows rows); [reflexivity|].
  unfold norm_rows, scale_weights. rewrite !map_map. cbn [r_w].
  assert (E : lsum (map (fun r => c * r_w r) rows) = c * lsum (map r_w rows)) by (induction rows as [|x l IH]; simpl; [ring|]; rewrite IH; ring).
  rewrite E. apply map_ext. intros r. cbn [r_x r_y r_w r_off]. f_equal.
  destruct (Req_dec (lsum (map r_w rows)) 0) as [Z|Z]; [rewrite Z, Rmult_0_r; unfold Rdiv; rewrite Rinv_0; ring|field; lra].
Qed.
Print Assumptions C43_weight_scale.

(** finding F24: one test fold without weight makes every average NaN; argmin then takes the first grid
    point, whatever the other folds say, without an error. *)
Theorem C43_zero_weight_fold_refuted : forall solve u P1 P2 l1s alphas mi ra na se h a folds rows r f,
  lsum (map r_w rows) <> 0 -> In f folds -> fd_test f <> [] -> lsum (map r_w (rows_at rows (fd_test f))) = 0 ->
  cv_fit solve u P1 P2 l1s alphas mi ra na se h a folds rows = Some r ->
  cv_l1_ratio r = nth 0 l1s 0 /\ cv_alpha r = nth 0 (nth 0 (cv_alphas r) []) 0.
Proof.
  intros solve u P1 P2 l1s alphas mi ra na se h a folds rows r f HW Hf Hne HZ H. unfold cv_fit in H.
  destruct (all_opt (map (at_l1 u P1 P2) l1s)) as [us|] eqn:EU; [|discriminate].
  pose proof (all_opt_length _ _ EU) as LU. rewrite map_length in LU.
  destruct (cv_grid _ _ _ _ _ _ _) as [grid|] eqn:EG; [|discriminate].
  destruct (cv_grid_rect _ _ _ _ _ _ _ _ EG) as [LG [m Hm]]. rewrite LU in *.
  destruct (all_opt (map _ folds)) as [table|] eqn:ET; [|discriminate].
  pose proof (all_opt_length _ _ ET) as LT. rewrite map_length in LT.
  destruct folds as [|f0 fs] eqn:EF; [destruct Hf|]. rewrite <- EF in *. clear EF f0 fs.
  set (NA := length (nth 0 grid [])) in *.
  destruct (np_argmin _) as [q|] eqn:EQ; [|discriminate].
  pose proof (np_argmin_lt _ _ EQ) as Lq. rewrite (concat_grid_length (fun i j => mean_opt (map (fun ft => nth j (nth i ft []) None) table))) in Lq.
  assert (L0 : (0 < length l1s)%nat) by (destruct (length l1s); simpl in Lq; lia).
  assert (NA0 : (0 < NA)%nat) by (destruct NA; [rewrite Nat.mul_0_r in Lq; lia|lia]).
  assert (q = 0%nat).
  { destruct (In_nth folds f f Hf) as [k [Hk Ek]].
    pose proof (all_opt_nth _ folds table k f [] ET Hk) as Q. cbn beta in Q. rewrite Ek in Q.
    pose proof (all_opt_nth _ (combine us grid) (nth k table []) 0 (u, []) [] Q) as Q2. rewrite combine_length, LU, LG, Nat.min_id in Q2.
    specialize (Q2 L0). cbn beta in Q2. rewrite combine_nth in Q2 by congruence. cbn [fst snd] in Q2. unfold fold_deviances in Q2.
    rewrite !pick_norm in Q2. destruct (Reqb _ 0); [discriminate|]. destruct (rows_path _ _ _ _ _ _ _) as [fp|] eqn:ER; [|discriminate].
    injection Q2 as Q2.
    assert (N0 : nth 0 (nth 0 (nth k table []) []) None = None).
    { rewrite <- Q2. destruct (fp_path fp) as [|b l]; [reflexivity|]. cbn [map nth]. rewrite test_deviance_norm by exact HW.
      unfold test_deviance. change (pick rows (fd_test f)) with (rows_at rows (fd_test f)). rewrite HZ.
      rewrite (proj2 (Reqb_true 0 0) eq_refl). unfold rows_at. rewrite map_length. destruct (fd_test f); [congruence|reflexivity]. }
    destruct (length l1s) as [|n1]; [lia|]. destruct NA as [|n2]; [lia|]. cbn [seq map concat app] in EQ.
    unfold np_argmin in EQ. cbn [first_nan] in EQ.
    replace (mean_opt (map (fun ft => nth 0 (nth 0 ft []) None) table)) with (@None R) in EQ.
    - injection EQ as <-. reflexivity.
    - symmetry. unfold mean_opt. rewrite (proj2 (all_opt_none _)); [reflexivity|].
      apply in_map_iff. exists (nth k table []). split; [exact N0|]. apply nth_In. lia. }
  subst q. rewrite Nat.div_0_l, Nat.mod_0_l in H by lia.
  destruct (nth_error us 0) as [ub|]; [|discriminate]. destruct (rows_path _ _ _ _ _ _ _); [|discriminate]. injection H as <-. split; reflexivity.
Qed.
Print Assumptions C43_zero_weight_fold_refuted.

(** With irls-cd the search always returns when the arguments are well-formed (and the start does not
    need guess_intercept): given alphas, at least one l1_ratio, alpha and fold, weight in every training set. *)
Theorem C43_defined : forall seed u P1 P2 l1s l mi ra na se h a folds rows,
  (u_ic u = false \/ a <> StartNone) -> l1s <> [] -> l <> [] -> folds <> [] -> lsum (map r_w rows) <> 0 ->
  (forall f, In f folds -> lsum (map r_w (rows_at rows (fd_train f))) <> 0) ->
  match P1 with P1Identity => True | P1Array v => length v = u_p u end ->
  match P2 with P2Identity => True | P2Array1 v => length v = u_p u | P2Array2 nr nc _ => nr = u_p u /\ nc = u_p u end ->
  exists r, cv_fit (cd_path_solver seed) u P1 P2 l1s (Some l) mi ra na se h a folds rows = Some r.
Proof.
  intros seed u P1 P2 l1s l mi ra na se h a folds rows Hs Hl1 Hl Hfo HW HT HA1 HA2.
  assert (HA : forall l1, In l1 l1s -> at_l1 u P1 P2 l1 <> None).
  { intros l1 _. unfold at_l1. destruct P1 as [|v]; cbn [setup_p1]; [|rewrite HA1, Nat.eqb_refl];
      destruct P2 as [|w|nr nc M]; cbn [setup_p2]; [| |destruct HA2 as [-> ->]| | |destruct HA2 as [-> ->]];
      rewrite ?HA2, ?Nat.eqb_refl; cbn [andb]; discriminate. }
  unfold cv_fit.
  destruct (all_opt (map (at_l1 u P1 P2) l1s)) as [us|] eqn:EU.
  2:{ exfalso. apply all_opt_none in EU. apply in_map_iff in EU as [x [E Hx]]. exact (HA x Hx E). }
  pose proof (all_opt_length _ _ EU) as LU. rewrite map_length in LU. cbn [cv_grid].
  assert (SL : sort_desc l <> []).
  { intros E. pose proof (Permutation_length (sort_desc_perm l)) as Q. rewrite E in Q. destruct l; [congruence|discriminate]. }
  assert (RP : forall ub rs, In ub us -> exists fp, rows_path (cd_path_solver seed) ub se h a (sort_desc l) rs = Some fp).
  { intros ub rs Hub. unfold rows_path. replace (start_guess (with_rows ub rs) h a) with (Some 0); [apply C42_defined; exact SL|].
    unfold start_guess. destruct a; try reflexivity. destruct Hs as [Hs|Hs]; [|congruence].
    apply all_opt_spec in EU. assert (In (Some ub) (map (at_l1 u P1 P2) l1s)) as Hin by (rewrite EU; apply in_map; exact Hub).
    apply in_map_iff in Hin as [x [E _]]. unfold at_l1 in E. destruct (setup_p1 _ _ _ _); [|discriminate]. destruct (setup_p2 _ _ _ _); [|discriminate].
    injection E as <-. cbn [with_rows u_ic set_penalties]. rewrite Hs. reflexivity. }
  set (grid := map (fun _ : user => sort_desc l) us).
  assert (NG : forall i, (i < length us)%nat -> nth i grid [] = sort_desc l).
  { unfold grid. clear. induction us as [|x us IH]; intros i Hi; [simpl in Hi; lia|]. destruct i; [reflexivity|]. simpl. apply IH. simpl in Hi. lia. }
  destruct (all_opt (map _ folds)) as [table|] eqn:ET.
  2:{ exfalso. apply all_opt_none in ET. apply in_map_iff in ET as [f [E Hf]]. apply all_opt_none in E. apply in_map_iff in E as [[ub g] [E Hug]].
      apply (in_combine_l us) in Hug as Hub. assert (g = sort_desc l) as ->.
      { apply in_combine_r in Hug. apply in_map_iff in Hug as [x [<- _]]. reflexivity. }
      cbn [fst snd] in E. unfold fold_deviances in E. rewrite pick_norm, lsum_norm in E.
      rewrite (proj2 (Reqb_false _ 0)) in E.
      - destruct (RP ub (map (norm_row (lsum (map r_w rows))) (pick rows (fd_train f))) Hub) as [fp Efp]. rewrite Efp in E. discriminate.
      - intros F. apply (HT f Hf). change (rows_at rows (fd_train f)) with (pick rows (fd_train f)).
        replace (lsum (map r_w (pick rows (fd_train f)))) with (lsum (map r_w (pick rows (fd_train f))) / lsum (map r_w rows) * lsum (map r_w rows)) by (field; exact HW).
        rewrite F. ring. }
  destruct folds as [|f0 fs]; [congruence|].
  assert (L0 : (0 < length l1s)%nat) by (destruct l1s; [congruence|simpl; lia]).
  assert (N0 : (0 < length (nth 0 grid []))%nat) by (rewrite NG by lia; destruct (sort_desc l); [congruence|simpl; lia]).
  set (NA := length (nth 0 grid [])) in *.
  destruct (np_argmin _) as [q|] eqn:EQ.
  2:{ exfalso. unfold np_argmin in EQ. destruct (first_nan _ 0); [discriminate|].
      match type of EQ with argmin ?x = None => assert (X : x <> []) by
        (intros E; apply (f_equal (@length R)) in E; rewrite map_length, (concat_grid_length (fun i j => mean_opt (map (fun ft => nth j (nth i ft []) None) table))) in E; simpl in E; nia) end.
      apply argmin_some in X as [i X]. congruence. }
  apply np_argmin_lt in EQ. rewrite (concat_grid_length (fun i j => mean_opt (map (fun ft => nth j (nth i ft []) None) table))) in EQ.
  assert (Hbi : (q / NA < length us)%nat) by (rewrite LU; apply Nat.div_lt_upper_bound; lia).
  cbn zeta. rewrite (nth_error_nth' us u Hbi). rewrite NG by exact Hbi.
  destruct (RP (nth (q / NA) us u) (norm_rows rows) (nth_In us u Hbi)) as [fp ->]. eauto.
Qed.
Print Assumptions C43_defined.

(** non-vacuity: four weighted rows, two folds, two l1_ratios, two alphas *)
Definition ex43_u : user := mkUser 0 1 (fun _ _ => 0) (fun _ => 0) (fun _ => 0) (fun _ => 0) false NormalF IdentityL (fun _ => 0) (P2diag (fun _ => 0))
  (fun _ => None) (fun _ => None) false.
Definition ex43_rows : list row :=
  [mkRow (fun _ => 1) 1 1 0; mkRow (fun _ => 2) 3 2 0; mkRow (fun _ => 0) 1 1 0; mkRow (fun _ => 5) 4 3 0].
Definition ex43_folds : list fold := match kfold 4 2 with Some l => l | None => [] end.
Definition ex43_se : settings := mkSettings 10 100 (1 / 10000) None 0 None false false 1000000 0.
Example C43_nonvacuous : kfold 4 2 = Some ex43_folds /\ map fd_test ex43_folds = [[0; 1]; [2; 3]]%nat /\
  folds_weighted ex43_rows ex43_folds /\
  exists r, cv_fit (cd_path_solver (fun _ => 0%N)) ex43_u P1Identity P2Identity [1 / 2; 1] (Some [1; 2]) None None 100 ex43_se false StartNone ex43_folds ex43_rows = Some r.
Proof.
  split; [reflexivity|]. split; [reflexivity|].
  assert (A : forall f, In f ex43_folds -> lsum (map r_w (rows_at ex43_rows (fd_test f))) <> 0 /\ lsum (map r_w (rows_at ex43_rows (fd_train f))) <> 0).
  { intros f [<-|[<-|[]]]; split; cbn; lra. }
  split; [split; [cbn; lra|intros f Hf; apply A, Hf]|].
  apply C43_defined; [left; reflexivity|discriminate|discriminate|discriminate|cbn; lra|intros f Hf; apply A, Hf|exact I|exact I].
Qed.
