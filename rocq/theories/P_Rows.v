(** Theorems C15-C17, C58: what the weights and the order of the rows mean for a fit. *)
From Coq Require Import Permutation FunctionalExtensionality.
From Verif Require Import M_Std S_Std L_Link L_Dist L_Dist4 L_CD L_KKT L_Hess L_Solver L_Solver2 L_Solver3 L_Obj L_Std L_Fit L_Same L_Rows P_Solver P_Obj P_Std P_Fit.
From Verif Require Import M_Solver S_Solver.
Local Open Scope R_scope.

(** C15: dropping the rows with weight 0 *)
Theorem C15_zero_weight_rows_inert : forall u rows,
  same_fit_problem (with_rows u (drop_zero rows)) (with_rows u rows).
Proof. intros. apply same_problem, drop_zero_same. Qed.
Print Assumptions C15_zero_weight_rows_inert.

(** deviance of predictions (any family, any predictions) *)
Theorem C15_deviance : forall f l, deviance f (filter (fun o => negb (Reqb (ow o) 0)) l) = deviance f l.
Proof.
  intros f l. rewrite !deviance_rows. induction l as [|o l IH]; [reflexivity|]. simpl.
  destruct (Reqb (ow o) 0) eqn:E; simpl; rewrite ?lsumf_cons, IH; [|reflexivity]. apply Reqb_true in E. rewrite E. ring.
Qed.
Print Assumptions C15_deviance.

(** The fit itself (hessian_approx = 0): the zero-weight rows still take part in two checks, "no
    variation in y" of the default start and the overflow guard of the line search; when neither
    fires the whole run and its result are the same. *)
Theorem C15_fit_unchanged : forall u se seed has_off rows a, rows_ok u rows -> seeds_ok seed -> se_approx se = 0 ->
  (forall eta, search_mean (u_fam u) (u_link u) eta < se_large se) ->
  (a = StartNone -> u_ic u = true -> u_link u = IdentityL \/
     exists r1 r2, In r1 rows /\ In r2 rows /\ r_w r1 <> 0 /\ r_w r2 <> 0 /\ r_y r1 <> r_y r2) ->
  fit_rows u se seed has_off (drop_zero rows) a = fit_rows u se seed has_off rows a.
Proof.
  intros u se seed has_off rows a Hok Hs HC HL Hg. apply fit_rows_same; auto.
  - apply drop_zero_same.
  - intros c. split; intros _ i _; apply HL.
  - intros Ha Hic Hlk. destruct (Hg Ha Hic) as [?|[r1 [r2 [I1 [I2 [W1 [W2 Y]]]]]]]; [contradiction|].
    assert (F : forall l, In r1 l -> In r2 l -> all_equal (grows u l) = false).
    { intros l H1 H2. destruct (all_equal (grows u l)) eqn:E; [|reflexivity]. apply all_equal_rows in E.
      destruct E as [_ [v E]]. rewrite (E r1 H1), (E r2 H2) in Y. congruence. }
    assert (D : forall r, In r rows -> r_w r <> 0 -> In r (drop_zero rows)).
    { intros r Hr Wr. apply filter_In. split; [exact Hr|]. rewrite (proj2 (Reqb_false _ _)) by exact Wr. reflexivity. }
    rewrite !F; auto.
  - destruct Hok as [A [B C]]. split; [exact A|split; [|exact C]]. intros r Hr. apply filter_In in Hr. apply B, Hr.
Qed.
Print Assumptions C15_fit_unchanged.

(** Finding F17: the hypothesis on the default start is needed: a zero-weight row with another
    response hides "No variation in y", i.e. fit raises without the row and returns with it. *)
Theorem C15_no_variation_check_refuted : exists u se seed rows,
  rows_ok u rows /\ fit_rows u se seed false (drop_zero rows) StartNone = None /\
  exists r, fit_rows u se seed false rows StartNone = Some r.
Proof.
  exists (mkUser 0 0 (fun _ _ => 0) (fun _ => 0) (fun _ => 0) (fun _ => 0) true PoissonF LogL (fun _ => 0) (P2diag (fun _ => 0)) (fun _ => None) (fun _ => None) false).
  exists ex57_se, (fun _ => 1%N), [mkRow (fun _ => 0) 1 1 0; mkRow (fun _ => 0) 1 1 0; mkRow (fun _ => 0) 2 0 0].
  split; [|split].
  - split; [exact I|]. split; [|intros; simpl; lra]. intros r [<-|[<-|[<-|[]]]]; simpl; lra.
  - set (l := drop_zero _).
    assert (El : l = [mkRow (fun _ => 0) 1 1 0; mkRow (fun _ => 0) 1 1 0]).
    { unfold l, drop_zero. simpl. rewrite (proj2 (Reqb_false 1 0)), (proj2 (Reqb_true 0 0)) by lra. reflexivity. }
    rewrite El. unfold fit_rows. simpl. unfold guess_intercept. simpl. rewrite (proj2 (Reqb_true 1 1)) by reflexivity. reflexivity.
  - unfold fit_rows. simpl u_ic. cbv iota. simpl. unfold guess_intercept. simpl.
    rewrite (proj2 (Reqb_false 2 1)) by lra. rewrite ?andb_false_r. cbv iota. simpl.
    match goal with |- exists r, fit_cd ?u ?se ?seed ?g ?a = Some r => destruct (fit_cd u se seed g a) eqn:E end; [eexists; reflexivity|].
    exfalso. unfold fit_cd in E. destruct (irls_solver _ _ _ _) as [[? ?]|] eqn:ES; [discriminate|].
    eapply C27_cd_always_returns; eauto.
Qed.
Print Assumptions C15_no_variation_check_refuted.

(** C16 *)
Theorem C16_integer_weights_are_repetition : forall u l,
  same_fit_problem (with_rows u (freq_rows l)) (with_rows u (expand_rows l)).
Proof. intros. apply same_problem, freq_expand_same. Qed.
Print Assumptions C16_integer_weights_are_repetition.

Theorem C16_deviance_and_dispersion : forall f m ddof l,
  deviance f (freq_obs l) = deviance f (expand_obs l) /\
  dispersion f m true ddof (freq_obs l) = dispersion f m false ddof (expand_obs l).
Proof. intros. split; [apply deviance_expand|apply dispersion_expand_unweighted]. Qed.
Print Assumptions C16_deviance_and_dispersion.

(** the whole fit, for positive integer weights *)
Theorem C16_fit_unchanged : forall u se seed has_off l a, rows_ok u (freq_rows l) -> seeds_ok seed -> se_approx se = 0 ->
  (forall kr, In kr l -> (0 < fst kr)%nat) ->
  fit_rows u se seed has_off (freq_rows l) a = fit_rows u se seed has_off (expand_rows l) a.
Proof.
  intros u se seed has_off l a Hok Hs HC Hk. pose proof (freq_expand_same l) as HR. pose proof (freq_expand_supp l Hk) as HS.
  apply fit_rows_same; auto.
  - apply same_large_rows; assumption.
  - intros _ _ _. apply same_supp_equal, HS.
  - destruct Hok as [A [B C]]. split; [exact A|split; [|exact C]]. apply (HS (fun _ y _ => support (u_fam u) y)). exact B.
Qed.
Print Assumptions C16_fit_unchanged.

(** C17 *)
Theorem C17_weight_scale_irrelevant : forall u c rows, c <> 0 ->
  same_fit_problem (with_rows u (scale_rows c rows)) (with_rows u rows) /\
  normalise_weights (map r_w (scale_rows c rows)) = normalise_weights (map r_w rows).
Proof.
  intros u c rows Hc. split; [apply same_problem, scale_same, Hc|].
  unfold normalise_weights. rewrite !lsum_lsumf, !lsumf_map, !map_map. unfold scale_rows. rewrite lsumf_map, map_map. cbn [set_w r_w].
  rewrite lsumf_scal. apply map_ext. intros r. set (W := lsumf _ _). destruct (Req_dec W 0) as [E|E].
  - rewrite E, Rmult_0_r. unfold Rdiv. rewrite Rinv_0. ring.
  - field. split; assumption.
Qed.
Print Assumptions C17_weight_scale_irrelevant.

(** the whole fit, for any hessian_approx *)
Theorem C17_fit_unchanged : forall u se seed has_off c rows a, c <> 0 ->
  fit_rows u se seed has_off (scale_rows c rows) a = fit_rows u se seed has_off rows a.
Proof.
  intros u se seed has_off c rows a Hc.
  assert (E : with_rows u (scale_rows c rows) = with_rows u rows).
  { unfold with_rows. rewrite (proj2 (C17_weight_scale_irrelevant u c rows Hc)). unfold scale_rows. rewrite map_length.
    assert (N : forall i, nth i (map (fun r => set_w (c * r_w r) r) rows) row0 = set_w (c * r_w (nth i rows row0)) (nth i rows row0)).
    { intros i. replace row0 with (set_w (c * r_w row0) row0) at 1 by (unfold set_w, row0; cbn; f_equal; ring).
      apply (map_nth (fun r => set_w (c * r_w r) r)). }
    f_equal; apply functional_extensionality; intros i; rewrite N; reflexivity. }
  unfold fit_rows. rewrite E. reflexivity.
Qed.
Print Assumptions C17_fit_unchanged.

(** what check_weights accepts is normalised to a probability vector *)
Theorem C17_normalised_weights : forall a n l, (0 < n)%nat -> check_weights a n = Some l ->
  length (normalise_weights l) = n /\ (forall x, In x (normalise_weights l) -> 0 <= x) /\ lsum (normalise_weights l) = 1.
Proof.
  intros a n l Hn E.
  assert (H : length l = n /\ (forall x, In x l -> 0 <= x) /\ 0 < lsum l).
  { destruct a as [|c|v]; simpl in E.
    - injection E as <-. split; [apply repeat_length|]. split; [intros x Hx; apply repeat_spec in Hx; lra|].
      clear - Hn. induction n as [|n IH]; [lia|]. simpl. destruct n; [simpl; lra|]. specialize (IH ltac:(lia)). lra.
    - destruct (Rleb c 0) eqn:Ec; [discriminate|]. apply Rleb_false in Ec. injection E as <-. split; [apply repeat_length|].
      split; [intros x Hx; apply repeat_spec in Hx; lra|].
      clear - Hn Ec. induction n as [|n IH]; [lia|]. simpl. destruct n; [simpl; lra|]. specialize (IH ltac:(lia)). lra.
    - destruct (Nat.eqb_spec (length v) n); [|discriminate]. simpl in E. destruct (existsb _ v) eqn:Ex; [discriminate|].
      destruct (Reqb (lsum v) 0) eqn:Es; [discriminate|]. injection E as <-. apply Reqb_false in Es.
      assert (P : forall x, In x v -> 0 <= x).
      { intros x Hx. destruct (Rlt_dec x 0) as [L|L]; [|lra]. exfalso. assert (existsb (fun x => Rltb x 0) v = true) by (apply existsb_exists; exists x; split; [exact Hx|apply Rltb_true, L]). congruence. }
      split; [assumption|]. split; [exact P|].
      assert (0 <= lsum v). { clear - P. induction v as [|x v IH]; simpl; [lra|]. pose proof (P x (or_introl eq_refl)). assert (0 <= lsum v) by (apply IH; intros; apply P; right; assumption). lra. }
      lra. }
  destruct H as [H1 [H2 H3]]. unfold normalise_weights. split; [rewrite map_length; exact H1|]. split.
  - intros x Hx. apply in_map_iff in Hx. destruct Hx as [y [<- Hy]]. apply Rmult_le_pos; [apply H2, Hy|]. left. apply Rinv_0_lt_compat, H3.
  - rewrite lsum_lsumf, lsumf_map, lsum_lsumf. rewrite lsum_lsumf in H3. set (W := lsumf _ _) in *.
    rewrite (lsumf_ext _ (fun a0 => a0 / W) (fun a0 => / W * a0)) by (intros; unfold Rdiv; ring). rewrite lsumf_scal. unfold W. field. fold W. lra.
Qed.
Print Assumptions C17_normalised_weights.

(** C58: row order *)
Theorem C58_row_order_irrelevant : forall u se seed has_off rows1 rows2 a, Permutation rows1 rows2 ->
  rows_ok u rows1 -> seeds_ok seed -> se_approx se = 0 ->
  same_fit_problem (with_rows u rows1) (with_rows u rows2) /\
  fit_rows u se seed has_off rows1 a = fit_rows u se seed has_off rows2 a.
Proof.
  intros u se seed has_off rows1 rows2 a P Hok Hs HC. pose proof (perm_same _ _ P) as HR. pose proof (perm_supp _ _ P) as HS.
  split; [apply same_problem, HR|]. apply fit_rows_same; auto.
  - apply same_large_rows; assumption.
  - intros _ _ _. apply same_supp_equal, HS.
  - destruct Hok as [A [B C]]. split; [exact A|split; [|exact C]]. apply (HS (fun _ y _ => support (u_fam u) y)). exact B.
Qed.
Print Assumptions C58_row_order_irrelevant.

(** the hypotheses are met by a Poisson data set with two rows, weights 3 and 2 *)
Example C58_nonvacuous : exists u l, rows_ok u (freq_rows l) /\ (forall kr, In kr l -> (0 < fst kr)%nat) /\ length (expand_rows l) = 5%nat.
Proof.
  exists (mkUser 0 1 (fun _ _ => 0) (fun _ => 0) (fun _ => 0) (fun _ => 0) true PoissonF LogL (fun _ => 1) (P2diag (fun _ => 1)) (fun _ => None) (fun _ => Some 4) false).
  exists [(3%nat, mkRow (fun _ => 1) 2 1 0); (2%nat, mkRow (fun _ => 5) 0 1 0)].
  split; [|split; [|reflexivity]].
  - split; [exact I|]. split; [|intros; simpl; lra]. intros r [<-|[<-|[]]]; simpl; lra.
  - intros kr [<-|[<-|[]]]; simpl; lia.
Qed.
