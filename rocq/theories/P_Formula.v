(** Theorems C32: monotonic constraints from a formula. *)
From Coq Require Import String Ascii Sorting.Sorted Sorting.Permutation.
From Verif Require Import Base M_Solver M_Formula S_Formula L_Formula L_Formula2 M_Std S_Std L_Std P_LS P_Std.
From Verif Require Import M_Solver S_Solver.
Local Open Scope R_scope.
Local Open Scope string_scope.

(** The matrix built for the constraints means: coefficients monotone in the level order within
    every group of columns that share their other factors. *)
Theorem C32_rows_mean_monotone : forall pf sep names mono q,
  build_monotonic_constraints pf sep names mono = Some q ->
  exists cols, parsed sep names cols /\
  forall w,
    (forall r, (r < iq_m q)%nat -> rsum (List.length names) (fun j => iq_A q r j * w j) <= iq_b q r) <->
    (forall f, (In (f, "increasing") mono -> monotone_coefs pf cols f Increasing w) /\
               (In (f, "decreasing") mono -> monotone_coefs pf cols f Decreasing w)).
Proof.
  intros pf sep names mono q E. destruct (build_iff _ _ _ _ _ E) as [cols [P [B0 [_ [Hd Hiff]]]]].
  exists cols. split; [exact P|]. intros w.
  assert (N : forall f s d, In (f, s) mono -> nearly_monotone 0 pf cols f d w <-> monotone_coefs pf cols f d w).
  { intros f s d Hf. unfold build_monotonic_constraints in E. destruct (all_some _ mono) as [rss|] eqn:Ea; [|discriminate].
    destruct (all_some_In _ _ _ Ea) as [A1 _]. destruct (A1 _ Hf) as [rw [Q _]]. unfold factor_rows in Q. simpl in Q.
    destruct (parse_direction s); [|discriminate]. destruct (group_columns_by_factor sep f names) as [g|] eqn:Eg; [|discriminate].
    eapply nearly_zero; eauto. }
  split.
  - intros H.
    assert (X : forall f s d, In (f, s) mono -> parse_direction s = Some d -> nearly_monotone 0 pf cols f d w).
    { apply Hiff. intros r Hr. rewrite <- (B0 r). apply H. exact Hr. }
    intros f. split; intros Hf; apply (N f _ _ Hf), (X f _ _ Hf); reflexivity.
  - intros H r Hr. rewrite (B0 r). revert r Hr. apply Hiff. intros f s d Hf Hs. apply (N f s d Hf).
    unfold parse_direction in Hs. destruct (String.eqb_spec s "increasing") as [->|].
    + injection Hs as <-. apply (H f). exact Hf.
    + destruct (String.eqb_spec s "decreasing") as [->|]; [|discriminate]. injection Hs as <-. apply (H f). exact Hf.
Qed.
Print Assumptions C32_rows_mean_monotone.

(** The same up to a slack t per row. *)
Theorem C32_rows_with_slack : forall pf sep names mono q,
  build_monotonic_constraints pf sep names mono = Some q ->
  exists cols, parsed sep names cols /\
  forall w t,
    (forall r, (r < iq_m q)%nat -> rsum (List.length names) (fun j => iq_A q r j * w j) <= t) <->
    (forall f, (In (f, "increasing") mono -> nearly_monotone t pf cols f Increasing w) /\
               (In (f, "decreasing") mono -> nearly_monotone t pf cols f Decreasing w)).
Proof.
  intros pf sep names mono q E. destruct (build_iff _ _ _ _ _ E) as [cols [P [B0 [_ [Hd Hiff]]]]].
  exists cols. split; [exact P|]. intros w t. rewrite Hiff. split.
  - intros H f. split; intros Hf; apply (H f _ _ Hf); reflexivity.
  - intros H f s d Hf Hs. unfold parse_direction in Hs. destruct (String.eqb_spec s "increasing") as [->|].
    + injection Hs as <-. apply (H f). exact Hf.
    + destruct (String.eqb_spec s "decreasing") as [->|]; [|discriminate]. injection Hs as <-. apply (H f). exact Hf.
Qed.
Print Assumptions C32_rows_with_slack.

(** Exactly which requests are accepted: at least one constraint, every column name parses, every
    direction is one of the two words, every factor occurs, and none twice in a column. *)
Theorem C32_accepts : forall pf sep names mono,
  (exists q, build_monotonic_constraints pf sep names mono = Some q) <->
  mono <> [] /\ exists cols, parsed sep names cols /\
  forall f s, In (f, s) mono -> (s = "increasing" \/ s = "decreasing") /\
    (exists c x, In c cols /\ In (f, x) c) /\
    (forall c l1 x l2 y l3, In c cols -> c <> (l1 ++ (f, x) :: l2 ++ (f, y) :: l3)%list).
Proof.
  intros pf sep names mono. rewrite build_some. split.
  - intros [Hne [cols [P H]]]. split; [exact Hne|]. exists cols. split; [exact P|]. intros f s Hf.
    destruct (H f s Hf) as [A [[c [Hc M]] C]]. split; [exact A|]. split.
    + destruct (matches f c) as [|[g x] l] eqn:Em; [congruence|].
      assert (I : In (g, x) (matches f c)) by (rewrite Em; left; reflexivity).
      exists c, x. split; [exact Hc|]. pose proof (matches_name _ _ _ I) as Q. simpl in Q. subst g. apply filter_In in I. apply I.
    + intros c' l1 x l2 y l3 Hc' ->. specialize (C _ Hc'). rewrite matches_app in C. rewrite app_length in C.
      change ((f, x) :: (l2 ++ (f, y) :: l3)%list)%list with ([(f, x)] ++ (l2 ++ (f, y) :: l3))%list in C.
      rewrite matches_app, app_length, matches_app, app_length in C.
      change ((f, y) :: l3)%list with ([(f, y)] ++ l3)%list in C. rewrite matches_app, app_length in C.
      unfold matches in C at 2 4. simpl in C. rewrite String.eqb_refl in C. simpl in C. lia.
  - intros [Hne [cols [P H]]]. split; [exact Hne|]. exists cols. split; [exact P|]. intros f s Hf.
    destruct (H f s Hf) as [A [[c [x [Hc M]]] C]]. split; [exact A|]. split.
    + exists c. split; [exact Hc|]. intros Q. assert (I : In (f, x) (matches f c)) by (apply filter_In; split; [exact M|apply String.eqb_refl]).
      rewrite Q in I. destruct I.
    + intros c' Hc'. specialize (C c').
      assert (X : forall c, (2 <= List.length (matches f c))%nat -> exists l1 x l2 y l3, c = (l1 ++ (f, x) :: l2 ++ (f, y) :: l3)%list).
      { clear. assert (Y : forall c, (1 <= List.length (matches f c))%nat -> exists l2 y l3, c = (l2 ++ (f, y) :: l3)%list).
        { intros c. induction c as [|[g z] c IH]; simpl; [lia|]. destruct (String.eqb_spec g f) as [->|].
          - intros _. exists []%list, z, c. reflexivity.
          - intros Q. destruct (IH Q) as [l2 [y [l3 ->]]]. exists ((g, z) :: l2)%list, y, l3. reflexivity. }
        intros c. induction c as [|[g z] c IH]; simpl; [lia|]. destruct (String.eqb_spec g f) as [->|].
        - intros Q. assert (Q' : (1 <= List.length (matches f c))%nat) by (unfold matches in *; simpl in Q; lia). destruct (Y c Q') as [l2 [y [l3 ->]]]. exists []%list, z, l2, y, l3. reflexivity.
        - intros Q. destruct (IH Q) as [l1 [x [l2 [y [l3 ->]]]]]. exists ((g, z) :: l1)%list, x, l2, y, l3. reflexivity. }
      destruct (le_lt_dec (List.length (matches f c')) 1) as [L|L]; [exact L|]. exfalso.
      destruct (X c' L) as [l1 [x' [l2 [y [l3 E]]]]]. exact (C l1 x' l2 y l3 Hc' E).
Qed.
Print Assumptions C32_accepts.

(** Column names are read back as written (default separator). *)
Theorem C32_column_names_roundtrip : forall c, c <> []%list ->
  (forall f, In f c -> factor_wf f /\ trimmed (factor_text f) /\ no_char ":" (factor_text f)) ->
  parse_column_name ":" (column_text ":" c) = Some c.
Proof. exact parse_column_text. Qed.
Print Assumptions C32_column_names_roundtrip.
Theorem C32_factor_syntax : forall part f, parse_factor part = Some f <-> part = factor_text f /\ factor_wf f.
Proof. exact parse_factor_iff. Qed.
Print Assumptions C32_factor_syntax.

(** Variables to factors: a factor is constrained iff a constrained variable occurs in it, in the
    direction of the last such variable; a variable that occurs nowhere, or in a poly/cc factor,
    is rejected. *)
Theorem C32_variables_to_factors : forall spec mc fc, resolve_monotonic spec mc = Some fc ->
  NoDup (map fst fc) /\
  (forall v s, In (v, s) mc -> (exists f, var_in_factor spec v f) /\
     forall f, var_in_factor spec v f -> String.prefix "poly(" f = false /\ String.prefix "cc(" f = false) /\
  (forall v s f, In (v, s) mc -> var_in_factor spec v f ->
     (forall v' s', In (v', s') mc -> var_in_factor spec v' f -> s' = s) -> In (f, s) fc) /\
  (forall f s, In (f, s) fc -> exists v, In (v, s) mc /\ var_in_factor spec v f).
Proof.
  intros spec mc fc E. destruct (resolve_spec spec mc [] fc (NoDup_nil _) E) as [A [B C]]. split; [exact A|]. split; [|split].
  - intros v s H. destruct (B v s H) as [B1 B2]. split; [exact B1|]. intros f Hf. specialize (B2 f Hf). apply orb_false_iff. exact B2.
  - intros v s f H Hf Hall. apply C. left.
    assert (X : forall l : list (string * string), (exists v s, In (v, s) l /\ var_in_factor spec v f) ->
      exists l1 v s l2, l = (l1 ++ (v, s) :: l2)%list /\ var_in_factor spec v f /\ forall v' s', In (v', s') l2 -> ~ var_in_factor spec v' f).
    { clear. assert (D : forall v, {var_in_factor spec v f} + {~ var_in_factor spec v f}).
      { intros v. destruct (in_dec string_dec f (factors_of_var spec v)) as [H|H]; rewrite factors_of_var_iff in H; auto. }
      induction l as [|[a b] l IH]; intros [v [s [H Hf]]]; [destruct H|].
      destruct (existsb (fun vs => if D (fst vs) then true else false) l) eqn:Ex.
      - apply existsb_exists in Ex. destruct Ex as [[v1 s1] [H1 H2]]. simpl in H2. destruct (D v1) as [Hv1|]; [|discriminate].
        destruct IH as [l1 [v2 [s2 [l2 [-> Q]]]]]; [exists v1, s1; auto|]. exists ((a, b) :: l1)%list, v2, s2, l2. auto.
      - assert (No : forall v' s', In (v', s') l -> ~ var_in_factor spec v' f).
        { intros v' s' Hi Hv. assert (existsb (fun vs => if D (fst vs) then true else false) l = true); [|congruence].
          apply existsb_exists. exists (v', s'). split; [exact Hi|]. simpl. destruct (D v'); tauto. }
        destruct H as [Q|H]; [|elim (No _ _ H Hf)]. injection Q as -> ->. exists []%list, v, s, l. auto. }
    destruct (X mc) as [l1 [v1 [s1 [l2 [-> [Hv Hn]]]]]]; [eauto|].
    assert (s1 = s) as -> by (apply (Hall v1); [apply in_or_app; right; left; reflexivity|exact Hv]). exists l1, v1, l2. auto.
  - intros f s H. apply C in H. destruct H as [[l1 [v [l2 [-> [Hv _]]]]]|[_ []]]. exists v. split; [apply in_or_app; right; left; reflexivity|exact Hv].
Qed.
Print Assumptions C32_variables_to_factors.

(** Two variables of one factor with opposite directions are not rejected: the later one wins and
    the earlier request is dropped without an error. *)
Theorem C32_conflict_refuted : exists spec mc fc v s,
  resolve_monotonic spec mc = Some fc /\ In (v, s) mc /\ (forall f, var_in_factor spec v f -> ~ In (f, s) fc).
Proof.
  exists [("np.log(x / z)", ["x"; "z"])]%list, [("x", "increasing"); ("z", "decreasing")]%list, [("np.log(x / z)", "decreasing")]%list, "x", "increasing".
  split; [reflexivity|]. split; [left; reflexivity|]. intros f _ [Q|[]]. congruence.
Qed.
Print Assumptions C32_conflict_refuted.

(** From the user's request to the fitted coefficients: when the monotonic solver raises no
    violation warning the coefficients in the user's units are monotone in every constrained
    factor, up to 1e-6 between neighbouring levels. *)
Theorem C32_monotonic_fit : forall pf sep names spec mc q fc u se inner P2b ls lm lf c mf w1,
  resolve_monotonic spec mc = Some fc -> build_monotonic_constraints pf sep names fc = Some q ->
  u_p u = List.length names ->
  monotonic_irls_solver (std_problem u se) inner (std_ineq q (u_stds u)) P2b ls lm lf c = Some (mf, w1, false) ->
  exists cols, parsed sep names cols /\
  forall v s f, In (v, s) mc -> var_in_factor spec v f ->
    (forall v' s', In (v', s') mc -> var_in_factor spec v' f -> s' = s) ->
    exists d, (s = "increasing" /\ d = Increasing \/ s = "decreasing" /\ d = Decreasing) /\
    nearly_monotone (1 / 1000000) pf cols f d (snd (user_result u (st_coef (ms_st mf)))).
Proof.
  intros pf sep names spec mc q fc u se inner P2b ls lm lf c mf w1 Er Eb Hp Em.
  destruct (C32_rows_with_slack _ _ _ _ _ Eb) as [cols [P Hiff]]. exists cols. split; [exact P|].
  destruct (C31_silent_success_feasible _ _ _ _ _ _ _ _ _ _ _ Em) as [_ [_ [F _]]]. specialize (F eq_refl).
  intros v s f Hv Hf Hall. destruct (C32_variables_to_factors _ _ _ Er) as [_ [_ [G _]]]. specialize (G v s f Hv Hf Hall).
  set (w := snd (user_result u (st_coef (ms_st mf)))).
  pose proof (proj1 (Hiff w (1 / 1000000))) as X. lapply X; clear X.
  - intros X. destruct (C32_accepts pf sep names fc) as [Ac _]. destruct (Ac (ex_intro _ _ Eb)) as [_ [cols' [_ Acc]]].
    destruct (Acc f s G) as [[->| ->] _]; [exists Increasing|exists Decreasing]; (split; [auto|]; apply (X f); exact G).
  - intros r Hr. destruct (C35_inequalities_preserved u se q (st_coef (ms_st mf))) as [Q _]. rewrite <- Hp. fold w in Q. rewrite <- Q. apply F. exact Hr.
Qed.
Print Assumptions C32_monotonic_fit.

(** Worked case: three text levels and a covariate. *)
Definition ex_names : list string := ["g[high]"; "g[low]"; "z"; "g[mid]"]%list.
Example C32_nonvacuous : exists q, build_monotonic_constraints (fun _ => None) ":" ex_names [("g", "increasing")]%list = Some q /\
  iq_m q = 2%nat /\
  ((forall r, (r < iq_m q)%nat -> rsum 4 (fun j => iq_A q r j * (fun k => INR k) j) <= iq_b q r) /\
   ~ (forall r, (r < iq_m q)%nat -> rsum 4 (fun j => iq_A q r j * (fun k => - INR k) j) <= iq_b q r)).
Proof.
  eexists. split; [reflexivity|]. split; [reflexivity|]. split.
  - intros r Hr. cbn [iq_m iq_A iq_b List.length] in *. destruct r as [|[|r]]; [| |lia]; unfold set_at, zero_row; simpl; lra.
  - intros H. specialize (H 0%nat). cbn [iq_m iq_A iq_b List.length] in H. unfold set_at, zero_row in H. simpl in H.
    specialize (H ltac:(lia)). lra.
Qed.
(** The order of text levels is the order of the strings ("high" before "low" before "mid"). *)
Example C32_text_levels_lexicographic :
  sort_members (fun _ => None) [(0%nat, Some "low"); (1%nat, Some "mid"); (2%nat, Some "high")]%list
  = [(2%nat, Some "high"); (0%nat, Some "low"); (1%nat, Some "mid")]%list.
Proof. reflexivity. Qed.
Example C32_parse_example : parse_column_name ":" "bs(x, df=5)[3]:g[a]" = Some [("bs(x, df=5)", Some "3"); ("g", Some "a")]%list.
Proof. reflexivity. Qed.
