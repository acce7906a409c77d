(** C74: cross-validation does not depend on how its jobs are scheduled. *)
From Verif Require Import S_Jobs L_Jobs L_CV S_Std S_Fit L_Score L_KKT L_Std.
From Coq Require Import FunctionalExtensionality Lia Lra.
From Verif Require Import M_Solver S_Solver.
Local Open Scope R_scope.

Lemma combine_in_jobs {A} (jobs : list A) i j : In (i, j) (combine (seq 0 (length jobs)) jobs) <-> nth_error jobs i = Some j.
Proof.
  assert (G : forall b, In (i, j) (combine (seq b (length jobs)) jobs) <-> (b <= i)%nat /\ nth_error jobs (i - b) = Some j).
  { induction jobs as [|x r IH]; intros b; simpl.
    - split; [intros []|]. intros (_ & H). destruct (i - b)%nat; discriminate.
    - rewrite IH. split.
      + intros [E|(L & H)]; [injection E as -> ->; rewrite Nat.sub_diag; auto|]. split; [lia|]. replace (i - b)%nat with (S (i - S b)) by lia. exact H.
      + intros (L & H). destruct (Nat.eq_dec b i) as [->|N]; [rewrite Nat.sub_diag in H; injection H as ->; auto|].
        right. split; [lia|]. replace (i - b)%nat with (S (i - S b)) in H by lia. exact H. }
  rewrite G, Nat.sub_0_r. split; [intros (_ & H); exact H|split; [lia|auto]].
Qed.
Lemma Forall2_nth {A B} (P : A -> B -> Prop) : forall l l', length l = length l' ->
  (forall k x y, nth_error l k = Some x -> nth_error l' k = Some y -> P x y) -> List.Forall2 P l l'.
Proof.
  induction l as [|x r IH]; intros [|y r'] L H; try discriminate; constructor.
  - apply (H O); reflexivity.
  - apply IH; [simpl in L; lia|]. intros k. apply (H (S k)).
Qed.
Lemma run_length solve se has_off kind sched : forall ws, length (run solve se has_off kind sched ws) = length ws.
Proof.
  unfold run. induction sched as [|i r IH]; intros ws; simpl; auto. rewrite IH. clear. revert i. induction ws; intros [|i]; simpl; auto.
Qed.

Lemma nth_error_ext_map_seq {A B} (f : nat -> B) (g : A -> B) (l : list A) :
  (forall i x, nth_error l i = Some x -> f i = g x) -> map f (seq 0 (length l)) = map g l.
Proof.
  revert f. induction l as [|x r IH]; intros f H; [reflexivity|]. simpl. f_equal; [apply (H O); reflexivity|].
  rewrite <- seq_shift, map_map. apply IH. intros i y E. apply (H (S i)). exact E.
Qed.

(** what is common to the two theorems below: the workers run into their final states *)
Lemma pool_final solve se has_off kind coef jobs ws :
  (forall j, In j jobs -> jb_alphas j <> []) -> (forall j1 j2, In j1 jobs -> In j2 jobs -> same_model j1 j2) ->
  dispatched coef jobs ws ->
  forall k w, nth_error ws k = Some w -> exists w', wruns solve se has_off kind w w' /\
   ((wk_failed w' = true /\ exists i j, In (i, j) (wk_todo w) /\ alone solve se has_off kind coef j = None) \/
    (finished w' /\ wk_failed w' = false /\ exists os, all_opt (map (fun x => alone solve se has_off kind coef (snd x)) (wk_todo w)) = Some os /\
       results_of w' = combine (map fst (wk_todo w)) os)).
Proof.
  intros HA HS (HI & HP) k w Hk. assert (Hw : In w ws) by (eapply nth_error_In; eauto).
  rewrite List.Forall_forall in HI. destruct (HI _ Hw) as (I1 & I2 & I3 & I4).
  assert (HJ : forall i j, In (i, j) (wk_todo w) -> In j jobs).
  { intros i j Hin. eapply nth_error_In with (n := i). apply combine_in_jobs. eapply Permutation_in; [exact HP|].
    apply in_flat_map. exists w. auto. }
  destruct (worker_spec solve se has_off kind coef (wk_todo w) w eq_refl) as (w' & Rw & K).
  - split; [auto|]. split; [auto|]. unfold locs_in. rewrite I3. constructor.
  - intros i j Hin. split; [eapply HA, HJ, Hin|]. left. exact I1.
  - intros i j i' j' H1 H2. apply HS; eapply HJ; eauto.
  - exists w'. split; [exact Rw|]. destruct K as [K|(F & NF & os & E & Er)]; [left; exact K|right].
    split; [auto|]. split; [auto|]. exists os. split; [auto|]. rewrite Er. unfold results_of at 1. rewrite I3. reflexivity.
Qed.

(** C74: whichever way the jobs are batched and whatever the interleaving of the worker processes, when the run has ended the caller gets,
    in the order of the jobs, what every job computes alone from its own rows; an exception is raised exactly
    if some job alone raises.  Stale attributes of self (col_means_, col_stds_, coef_path_ of earlier fits
    or earlier jobs of the batch) have no influence, and the arrays of earlier jobs are not overwritten. *)
Theorem C74_any_schedule : forall solve se has_off kind coef jobs ws sched,
  (forall j, In j jobs -> jb_alphas j <> []) -> (forall j1 j2, In j1 jobs -> In j2 jobs -> same_model j1 j2) ->
  dispatched coef jobs ws -> ended (run solve se has_off kind sched ws) ->
  collect (length jobs) (run solve se has_off kind sched ws) = all_opt (map (alone solve se has_off kind coef) jobs).
Proof.
  intros solve se has_off kind coef jobs ws sched HA HS HD HE.
  pose proof (pool_final solve se has_off kind coef jobs ws HA HS HD) as HF. destruct HD as (HI & HP).
  set (ws' := run solve se has_off kind sched ws) in *.
  assert (HN : forall k w w', nth_error ws k = Some w -> nth_error ws' k = Some w' -> w' = Nat.iter (count_occ Nat.eq_dec sched k) (wstep solve se has_off kind) w).
  { intros k w w' E1 E2. unfold ws' in E2. rewrite run_nth, E1 in E2. simpl in E2. congruence. }
  assert (LW : length ws = length ws') by (unfold ws'; rewrite run_length; reflexivity).
  unfold collect. destruct (existsb wk_failed ws') eqn:EX.
  - apply existsb_exists in EX. destruct EX as (w' & Hin & Hf). apply In_nth_error in Hin. destruct Hin as (k & Hk).
    assert (Hk' : exists w, nth_error ws k = Some w).
    { destruct (nth_error ws k) eqn:E; eauto. exfalso. apply nth_error_None in E. rewrite LW in E. apply nth_error_None in E. congruence. }
    destruct Hk' as (w & Ew). pose proof (HN _ _ _ Ew Hk) as En. destruct (HF _ _ Ew) as (wf & Rf & K).
    assert (Sf : stuck wf) by (destruct K as [(F & _)|(F & _)]; [right|left]; auto).
    assert (E : w' = wf) by (rewrite En; apply (stuck_unique _ _ _ _ _ _ _ Rf Sf); rewrite <- En; right; auto).
    destruct K as [(_ & i & j & Hin & Hv)|(_ & NF & _)]; [|congruence].
    symmetry. apply all_opt_none. apply in_map_iff. exists j. split; [auto|].
    eapply nth_error_In with (n := i). apply combine_in_jobs. eapply Permutation_in; [exact HP|]. apply in_flat_map. exists w. split; [eapply nth_error_In; eauto|auto].
  - assert (HFin : List.Forall finished ws').
    { destruct HE as [?|HE]; auto. exfalso. apply List.Exists_exists in HE. destruct HE as (w & Hin & Hf). assert (existsb wk_failed ws' = true) by (apply existsb_exists; eauto). congruence. }
    assert (F2 : List.Forall2 (fun w w' => exists os, all_opt (map (fun x => alone solve se has_off kind coef (snd x)) (wk_todo w)) = Some os /\
       results_of w' = combine (map fst (wk_todo w)) os) ws ws').
    { apply Forall2_nth; [auto|]. intros k w w' E1 E2. destruct (HF _ _ E1) as (wf & Rf & K).
      assert (Sf : stuck wf) by (destruct K as [(F & _)|(F & _)]; [right|left]; auto).
      pose proof (HN _ _ _ E1 E2) as En. rewrite List.Forall_forall in HFin.
      assert (E : w' = wf) by (rewrite En; apply (stuck_unique _ _ _ _ _ _ _ Rf Sf); rewrite <- En; left; apply HFin; eapply nth_error_In; eauto).
      subst wf. destruct K as [(F & _)|(_ & _ & K)]; [|exact K].
      exfalso. assert (existsb wk_failed ws' = true) by (apply existsb_exists; exists w'; split; [eapply nth_error_In; eauto|auto]). congruence. }
    assert (KEYS : map fst (flat_map results_of ws') = map fst (flat_map wk_todo ws)).
    { clear - F2. induction F2 as [|w w' r r' (os & E & Er) _ IH]; [reflexivity|]. simpl. rewrite !map_app, IH. f_equal.
      rewrite Er. apply all_opt_length in E. rewrite map_length in E. clear - E. revert os E. induction (wk_todo w) as [|x l IH]; intros [|o os] E; try discriminate; simpl; f_equal. apply IH. simpl in E. lia. }
    assert (VALS : forall i j, In (i, j) (flat_map wk_todo ws) -> exists o, alone solve se has_off kind coef j = Some o /\ In (i, o) (flat_map results_of ws')).
    { clear - F2. induction F2 as [|w w' r r' (os & E & Er) _ IH]; [intros i j []|]. intros i j Hin. simpl in Hin. apply in_app_or in Hin. destruct Hin as [Hin|Hin].
      - assert (G : exists o, alone solve se has_off kind coef j = Some o /\ In (i, o) (results_of w')).
        { rewrite Er. clear - E Hin. revert os E. induction (wk_todo w) as [|[i0 j0] l IH]; intros os E; [destruct Hin|]. simpl in E.
          destruct (alone solve se has_off kind coef j0) as [o|] eqn:Ea; [|discriminate].
          destruct (all_opt (map _ l)) as [os'|] eqn:El; [|discriminate]. injection E as <-. destruct Hin as [Eq|Hin].
          - injection Eq as -> ->. exists o. split; [auto|left; reflexivity].
          - destruct (IH Hin os' eq_refl) as (o' & A & B). exists o'. split; [auto|right; auto]. }
        destruct G as (o & A & B). exists o. split; [auto|]. simpl. apply in_or_app. auto.
      - destruct (IH _ _ Hin) as (o & A & B). exists o. split; [auto|]. simpl. apply in_or_app. auto. }
    assert (ND : NoDup (map fst (flat_map results_of ws'))).
    { rewrite KEYS. eapply Permutation_NoDup; [apply Permutation_map, Permutation_sym, HP|].
      replace (map fst (combine (seq 0 (length jobs)) jobs)) with (seq 0 (length jobs)); [apply seq_NoDup|].
      clear. generalize 0%nat. induction jobs as [|x r IH]; intros b; simpl; f_equal. apply IH. }
    f_equal. apply nth_error_ext_map_seq.
    intros i j Hij. destruct (VALS i j) as (o & A & B).
    { eapply Permutation_in; [apply Permutation_sym, HP|]. apply combine_in_jobs, Hij. }
    rewrite A. apply lookup_In; auto.
Qed.
Print Assumptions C74_any_schedule.

(** C74: there is such an end: every schedule that does not starve a worker reaches it. *)
Theorem C74_ends : forall solve se has_off kind coef jobs ws,
  (forall j, In j jobs -> jb_alphas j <> []) -> (forall j1 j2, In j1 jobs -> In j2 jobs -> same_model j1 j2) ->
  dispatched coef jobs ws ->
  exists N, forall sched, (forall k, (k < length ws)%nat -> (N <= count_occ Nat.eq_dec sched k)%nat) ->
  ended (run solve se has_off kind sched ws).
Proof.
  intros solve se has_off kind coef jobs ws HA HS HD.
  pose proof (pool_final solve se has_off kind coef jobs ws HA HS HD) as HF. clear HA HS HD.
  assert (HN : exists N, forall k w, nth_error ws k = Some w -> exists n, (n <= N)%nat /\ stuck (Nat.iter n (wstep solve se has_off kind) w)).
  { assert (HF' : forall k w, nth_error ws k = Some w -> exists n, stuck (Nat.iter n (wstep solve se has_off kind) w)).
    { intros k w E. destruct (HF k w E) as (w' & (n & En) & K). exists n. rewrite En. destruct K as [(F & _)|(F & _)]; [right|left]; auto. }
    clear HF. induction ws as [|w0 r IH].
    - exists O. intros [|k] w E; discriminate.
    - destruct IH as (N & HN). { intros k w E. apply (HF' (S k) w E). }
      destruct (HF' O w0 eq_refl) as (n0 & S0). exists (n0 + N)%nat. intros [|k] w E.
      + injection E as <-. exists n0. split; [lia|auto].
      + destruct (HN k w E) as (n & L & St). exists n. split; [lia|auto]. }
  destruct HN as (N & HN). exists N. intros sched HC.
  assert (ST : List.Forall stuck (run solve se has_off kind sched ws)).
  { apply List.Forall_forall. intros w' Hin. apply In_nth_error in Hin. destruct Hin as (k & Hk).
    assert (Lk : (k < length ws)%nat) by (rewrite <- (run_length solve se has_off kind sched ws); apply nth_error_Some; congruence).
    rewrite run_nth in Hk. destruct (nth_error ws k) as [w|] eqn:E; [|discriminate]. injection Hk as <-.
    destruct (HN k w E) as (n & L & St). specialize (HC k Lk).
    replace (count_occ Nat.eq_dec sched k) with ((count_occ Nat.eq_dec sched k - n) + n)%nat by lia.
    rewrite iter_add, stuck_iter by exact St. exact St. }
  clear - ST. unfold ended. induction ST as [|w r [F|F] _ IH].
  - left. constructor.
  - destruct IH as [IH|IH]; [left; constructor; auto|right; apply List.Exists_cons_tl; auto].
  - right. apply List.Exists_cons_hd. exact F.
Qed.
Print Assumptions C74_ends.

(** ** The table of cross-validation *)
Lemma alone_fold solve se has_off kind coef uu rows f als : als <> [] ->
  option_map (fun o => snd (fst o)) (alone solve se has_off kind coef (mkJob uu als (pick rows (fd_train f)) (pick rows (fd_test f)))) =
  fold_deviances solve uu se has_off (begins kind coef) rows f als.
Proof.
  intros Hal. unfold alone, fold_deviances. cbn [jb_train jb_u jb_alphas jb_test].
  destruct (Reqb _ 0); [reflexivity|]. unfold rows_path, train_deviances. cbv zeta.
  destruct (start_guess _ _ _) as [g|]; [|reflexivity]. unfold fit_path.
  destruct (solve_path _ _ _ als _) as [sols|] eqn:E; [|reflexivity].
  destruct (rev sols); reflexivity.
Qed.
Lemma fold_deviances_nonempty solve uu se has_off a rows f als d : fold_deviances solve uu se has_off a rows f als = Some d -> als <> [].
Proof.
  unfold fold_deviances, rows_path. destruct (Reqb _ 0); [discriminate|]. cbv zeta. destruct (start_guess _ _ _); [|discriminate].
  unfold fit_path. intros H ->. simpl in H. discriminate.
Qed.
Lemma all_opt_flat {A B C} (f : A -> list B) (v : B -> option C) (l : list A) :
  all_opt (map v (flat_map f l)) = option_map (@concat C) (all_opt (map (fun a => all_opt (map v (f a))) l)).
Proof.
  induction l as [|a r IH]; [reflexivity|]. simpl. rewrite map_app.
  assert (G : forall (x y : list (option C)), all_opt (x ++ y) = match all_opt x with None => None | Some p => option_map (app p) (all_opt y) end).
  { clear. induction x as [|[c|] x IH]; intros y; simpl; [destruct (all_opt y); reflexivity| |reflexivity]. rewrite IH. destruct (all_opt x); simpl; auto. destruct (all_opt y); reflexivity. }
  rewrite G, IH. destruct (all_opt (map v (f a))); [|reflexivity]. destruct (all_opt (map _ r)); reflexivity.
Qed.
Lemma all_opt_map {A B} (f : A -> B) (l : list (option A)) : all_opt (map (option_map f) l) = option_map (map f) (all_opt l).
Proof. induction l as [|[a|] r IH]; simpl; auto. rewrite IH. destruct (all_opt r); reflexivity. Qed.
Lemma chunks_concat {A} k : forall (l : list (list A)), (forall x, In x l -> length x = k) -> chunks (length l) k (concat l) = l.
Proof.
  induction l as [|x r IH]; intros H; [reflexivity|]. simpl. assert (L : length x = k) by (apply H; left; auto). f_equal.
  - rewrite firstn_app, <- L, Nat.sub_diag, firstn_all. simpl. apply app_nil_r.
  - rewrite skipn_app, <- L, Nat.sub_diag, skipn_all. simpl. rewrite L. apply IH. intros y Hy. apply H. right; auto.
Qed.

(** C74: hence the table of deviances of a cross-validated fit (from which alpha_, l1_ratio_ and the refit
    follow, C43) is what the workers return, reshaped, for every n_jobs, batching and interleaving. *)
Theorem C74_cv_table : forall solve u P1 P2 l1s alphas min_alpha ratio n_alphas se has_off kind coef folds rows0 r us grid ws sched,
  cv_fit solve u P1 P2 l1s alphas min_alpha ratio n_alphas se has_off (begins kind coef) folds rows0 = Some r ->
  all_opt (map (at_l1 u P1 P2) l1s) = Some us ->
  cv_grid us se (norm_rows rows0) alphas min_alpha ratio n_alphas = Some grid ->
  let jobs := cv_jobs us grid folds (norm_rows rows0) in
  dispatched coef jobs ws -> ended (run solve se has_off kind sched ws) ->
  exists rs, collect (length jobs) (run solve se has_off kind sched ws) = Some rs /\
    cv_table r = chunks (length folds) (length l1s) (map (fun o : outcome => snd (fst o)) rs).
Proof.
  intros solve u P1 P2 l1s alphas min_alpha ratio n_alphas se has_off kind coef folds rows0 r us grid ws sched E Eu Eg jobs HD HE.
  unfold cv_fit in E. cbv zeta in E. rewrite Eu, Eg in E.
  set (rows := norm_rows rows0) in *.
  destruct (all_opt (map (fun f => all_opt _) folds)) as [table|] eqn:ET; [|discriminate].
  assert (TT : cv_table r = table).
  { destruct folds; [discriminate|]. destruct (np_argmin _); [|discriminate]. destruct (nth_error us _); [|discriminate].
    destruct (rows_path _ _ _ _ _ _ _); [|discriminate]. injection E as <-. reflexivity. }
  clear E.
  assert (NE : forall j, In j jobs -> jb_alphas j <> []).
  { intros j Hj. apply in_flat_map in Hj. destruct Hj as (f & Hf & Hj). apply in_map_iff in Hj. destruct Hj as (ug & <- & Hug). cbn [jb_alphas].
    apply all_opt_spec in ET.
    assert (H1 : In (all_opt (map (fun ug => fold_deviances solve (fst ug) se has_off (begins kind coef) rows f (snd ug)) (combine us grid))) (map Some table)).
    { rewrite <- ET. apply in_map_iff. exists f. auto. }
    apply in_map_iff in H1. destruct H1 as (ds & E1 & _). symmetry in E1. apply all_opt_spec in E1.
    assert (H2 : In (fold_deviances solve (fst ug) se has_off (begins kind coef) rows f (snd ug)) (map Some ds)).
    { rewrite <- E1. apply in_map_iff. exists ug. auto. }
    apply in_map_iff in H2. destruct H2 as (d & E2 & _). eapply fold_deviances_nonempty. symmetry. exact E2. }
  assert (US : forall v, In v us -> u_ic v = u_ic u /\ u_lb v = u_lb u /\ u_ub v = u_ub u).
  { apply all_opt_spec in Eu. intros v Hv. assert (H : In (Some v) (map (at_l1 u P1 P2) l1s)) by (rewrite Eu; apply in_map; auto).
    apply in_map_iff in H. destruct H as (l1 & H & _). unfold at_l1 in H.
    destruct (setup_p1 _ _ _ _); [|discriminate]. destruct (setup_p2 _ _ _ _); [|discriminate]. injection H as <-. auto. }
  assert (SM : forall j1 j2, In j1 jobs -> In j2 jobs -> same_model j1 j2).
  { assert (G : forall j, In j jobs -> In (jb_u j) us).
    { intros j Hj. apply in_flat_map in Hj. destruct Hj as (f & Hf & Hj). apply in_map_iff in Hj. destruct Hj as ([v g] & <- & Hug). apply in_combine_l in Hug. exact Hug. }
    intros j1 j2 H1 H2. destruct (US _ (G _ H1)) as (A1 & A2 & A3), (US _ (G _ H2)) as (B1 & B2 & B3). unfold same_model. rewrite A1, A2, A3, B1, B2, B3. auto. }
  rewrite (C74_any_schedule solve se has_off kind coef jobs ws sched NE SM HD HE).
  assert (LG : length grid = length us).
  { unfold cv_grid in Eg. destruct alphas; [injection Eg as <-; apply map_length|]. apply all_opt_length in Eg. rewrite map_length in Eg. exact Eg. }
  assert (LU : length us = length l1s) by (apply all_opt_length in Eu; rewrite map_length in Eu; exact Eu).
  assert (KEY : option_map (map (fun o : outcome => snd (fst o))) (all_opt (map (alone solve se has_off kind coef) jobs)) = Some (concat table)).
  { rewrite <- all_opt_map, map_map. unfold jobs, cv_jobs.
    assert (EQ : forall f ug, In f folds -> In ug (combine us grid) ->
       option_map (fun o : outcome => snd (fst o)) (alone solve se has_off kind coef (mkJob (fst ug) (snd ug) (pick rows (fd_train f)) (pick rows (fd_test f)))) =
       fold_deviances solve (fst ug) se has_off (begins kind coef) rows f (snd ug)).
    { intros f ug Hf Hug. apply alone_fold. apply (NE (mkJob (fst ug) (snd ug) (pick rows (fd_train f)) (pick rows (fd_test f)))).
      unfold jobs, cv_jobs. apply in_flat_map. exists f. split; [auto|]. apply in_map_iff. exists ug. auto. }
    rewrite all_opt_flat.
    replace (map (fun a => all_opt (map (fun x => option_map (fun o : outcome => snd (fst o)) (alone solve se has_off kind coef x))
        (map (fun ug => mkJob (fst ug) (snd ug) (pick rows (fd_train a)) (pick rows (fd_test a))) (combine us grid)))) folds)
      with (map (fun f => all_opt (map (fun ug => fold_deviances solve (fst ug) se has_off (begins kind coef) rows f (snd ug)) (combine us grid))) folds).
    - rewrite ET. reflexivity.
    - apply map_ext_in. intros f Hf. f_equal. rewrite map_map. apply map_ext_in. intros ug Hug. symmetry. apply EQ; auto. }
  destruct (all_opt (map (alone solve se has_off kind coef) jobs)) as [rs|]; [|discriminate]. exists rs. split; [reflexivity|].
  rewrite TT. simpl in KEY. injection KEY as KEY. unfold outcome in *. rewrite KEY.
  assert (LT : length folds = length table) by (apply all_opt_length in ET; rewrite map_length in ET; auto).
  rewrite LT. symmetry. apply chunks_concat. intros x Hx. apply all_opt_spec in ET.
  assert (H1 : In (Some x) (map (fun f => all_opt (map (fun ug => fold_deviances solve (fst ug) se has_off (begins kind coef) rows f (snd ug)) (combine us grid))) folds)).
  { rewrite ET. apply in_map. auto. }
  apply in_map_iff in H1. destruct H1 as (f & E1 & _). apply all_opt_length in E1. rewrite map_length, combine_length in E1. lia.
Qed.
Print Assumptions C74_cv_table.

(** ** Threads *)

Definition race : list nat := [0;0;0;0; 1;1;1;1; 0;0; 1;1; 0;0;0;0; 1;1;1;1]%nat.
Lemma threads_race solve se s0 jA jB al xA xB gA gB :
  u_p (jb_u jA) = 0%nat -> u_p (jb_u jB) = 0%nat -> u_ic (jb_u jA) = true -> u_ic (jb_u jB) = true ->
  jb_alphas jA = [al] -> jb_alphas jB = [al] -> sf_mats s0 = [] ->
  lsum (map r_w (jb_train jA)) <> 0 -> lsum (map r_w (jb_train jB)) <> 0 ->
  start_guess (job_user jA) false StartNone = Some gA -> start_guess (job_user jB) false StartNone = Some gB ->
  solve_alpha solve (std_problem (job_user jA) se) (std_problem_P2 (job_user jA)) al (path_start (job_user jA) gA StartNone) = Some xA ->
  solve_alpha solve (std_problem (job_user jB) se) (std_problem_P2 (job_user jB)) al (path_start (job_user jB) gB StartNone) = Some xB ->
  exists dA tA dB tB s, run_threads solve se false KNone race [(jA, JBegin); (jB, JBegin)] s0 =
    ([(jA, JDone 1 None dA tA); (jB, JDone 1 None dB tB)], s) /\
    map fst (mat_rows true None (get_mat s 1)) = [so_coef xB 0%nat].
Proof.
  intros pA pB iA iB aA aB M0 wA wB GA GB SA SB.
  assert (icA : u_ic (job_user jA) = true) by exact iA. assert (icB : u_ic (job_user jB) = true) by exact iB.
  assert (ppA : u_p (job_user jA) = 0%nat) by exact pA. assert (ppB : u_p (job_user jB) = 0%nat) by exact pB.
  apply Reqb_false in wA, wB.
  assert (PS : forall j g m v, get_start_coef (u_p (job_user j)) (u_ic (job_user j)) m v g (u_lb (job_user j)) (u_ub (job_user j)) StartNone = path_start (job_user j) g StartNone) by reflexivity.
  eexists _, _, _, _, _. split.
  { unfold race.
    Ltac one := cbn [run_threads]; unfold thread_step at 1; cbn [nth_error]; cbn [jstep].
    one. rewrite wA. cbn [put]. one. cbn [put]. one. cbn [start_with]. rewrite GA, PS. cbn [put].
    one. rewrite aA. cbn [put].
    one. rewrite wB. cbn [put]. one. cbn [put]. one. cbn [start_with]. rewrite GB, PS. cbn [put].
    one. rewrite aB. unfold new_path, set_stds, set_means. cbn [put length sf_means sf_stds sf_path sf_coef sf_mats]. rewrite M0. cbn [app length].
    one. rewrite SA. cbn [put].
    one. cbn [sf_path get_mat sf_mats nth fst snd Nat.ltb Nat.leb put sf_means sf_stds sf_coef]; unfold write_mat; cbn [sf_path sf_mats sf_means sf_stds sf_coef put].
    one. rewrite SB. cbn [put].
    one. unfold get_mat at 1 2 3. cbn [sf_path get_mat sf_mats nth fst snd Nat.ltb Nat.leb put sf_means sf_stds sf_coef]; unfold write_mat; cbn [sf_path sf_mats sf_means sf_stds sf_coef put].
    one. cbn [put sf_path]. one. cbn [put]. one. rewrite icA, ppA. unfold write_mat; cbn [put sf_path sf_mats sf_means sf_stds sf_coef rsum]. unfold get_mat at 1 2 3. cbn [nth fst snd sf_mats].
    one. cbn [put].
    one. cbn [put sf_path]. one. cbn [put]. one. rewrite icB, ppB. unfold write_mat; cbn [put sf_path sf_mats sf_means sf_stds sf_coef rsum]. unfold get_mat at 1 2 3. cbn [nth fst snd sf_mats].
    one. cbn [put run_threads]. reflexivity. }
  unfold mat_rows. cbn. f_equal. ring.
Qed.

(** two training sets without features, one response each *)
Definition ex74_u : user := mkUser 1 0 (fun _ _ => 0) (fun _ => 0) (fun _ => 1) (fun _ => 0) true NormalF IdentityL (fun _ => 0) (P2diag (fun _ => 0)) (fun _ => None) (fun _ => None) false.
Definition ex74_se : settings := mkSettings 100 1000 (1 / 10000) None 0 None false false 1000000 (1 / 1000000000).
Definition ex74_job (y : R) : cvjob := mkJob ex74_u [1] [mkRow (fun _ => 0) y 1 0] [mkRow (fun _ => 0) y 1 0].
Lemma ex74_w y : u_w (job_user (ex74_job y)) 0%nat = 1.
Proof. cbn. field. Qed.
Lemma ex74_guess y : start_guess (job_user (ex74_job y)) false StartNone = Some y.
Proof. unfold start_guess. cbn. f_equal. unfold gavg. cbn. field. Qed.
Lemma ex74_solve seed y : exists x, solve_alpha (cd_path_solver seed) (std_problem (job_user (ex74_job y)) ex74_se) (std_problem_P2 (job_user (ex74_job y))) 1
   (path_start (job_user (ex74_job y)) y StartNone) = Some x /\ so_coef x 0%nat = y.
Proof.
  set (u := job_user (ex74_job y)).
  assert (Hok : user_ok u).
  { split; [exact I|]. split; [intros; exact I|]. split.
    - intros i Hi. assert (i = 0%nat) by (cbn in Hi; lia). subst. unfold u. rewrite ex74_w. lra.
    - split; [intros; cbn; lra|]. split; [intros i j Hi; cbn in Hi; lia|]. intros x. cbn. lra. }
  set (v := get_start_coef (u_p u) (u_ic u) (u_means u) (u_stds u) y (u_lb u) (u_ub u) StartNone).
  assert (T : fit_cd u ex74_se seed y StartNone = Some (user_result u v, false)).
  { apply fit_at_start; [exact Hok|cbn; lra|]. cbv zeta. fold v. change (nc (std_problem u ex74_se)) with 1%nat. cbn [rsum].
    unfold entry. cbn [std_problem pb_ic u job_user ex74_job jb_u jb_train with_rows ex74_u u_ic ioff Nat.ltb Nat.leb]. fold u.
    rewrite (score_intercept u ex74_se v eq_refl I). change (u_n u) with 1%nat. cbn [rsum]. 
    match goal with |- 0 + Rabs ?z < _ => replace z with 0 end; [rewrite Rabs_R0; cbn; lra|].
    unfold residual, user_eta, user_result. cbn. field. }
  unfold fit_cd in T. fold v in T. unfold solve_alpha, cd_path_solver.
  assert (E1 : set_P1 (std_problem u ex74_se) (p1_scale 1 (pb_P1 (std_problem u ex74_se))) = std_problem u ex74_se).
  { replace (p1_scale 1 (pb_P1 (std_problem u ex74_se))) with (pb_P1 (std_problem u ex74_se)); [reflexivity|]. apply functional_extensionality; intros k. unfold p1_scale. ring. }
  assert (E2 : p2_scale 1 (std_problem_P2 u) = std_problem_P2 u).
  { change (std_problem_P2 u) with (P2diag (fun j => 0 * one_over (u_stds u j) ^ 2)). simpl. f_equal. apply functional_extensionality; intros k. ring. }
  rewrite E1, E2. change (path_start u y StartNone) with v.
  destruct (irls_solver _ _ _ v) as [[st w]|]; [|discriminate]. eexists. split; [reflexivity|]. injection T as T.
  cbn [so_coef]. change (v 0%nat) with y in T. lra.
Qed.
Lemma ex74_alone seed y c : exists r, alone (cd_path_solver seed) ex74_se false KNone c (ex74_job y) = Some r /\ map fst (fst (fst r)) = [y].
Proof.
  destruct (ex74_solve seed y) as (x & E & V).
  unfold alone. rewrite (proj2 (Reqb_false _ _)) by (cbn; lra). unfold rows_path, train_deviances. cbv zeta. cbn [begins].
  change (with_rows (jb_u (ex74_job y)) (jb_train (ex74_job y))) with (job_user (ex74_job y)). rewrite ex74_guess.
  unfold fit_path. change (jb_alphas (ex74_job y)) with [1]. cbn [solve_path]. rewrite E. cbn [rev app fp_path map].
  eexists. split; [reflexivity|]. cbn. rewrite V. f_equal. ring.
Qed.
(** finding F34: as threads on one self (a parallel_backend("threading") context) the jobs race: two
    training sets with responses 1 and 0 and no features; both threads end, and the result of the first is
    the intercept of the second. *)
Theorem C74_threads_refuted : forall seed, exists se j1 j2 sched s0 ts s r1 r2 l d t,
  alone (cd_path_solver seed) se false KNone (sf_coef s0) j1 = Some r1 /\
  alone (cd_path_solver seed) se false KNone (sf_coef s0) j2 = Some r2 /\
  same_model j1 j2 /\
  run_threads (cd_path_solver seed) se false KNone sched [(j1, JBegin); (j2, JBegin)] s0 = (ts, s) /\
  nth_error ts 0 = Some (j1, JDone l None d t) /\
  map fst (fst (fst r1)) = [1] /\ map fst (fst (fst r2)) = [0] /\
  map fst (mat_rows true None (get_mat s l)) = [0].
Proof.
  intros seed.
  destruct (ex74_solve seed 1) as (x1 & E1 & V1). destruct (ex74_solve seed 0) as (x2 & E2 & V2).
  set (s0 := mkSelf (fun _ => 0) (fun _ => 0) 0 (fun _ => 0) []).
  assert (W : forall y, lsum (map r_w (jb_train (ex74_job y))) <> 0) by (intros; cbn; lra).
  destruct (threads_race (cd_path_solver seed) ex74_se s0 (ex74_job 1) (ex74_job 0) 1 x1 x2 1 0 eq_refl eq_refl eq_refl eq_refl eq_refl eq_refl eq_refl
     (W 1) (W 0) (ex74_guess 1) (ex74_guess 0) E1 E2) as (dA & tA & dB & tB & s & RUN & RES).
  destruct (ex74_alone seed 1 (sf_coef s0)) as (r1 & A1 & B1). destruct (ex74_alone seed 0 (sf_coef s0)) as (r2 & A2 & B2).
  exists ex74_se, (ex74_job 1), (ex74_job 0), race, s0, [(ex74_job 1, JDone 1 None dA tA); (ex74_job 0, JDone 1 None dB tB)], s, r1, r2, 1%nat, dA, tA.
  split; [exact A1|]. split; [exact A2|]. split; [repeat split|]. split; [exact RUN|]. split; [reflexivity|]. split; [exact B1|]. split; [exact B2|].
  rewrite RES, V2. reflexivity.
Qed.
Print Assumptions C74_threads_refuted.

(** non-vacuity: the same two jobs in one batch and in two processes; both end with the right results *)
Example C74_nonvacuous : forall seed, exists se j1 j2 one two r1 r2 sched1 sched2,
  dispatched (fun _ => 0) [j1; j2] one /\ dispatched (fun _ => 0) [j1; j2] two /\ length one = 1%nat /\ length two = 2%nat /\
  collect 2 (run (cd_path_solver seed) se false KNone sched1 one) = Some [r1; r2] /\
  collect 2 (run (cd_path_solver seed) se false KNone sched2 two) = Some [r1; r2] /\
  map fst (fst (fst r1)) = [1] /\ map fst (fst (fst r2)) = [0].
Proof.
  intros seed. set (s := mkSelf (fun _ => 0) (fun _ => 0) 0 (fun _ => 0) []).
  destruct (ex74_alone seed 1 (fun _ => 0)) as (r1 & A1 & B1). destruct (ex74_alone seed 0 (fun _ => 0)) as (r2 & A2 & B2).
  set (jobs := [ex74_job 1; ex74_job 0]).
  set (one := [mkWorker s None [(0%nat, ex74_job 1); (1%nat, ex74_job 0)] [] false]).
  set (two := [mkWorker s None [(1%nat, ex74_job 0)] [] false; mkWorker s None [(0%nat, ex74_job 1)] [] false]).
  assert (NE : forall j, In j jobs -> jb_alphas j <> []) by (intros j [<-|[<-|[]]]; discriminate).
  assert (SM : forall j1 j2, In j1 jobs -> In j2 jobs -> same_model j1 j2) by (intros j1 j2 [<-|[<-|[]]] [<-|[<-|[]]]; repeat split).
  assert (I : forall q, idle_worker (fun _ => 0) (mkWorker s None q [] false)) by (intros; repeat split).
  assert (D1 : dispatched (fun _ => 0) jobs one) by (split; [repeat constructor; apply I|apply Permutation_refl]).
  assert (D2 : dispatched (fun _ => 0) jobs two) by (split; [repeat constructor; apply I|apply perm_swap]).
  destruct (C74_ends (cd_path_solver seed) ex74_se false KNone (fun _ => 0) jobs one NE SM D1) as (N1 & H1).
  destruct (C74_ends (cd_path_solver seed) ex74_se false KNone (fun _ => 0) jobs two NE SM D2) as (N2 & H2).
  assert (CO : forall k n m, (k < 2)%nat -> (n <= m)%nat -> (n <= count_occ Nat.eq_dec (repeat 0%nat m ++ repeat 1%nat m) k)%nat).
  { intros k n m Hk L. rewrite count_occ_app. destruct k as [|[|k]]; [| |lia].
    - rewrite (count_occ_repeat_eq Nat.eq_dec) by reflexivity. lia.
    - rewrite (count_occ_repeat_eq Nat.eq_dec m (eq_refl 1%nat)). lia. }
  set (sc m := (repeat 0%nat m ++ repeat 1%nat m)).
  exists ex74_se, (ex74_job 1), (ex74_job 0), one, two, r1, r2, (sc N1), (sc N2).
  split; [exact D1|]. split; [exact D2|]. split; [reflexivity|]. split; [reflexivity|].
  assert (AV : all_opt (map (alone (cd_path_solver seed) ex74_se false KNone (fun _ => 0)) jobs) = Some [r1; r2]) by (cbn [map jobs all_opt]; rewrite A1, A2; reflexivity).
  rewrite <- AV. split; [|split; [|auto]].
  - apply (C74_any_schedule _ _ _ _ (fun _ => 0) jobs one (sc N1) NE SM D1). apply H1. intros k Hk. apply CO; cbn in Hk; lia.
  - apply (C74_any_schedule _ _ _ _ (fun _ => 0) jobs two (sc N2) NE SM D2). apply H2. intros k Hk. apply CO; cbn in Hk; lia.
Qed.
