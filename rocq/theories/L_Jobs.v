(** Lemmas for C74. *)
From Verif Require Import S_Jobs L_CV L_Std L_Path.
From Coq Require Import FunctionalExtensionality Lia Lra.
From Verif Require Import M_Solver S_Solver.
Local Open Scope R_scope.

Lemma clip_start_idem ic lb ub c : clip_start ic lb ub (clip_start ic lb ub c) = clip_start ic lb ub c.
Proof.
  apply functional_extensionality; intros k. unfold clip_start. destruct (Nat.ltb k (ioff ic)); [reflexivity|].
  destruct (ub _) as [b|], (lb _) as [l|]; cbn; auto; unfold Rmin, Rmax; repeat destruct (Rle_dec _ _); lra.
Qed.

Lemma put_app_last {A} (pre : list A) x y : put (pre ++ [x]) (length pre) y = pre ++ [y].
Proof. induction pre; simpl; [reflexivity|]. f_equal. auto. Qed.

Section Job.
Variables (solve : path_solver) (se : settings) (has_off : bool) (kind : start_kind) (coef : nat -> R) (j : cvjob).
Notation step := (jstep solve se has_off kind j).
Notation u := (job_user j).
Definition terminal (st : jstate) : bool := match st with JDone _ _ _ _ | JRaise => true | _ => false end.
Inductive jruns : jstate * selfst -> jstate * selfst -> Prop :=
| jr_refl x : jruns x x
| jr_step st s y : terminal st = false -> jruns (step st s) y -> jruns (st, s) y.
Lemma jruns_trans x y z : jruns x y -> jruns y z -> jruns x z.
Proof. induction 1; intros; auto. econstructor; eauto. Qed.

(** coef_ at any time during a batch: as at the beginning, or clipped by a job of the same model *)
Definition coef_ok (s : selfst) : Prop :=
  sf_coef s = coef \/ ((exists c0, kind = KWarm c0) /\ u_ic (jb_u j) = false /\ sf_coef s = clip_start false (u_lb (jb_u j)) (u_ub (jb_u j)) coef).
Lemma coef_ok_start s m v g : coef_ok s ->
  get_start_coef (u_p u) (u_ic u) m v g (u_lb u) (u_ub u) (start_with kind (sf_coef s)) =
  get_start_coef (u_p u) (u_ic u) m v g (u_lb u) (u_ub u) (start_with kind coef).
Proof.
  intros [->|((c0 & ->) & Hic & ->)]; [reflexivity|]. unfold get_start_coef, start_with. simpl u_ic. rewrite Hic. simpl.
  change (pack false c0 ?x) with x. apply (clip_start_idem false).
Qed.
Lemma start_guess_kind c1 c2 : start_guess u has_off (start_with kind c1) = start_guess u has_off (start_with kind c2).
Proof. unfold start_guess, start_with. destruct kind; reflexivity. Qed.

Lemma loop_some : forall rest k c s pre n M sols,
  sf_path s = length pre -> sf_mats s = pre ++ [(n, M)] -> (k + length rest <= n)%nat ->
  solve_path solve (std_problem u se) (std_problem_P2 u) rest c = Some sols ->
  exists s' M', jruns (JSolve k rest c, s) (JTrain (length pre), s') /\
    sf_means s' = sf_means s /\ sf_stds s' = sf_stds s /\ sf_coef s' = sf_coef s /\
    sf_mats s' = pre ++ [(n, M')] /\
    (forall i, M' i = if (Nat.leb k i && Nat.ltb i (k + length rest))%bool then so_coef (nth (i - k) sols (mkSol (fun _ => 0) 0 false)) else M i).
Proof.
  induction rest as [|al r IH]; intros k c s pre n M sols Hp Hm Hk E; cbn [solve_path] in E.
  - exists s, M. split; [|repeat split; auto].
    + eapply jr_step; [reflexivity|]. cbn. rewrite Hp. constructor.
    + intros i. simpl. replace (Nat.leb k i && Nat.ltb i (k + 0))%bool with false; [reflexivity|].
      symmetry. apply Bool.andb_false_iff. destruct (Nat.leb_spec k i); auto. right. apply Nat.ltb_ge. lia.
  - destruct (solve_alpha _ _ _ al c) as [x|] eqn:ES; [|discriminate].
    destruct (solve_path _ _ _ r (so_coef x)) as [xs|] eqn:ER; [|discriminate]. injection E as <-.
    simpl length in Hk.
    set (s1 := write_mat (length pre) (n, fun i => if Nat.eqb i k then so_coef x else M i) s).
    destruct (IH (S k) (so_coef x) s1 pre n (fun i => if Nat.eqb i k then so_coef x else M i) xs) as (s' & M' & J & A1 & A2 & A3 & A4 & A5); auto.
    + simpl. rewrite Hm. apply put_app_last.
    + lia.
    + exists s', M'. split; [|repeat split; auto].
      * eapply jr_step; [reflexivity|]. cbn [jstep]. rewrite ES. eapply jr_step; [reflexivity|].
        assert (G : get_mat s (sf_path s) = (n, M)) by (unfold get_mat; rewrite Hp, Hm; apply nth_middle).
        cbn [jstep]. rewrite G. cbn [fst snd]. destruct (Nat.ltb_spec k n); [|lia]. rewrite Hp. exact J.
      * intros i. rewrite A5. simpl length.
        destruct (Nat.eqb_spec i k) as [->|N].
        -- replace (Nat.leb (S k) k) with false by (symmetry; apply Nat.leb_gt; lia). rewrite Nat.leb_refl. simpl.
           replace (Nat.ltb k (k + S (length r))) with true by (symmetry; apply Nat.ltb_lt; lia). rewrite Nat.sub_diag. reflexivity.
        -- destruct (Nat.leb_spec (S k) i), (Nat.leb_spec k i); try lia; simpl; auto.
           replace (S (k + length r)) with (k + S (length r))%nat by lia.
           destruct (Nat.ltb_spec i (k + S (length r))); auto. replace (i - k)%nat with (S (i - S k)) by lia. reflexivity.
Qed.
Lemma loop_none : forall rest k c s pre n M,
  sf_path s = length pre -> sf_mats s = pre ++ [(n, M)] -> (k + length rest <= n)%nat ->
  solve_path solve (std_problem u se) (std_problem_P2 u) rest c = None ->
  exists s', jruns (JSolve k rest c, s) (JRaise, s').
Proof.
  induction rest as [|al r IH]; intros k c s pre n M Hp Hm Hk E; cbn [solve_path] in E; [discriminate|].
  destruct (solve_alpha _ _ _ al c) as [x|] eqn:ES.
  - destruct (solve_path _ _ _ r (so_coef x)) as [xs|] eqn:ER; [discriminate|]. simpl length in Hk.
    destruct (IH (S k) (so_coef x) (write_mat (length pre) (n, fun i => if Nat.eqb i k then so_coef x else M i) s) pre n (fun i => if Nat.eqb i k then so_coef x else M i)) as (s' & J); auto.
    + simpl. rewrite Hm. apply put_app_last.
    + lia.
    + exists s'. eapply jr_step; [reflexivity|]. cbn [jstep]. rewrite ES. eapply jr_step; [reflexivity|].
      assert (G : get_mat s (sf_path s) = (n, M)) by (unfold get_mat; rewrite Hp, Hm; apply nth_middle).
      cbn [jstep]. rewrite G. cbn [fst snd]. destruct (Nat.ltb_spec k n); [|lia]. rewrite Hp. exact J.
  - exists s. eapply jr_step; [reflexivity|]. cbn [jstep]. rewrite ES. constructor.
Qed.

Lemma solve_path_length pb P2 : forall als c sols, solve_path solve pb P2 als c = Some sols -> length sols = length als.
Proof.
  induction als as [|al r IH]; intros c sols E; cbn [solve_path] in E; [injection E as <-; reflexivity|].
  destruct (solve_alpha _ _ _ _ _); [|discriminate]. destruct (solve_path _ _ _ r _) eqn:ER; [|discriminate].
  injection E as <-. simpl. f_equal. eapply IH; eauto.
Qed.
Lemma map_sols {A} (f : sol -> A) (sols : list sol) n (e : nat -> A) :
  n = length sols -> (forall i, (i < n)%nat -> e i = f (nth i sols (mkSol (fun _ => 0) 0 false))) ->
  map e (seq 0 n) = map f sols.
Proof.
  intros -> H. transitivity (map (fun i => f (nth i sols (mkSol (fun _ => 0) 0 false))) (seq 0 (length sols))).
  - apply map_ext_in. intros i Hi. apply in_seq in Hi. apply H. lia.
  - clear. set (d := mkSol _ _ _). induction sols as [|s r IH] using rev_ind; [reflexivity|].
    rewrite app_length, Nat.add_1_r, seq_S, !map_app. simpl. f_equal.
    + rewrite <- IH. apply map_ext_in. intros i Hi. apply in_seq in Hi. rewrite app_nth1 by lia. reflexivity.
    + rewrite nth_middle. reflexivity.
Qed.

(** the sequential behaviour of one job *)
Lemma job_spec s : jb_alphas j <> [] -> coef_ok s ->
  exists st s', jruns (JBegin, s) (st, s') /\
  match alone solve se has_off kind coef j with
  | None => st = JRaise
  | Some o => exists ints dev tr m, st = JDone (length (sf_mats s)) ints dev tr /\ coef_ok s' /\
      sf_mats s' = sf_mats s ++ [m] /\ o = (mat_rows (u_ic (jb_u j)) ints m, dev, tr)
  end.
Proof.
  intros Hal Hc. unfold alone. change (begins kind coef) with (start_with kind coef).
  destruct (Reqb (lsum (map r_w (jb_train j))) 0) eqn:EW.
  { exists JRaise, s. split; [|reflexivity]. eapply jr_step; [reflexivity|]. cbn [jstep]. rewrite EW. constructor. }
  unfold rows_path, train_deviances. fold u. cbv zeta.
  set (s1 := set_means (u_means u) s). set (s2 := set_stds (u_stds u) s1).
  assert (R2 : jruns (JBegin, s) (JStart, s2)).
  { eapply jr_step; [reflexivity|]. cbn [jstep]. rewrite EW. eapply jr_step; [reflexivity|]. constructor. }
  assert (C2 : coef_ok s2) by exact Hc.
  rewrite (start_guess_kind coef (sf_coef s2)).
  destruct (start_guess u has_off (start_with kind (sf_coef s2))) as [g|] eqn:EG.
  2:{ exists JRaise, s2. split; [|reflexivity]. eapply jruns_trans; [exact R2|]. eapply jr_step; [reflexivity|]. cbn [jstep]. rewrite EG. constructor. }
  set (c := path_start u g (start_with kind coef)).
  assert (Ec : get_start_coef (u_p u) (u_ic u) (sf_means s2) (sf_stds s2) g (u_lb u) (u_ub u) (start_with kind (sf_coef s2)) = c).
  { rewrite coef_ok_start by exact C2. reflexivity. }
  set (s3 := match kind with KWarm _ => if u_ic u then s2 else set_coef c s2 | _ => s2 end).
  assert (R3 : jruns (JBegin, s) (JAlloc c, s3)).
  { eapply jruns_trans; [exact R2|]. eapply jr_step; [reflexivity|]. cbn [jstep]. rewrite EG. rewrite Ec. constructor. }
  assert (C3 : coef_ok s3).
  { unfold s3. destruct kind as [c0| |] eqn:Ek; auto. destruct (u_ic u) eqn:Ei; auto. right. split; [exists c0; exact Ek|]. split; [exact Ei|].
    cbn. unfold c, path_start, get_start_coef, start_with. rewrite Ei. reflexivity. }
  assert (M3 : sf_mats s3 = sf_mats s /\ sf_means s3 = u_means u /\ sf_stds s3 = u_stds u).
  { unfold s3. destruct kind; [destruct (u_ic u)| |]; auto. }
  destruct M3 as (M3 & E3m & E3s).
  set (s4 := new_path (length (jb_alphas j)) s3).
  assert (R4 : jruns (JBegin, s) (JSolve 0 (jb_alphas j) c, s4)).
  { eapply jruns_trans; [exact R3|]. eapply jr_step; [reflexivity|]. constructor. }
  assert (P4 : sf_path s4 = length (sf_mats s)) by (cbn; rewrite M3; reflexivity).
  assert (M4 : sf_mats s4 = sf_mats s ++ [(length (jb_alphas j), fun _ _ => 0)]) by (cbn; rewrite M3; reflexivity).
  unfold fit_path.
  destruct (solve_path solve (std_problem u se) (std_problem_P2 u) (jb_alphas j) c) as [sols|] eqn:ES.
  2:{ destruct (loop_none _ 0%nat c s4 _ _ _ P4 M4 (le_n _) ES) as (s' & J). exists JRaise, s'. split; [|reflexivity]. eapply jruns_trans; eauto. }
  destruct (loop_some _ 0%nat c s4 _ _ _ _ P4 M4 (le_n _) ES) as (s5 & M' & J & A1 & A2 & A3 & A4 & A5).
  pose proof (solve_path_length _ _ _ _ _ ES) as HL.
  assert (Hrev : rev sols <> []).
  { intros Z. apply Hal. apply length_zero_iff_nil. rewrite <- HL, <- rev_length, Z. reflexivity. }
  destruct (rev sols) as [|sl rl] eqn:ER; [congruence|]. clear Hrev.
  cbn [fp_path].
  assert (B5 : forall i, (i < length (jb_alphas j))%nat -> M' i = so_coef (nth i sols (mkSol (fun _ => 0) 0 false))).
  { intros i Hi. rewrite A5. simpl. rewrite Nat.sub_0_r. replace (Nat.ltb i (length (jb_alphas j))) with true by (symmetry; apply Nat.ltb_lt; auto). reflexivity. }
  clear A5. assert (G5 : get_mat s5 (length (sf_mats s)) = (length (jb_alphas j), M')) by (unfold get_mat; rewrite A4; apply nth_middle).
  set (tr := map (fun i => job_train_dev se j (snd (get_mat s5 (length (sf_mats s))) i)) (seq 0 (fst (get_mat s5 (length (sf_mats s)))))).
  assert (R5 : jruns (JBegin, s) (JUnstd (length (sf_mats s)) tr, s5)).
  { eapply jruns_trans; [exact R4|]. eapply jruns_trans; [exact J|]. eapply jr_step; [reflexivity|]. constructor. }
  assert (Etr : tr = map (fun s0 => deviance (u_fam u) (map (fun i => mkobs (u_y u i) (u_w u i) (inverse1 (u_link u) (lin_pred (std_problem u se) (so_coef s0) i + u_off u i))) (seq 0 (u_n u)))) sols).
  { unfold tr. rewrite G5. cbn [fst snd]. apply map_sols; [congruence|]. intros i Hi. rewrite B5 by auto. reflexivity. }
  assert (A1' : sf_means s5 = u_means u) by (rewrite A1; exact E3m). assert (A2' : sf_stds s5 = u_stds u) by (rewrite A2; exact E3s).
  assert (C5 : coef_ok s5) by (unfold coef_ok; rewrite A3; exact C3).
  fold u. destruct (u_ic u) eqn:Ei.
  - set (m := (length (jb_alphas j), fun i k => match k with
           | O => M' i O - rsum (u_p u) (fun q => u_means u q * one_over (u_stds u q) * M' i (S q))
           | S q => M' i (S q) * one_over (u_stds u q) end) : nat * (nat -> nat -> R)).
    set (s6 := write_mat (length (sf_mats s)) m s5).
    set (dev := map (test_deviance (jb_u j) (jb_test j)) (mat_rows true None m)).
    assert (G6 : get_mat s6 (length (sf_mats s)) = m) by (unfold s6, get_mat; cbn; rewrite A4, put_app_last; apply nth_middle).
    assert (Erows : mat_rows true None m = map (fun s0 => user_result u (so_coef s0)) sols).
    { unfold mat_rows, m. cbn [fst snd]. apply map_sols; [congruence|]. intros i Hi. rewrite B5 by auto.
      unfold user_result, unpack, unstandardize. rewrite Ei. f_equal. }
    exists (JDone (length (sf_mats s)) None dev tr), s6. split.
    + eapply jruns_trans; [exact R5|]. eapply jr_step; [reflexivity|]. cbn [jstep]. rewrite Ei, G5, A1', A2'. cbn [fst snd]. fold m. fold s6.
      eapply jr_step; [reflexivity|]. cbn [jstep]. rewrite Ei, G6. fold dev. constructor.
    + exists None, dev, tr, m. split; [reflexivity|]. split; [exact C5|]. split; [cbn; rewrite A4, put_app_last; reflexivity|].
      simpl u_ic in Ei. rewrite Ei. rewrite Etr. unfold dev. rewrite Erows. reflexivity.
  - set (m := (length (jb_alphas j), fun i q => M' i q * one_over (u_stds u q)) : nat * (nat -> nat -> R)).
    set (ints := fun i => 0 - rsum (u_p u) (fun q => u_means u q * one_over (u_stds u q) * M' i q)).
    set (s6 := write_mat (length (sf_mats s)) m s5).
    set (dev := map (test_deviance (jb_u j) (jb_test j)) (mat_rows false (Some (fun _ => 0)) m)).
    assert (G6 : get_mat s6 (length (sf_mats s)) = m) by (unfold s6, get_mat; cbn; rewrite A4, put_app_last; apply nth_middle).
    assert (Erows : mat_rows false (Some ints) m = map (fun s0 => user_result u (so_coef s0)) sols).
    { unfold mat_rows, m. cbn [fst snd]. apply map_sols; [congruence|]. intros i Hi. unfold ints. rewrite B5 by auto.
      unfold user_result, unpack, unstandardize. rewrite Ei. f_equal. }
    assert (Ei0 : ints = fun _ => 0).
    { apply functional_extensionality; intros i. unfold ints.
      rewrite rsum_zero; [ring|]. intros q Hq. unfold u_means, col_means. simpl u_ic. simpl u_ic in Ei. rewrite Ei. ring. }
    exists (JDone (length (sf_mats s)) (Some ints) dev tr), s6. split.
    + eapply jruns_trans; [exact R5|]. eapply jr_step; [reflexivity|]. cbn [jstep]. rewrite Ei, G5, A1', A2'. cbn [fst snd]. fold m. fold s6. fold ints.
      eapply jr_step; [reflexivity|]. cbn [jstep]. rewrite Ei, G6. fold dev. constructor.
    + exists (Some ints), dev, tr, m. split; [reflexivity|]. split; [exact C5|]. split; [cbn; rewrite A4, put_app_last; reflexivity|].
      simpl u_ic in Ei. rewrite Ei. rewrite Etr. unfold dev. rewrite <- Ei0. rewrite Erows. reflexivity.
Qed.
End Job.

Section Pool.
Variables (solve : path_solver) (se : settings) (has_off : bool) (kind : start_kind) (coef : nat -> R).
Notation ws_step := (wstep solve se has_off kind).
Notation val := (alone solve se has_off kind coef).

Lemma coef_ok_same j1 j2 s : same_model j1 j2 -> coef_ok kind coef j1 s -> coef_ok kind coef j2 s.
Proof. intros (A & B & C) [H|(K & H & E)]; [left; auto|right]. rewrite <- A, <- B, <- C. auto. Qed.

Definition wruns (w w' : worker) : Prop := exists n, Nat.iter n ws_step w = w'.
Lemma wruns_refl w : wruns w w. Proof. exists O; reflexivity. Qed.
Lemma iter_S_r {A} (f : A -> A) n x : Nat.iter n f (f x) = f (Nat.iter n f x).
Proof. induction n; simpl; congruence. Qed.
Lemma iter_add {A} (f : A -> A) n m x : Nat.iter (n + m) f x = Nat.iter n f (Nat.iter m f x).
Proof. induction n; simpl; congruence. Qed.
Lemma wruns_trans a b c : wruns a b -> wruns b c -> wruns a c.
Proof. intros [n <-] [m <-]. exists (m + n)%nat. apply iter_add. Qed.
Lemma wruns_step w w' : wruns (ws_step w) w' -> wruns w w'.
Proof. intros [n <-]. exists (S n). simpl. symmetry. apply iter_S_r. Qed.

Lemma wruns_job id j todo done : forall x y, jruns solve se has_off kind j x y ->
  wruns (mkWorker (snd x) (Some (id, j, fst x)) todo done false) (mkWorker (snd y) (Some (id, j, fst y)) todo done false).
Proof.
  intros x y H. induction H as [x|st s y T H IH]; [apply wruns_refl|]. apply wruns_step. simpl fst in *. simpl snd in *.
  destruct (jstep solve se has_off kind j st s) as [st' s'] eqn:E. simpl in IH. cbn [wstep wk_failed wk_run wk_self wk_todo wk_done].
  replace (match st with JDone l i d t => _ | JRaise => _ | _ => _ end) with (mkWorker s' (Some (id, j, st')) todo done false); [exact IH|].
  destruct st; try discriminate T; rewrite E; reflexivity.
Qed.

Definition locs_in (w : worker) : Prop := List.Forall (fun x => (re_loc (snd x) < length (sf_mats (wk_self w)))%nat) (wk_done w).
Definition quiet (w : worker) : Prop := wk_run w = None /\ wk_failed w = false /\ locs_in w.

Lemma results_stable (w w' : worker) m : locs_in w -> sf_mats (wk_self w') = sf_mats (wk_self w) ++ [m] -> wk_done w' = wk_done w -> results_of w' = results_of w.
Proof.
  intros L E D. unfold results_of. rewrite D. apply map_ext_in. intros [[id j] r] Hin.
  unfold locs_in in L. rewrite List.Forall_forall in L. specialize (L _ Hin). simpl in L.
  unfold read_result, get_mat. rewrite E, app_nth1 by auto. reflexivity.
Qed.

Lemma worker_spec : forall todo w, wk_todo w = todo -> quiet w ->
  (forall i j, In (i, j) todo -> jb_alphas j <> [] /\ coef_ok kind coef j (wk_self w)) ->
  (forall i j i' j', In (i, j) todo -> In (i', j') todo -> same_model j j') ->
  exists w', wruns w w' /\
   ((wk_failed w' = true /\ exists i j, In (i, j) todo /\ val j = None) \/
    (finished w' /\ wk_failed w' = false /\ exists os, all_opt (map (fun x => val (snd x)) todo) = Some os /\
       results_of w' = results_of w ++ combine (map fst todo) os)).
Proof.
  induction todo as [|[id j] r IH]; intros w Ht (Q1 & Q2 & Q3) HJ HS.
  - exists w. split; [apply wruns_refl|]. right. split; [split; auto|]. split; [auto|]. exists []. simpl. rewrite app_nil_r. auto.
  - destruct (HJ id j (or_introl eq_refl)) as (Ha & Hc).
    destruct (job_spec solve se has_off kind coef j (wk_self w) Ha Hc) as (st & s' & J & K).
    assert (R1 : wruns w (mkWorker s' (Some (id, j, st)) r (wk_done w) false)).
    { apply wruns_step. unfold wstep at 1. rewrite Q2, Q1, Ht. exact (wruns_job id j r (wk_done w) _ _ J). }
    cbn [map snd all_opt]. destruct (val j) as [o|] eqn:EV.
    + destruct K as (ints & dev & tr & m & -> & C' & M' & Eo).
      set (w1 := mkWorker s' None r (wk_done w ++ [(id, j, mkRes (length (sf_mats (wk_self w))) ints dev tr)]) false).
      assert (R2 : wruns w w1) by (eapply wruns_trans; [exact R1|]; apply wruns_step; apply wruns_refl).
      assert (L1 : locs_in w1).
      { unfold locs_in, w1. cbn [wk_done wk_self]. rewrite M', app_length. simpl length. apply List.Forall_app. split.
        - eapply List.Forall_impl; [|exact Q3]. intros x Hx. simpl in Hx. cbv beta. lia.
        - constructor; [simpl; lia|constructor]. }
      destruct (IH w1 eq_refl (conj eq_refl (conj eq_refl L1))) as (w' & R3 & H3).
      { intros i j' Hin. destruct (HJ i j' (or_intror Hin)) as (A & _). split; [exact A|].
        eapply coef_ok_same; [|exact C']. eapply HS; [left; reflexivity|right; exact Hin]. }
      { intros i1 j1 i2 j2 H1 H2. eapply HS; right; eassumption. }
      exists w'. split; [eapply wruns_trans; eauto|]. destruct H3 as [(F & i & j' & Hin & E)|(F & NF & os & E & Er)].
      * left. split; auto. exists i, j'. split; [right; auto|auto].
      * right. split; [auto|]. split; [auto|]. exists (o :: os). rewrite E. split; [reflexivity|].
        rewrite Er. simpl combine.
        assert (E1 : results_of w1 = results_of w ++ [(id, o)]).
        { unfold results_of, w1. cbn [wk_done wk_self]. rewrite map_app. f_equal.
          - apply map_ext_in. intros [[i0 j0] r0] Hin. unfold locs_in in Q3. rewrite List.Forall_forall in Q3. specialize (Q3 _ Hin). simpl in Q3.
            unfold read_result, get_mat. rewrite M', app_nth1 by auto. reflexivity.
          - cbn. unfold read_result. cbn [re_loc re_ints re_dev re_train]. unfold get_mat. rewrite M', nth_middle. rewrite Eo. reflexivity. }
        rewrite E1, <- app_assoc. reflexivity.
    + subst st. exists (mkWorker s' None r (wk_done w) true). split.
      * eapply wruns_trans; [exact R1|]. apply wruns_step. apply wruns_refl.
      * left. split; [reflexivity|]. exists id, j. split; [left; reflexivity|exact EV].
Qed.

(** workers do not see each other *)
Lemma step_at_nth f ws i k : nth_error (step_at f i ws) k = if Nat.eqb i k then option_map f (nth_error ws k) else nth_error ws k.
Proof.
  revert i k. induction ws as [|w r IH]; intros i k; simpl.
  - destruct k, i; simpl; auto; destruct (Nat.eqb i k); auto.
  - destruct i, k; simpl; auto.
Qed.
Lemma run_nth sched : forall ws k, nth_error (run solve se has_off kind sched ws) k =
  option_map (Nat.iter (count_occ Nat.eq_dec sched k) ws_step) (nth_error ws k).
Proof.
  unfold run. induction sched as [|i r IH]; intros ws k; simpl.
  - destruct (nth_error ws k); reflexivity.
  - rewrite IH, step_at_nth. destruct (Nat.eq_dec i k) as [->|N].
    + rewrite Nat.eqb_refl. destruct (nth_error ws k); simpl; auto. f_equal. apply iter_S_r.
    + apply Nat.eqb_neq in N. rewrite N. reflexivity.
Qed.
Definition stuck (w : worker) : Prop := finished w \/ wk_failed w = true.
Lemma stuck_fix w : stuck w -> ws_step w = w.
Proof. intros [(A & B)|F]; unfold wstep; [rewrite A, B; destruct (wk_failed w); reflexivity|rewrite F; reflexivity]. Qed.
Lemma stuck_iter w n : stuck w -> Nat.iter n ws_step w = w.
Proof. intros H. induction n; simpl; auto. rewrite IHn. apply stuck_fix, H. Qed.
Lemma stuck_unique w w' n : wruns w w' -> stuck w' -> stuck (Nat.iter n ws_step w) -> Nat.iter n ws_step w = w'.
Proof.
  intros [m <-] H1 H2. rewrite <- (stuck_iter _ m H2), <- (stuck_iter _ n H1), <- !iter_add. f_equal. lia.
Qed.
End Pool.

Lemma lookup_In {A} : forall (l : list (nat * A)) i x, NoDup (map fst l) -> In (i, x) l -> lookup i l = Some x.
Proof.
  unfold lookup. induction l as [|[k y] r IH]; intros i x ND Hin; [destruct Hin|]. simpl. inversion ND; subst.
  destruct (Nat.eqb_spec k i) as [->|N].
  - destruct Hin as [E|Hin]; [injection E as ->; reflexivity|]. exfalso. apply H1. apply in_map_iff. exists (i, x). auto.
  - destruct Hin as [E|Hin]; [injection E as -> ->; congruence|]. apply IH; auto.
Qed.
