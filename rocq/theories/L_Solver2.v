(** Invariants of the IRLS loops, active set, accounting, descent, bounds. *)
From Verif Require Import M_Solver S_Solver L_Link L_Dist L_Dist2 L_Dist3 L_CD L_CDb L_KKT L_Hess L_Solver.
From Verif Require Import M_Solver S_Solver.
Local Open Scope R_scope.

Record inv (pb : problem) (P2 : P2t) (s : state) : Prop := mkInv {
  inv_coh : coh pb P2 s;
  inv_P2 : st_P2 s = P2;
  inv_act : act_ok pb (st_act s);
  inv_hess : hess_inv pb (st_hinit s) (st_act s) (st_hess s) (st_old_hrows s) P2 }.

Lemma inv_init pb P2 b c : pb_ok pb -> inv pb P2 (init_state pb P2 b c).
Proof.
  intros Hok. pose proof (coh_init pb P2 b c Hok) as C.
  unfold init_state in *. destruct (eta_mu_objective _ _ _ _ _ _) as [[[eta mu] obj] cP2].
  destruct (update_quadratic _ _ _ _) as [[g score] h]. destruct (check_convergence _ _ _ _) as [[[conv nm] mx] itol].
  constructor; [exact C|reflexivity|apply act_ok_full|]. simpl. unfold hess_inv. discriminate.
Qed.

(** what the inner solver is given *)
Lemma prepare_spec pb s P2 : 0 <= pb_approx pb -> st_P2 s = P2 -> act_ok pb (st_act s) ->
  hess_inv pb (st_hinit s) (st_act s) (st_hess s) (st_old_hrows s) P2 ->
  let s1 := fst (prepare pb s) in let H := snd (prepare pb s) in
  act_ok pb (st_act s1) /\ hess_inv pb true (st_act s1) (st_hess s1) (st_hrows s1) P2 /\
  (forall a b, (a < length (st_act s1))%nat -> (b < length (st_act s1))%nat ->
     H a b = exact_hessian pb (st_hrows s1) P2 (nth a (st_act s1) 0%nat) (nth b (st_act s1) 0%nat)) /\
  rows_close pb (st_hrows s) (st_hrows s1) (st_old_hrows s) /\
  (pb_approx pb = 0 -> forall i, st_hrows s1 i = st_hrows s i).
Proof.
  intros HC HP HA HH s1 H. pose proof (prepare_facts pb s) as PF. fold s1 H in PF.
  destruct PF as [_ _ _ _ _ _ _ _ _ _ _ EA [nr EU]].
  assert (A1 : act_ok pb (st_act s1)) by (rewrite EA; apply act_ok_identify).
  pose proof (update_hessian_spec pb (st_hess s) (st_hinit s) (st_act s) (st_act s1) (st_hrows s) (st_old_hrows s)
     (st_P2 s) HC (proj1 HA) A1) as U. rewrite HP in U. specialize (U HH). rewrite HP in EU. rewrite EU in U.
  destruct U as [U1 [U2 [U3 U4]]]. repeat split; auto; apply A1.
Qed.

Lemma inv_step pb inner P2 s s' : pb_ok pb -> 0 <= pb_approx pb -> inv pb P2 s ->
  irls_step pb inner s = Some s' -> inv pb P2 s'.
Proof.
  intros Hok HC [C P A H] E. destruct (irls_step_facts _ _ _ _ E) as [d [cyc [_ F]]].
  destruct (prepare_spec pb s P2 HC P A H) as [A1 [H1 _]]. set (s1 := fst (prepare pb s)) in *.
  destruct F as [F1 F2 F3 F4 F5 F6 F7 F8 F9 F10 F11].
  constructor.
  - rewrite <- P. apply F11; auto. apply (coh_eta _ _ _ C).
  - rewrite F5. exact P.
  - rewrite F1. exact A1.
  - rewrite F1, F2, F3, F4. exact H1.
Qed.
Lemma reach_inv pb inner P2 c s : pb_ok pb -> 0 <= pb_approx pb -> reach pb inner P2 c s -> inv pb P2 s.
Proof. intros Hok HC R. induction R; [apply inv_init; exact Hok|eapply inv_step; eauto]. Qed.

(** ** the monotonic solver *)
Record minv (pb : problem) (q : ineq) (P2b : P2t) (m : mstate) : Prop := mkMinv {
  minv_inv : inv pb (st_P2 (ms_st m)) (ms_st m);
  minv_base : ms_base m = true -> st_P2 (ms_st m) = P2b }.

Lemma minv_set pb q P2b m lam P2 base changed : minv pb q P2b m ->
  update_constraint_penalty pb q P2b (ms_base m) (st_coef (ms_st m)) lam = (P2, base, changed) ->
  let s0 := set_P2 (ms_st m) P2 (if changed then false else st_hinit (ms_st m)) in
  act_ok pb (st_act s0) /\ hess_inv pb (st_hinit s0) (st_act s0) (st_hess s0) (st_old_hrows s0) P2 /\
  st_P2 s0 = P2 /\ (base = true -> P2 = P2b).
Proof.
  intros [[C _ A H] B] E s0. unfold update_constraint_penalty in E.
  destruct (build_monotonic_penalty _ _ _ _) as [Cm|].
  - injection E as <- <- <-. split; [exact A|]. split; [unfold hess_inv; discriminate|].
    split; [reflexivity|discriminate].
  - injection E as <- <- <-. split; [exact A|]. split; [|split; reflexivity]. cbn [set_P2 s0 st_hinit st_act st_hess st_old_hrows].
    destruct (ms_base m); simpl; [|unfold hess_inv; discriminate].
    rewrite (B eq_refl) in H. exact H.
Qed.

Lemma minv_step pb inner q P2b lf lm m m' : pb_ok pb -> 0 <= pb_approx pb -> minv pb q P2b m ->
  mono_step pb inner q P2b lf lm m = Some m' -> minv pb q P2b m'.
Proof.
  intros Hok HC I E. unfold mono_step in E.
  set (lam := if any_gt pb q (st_coef (ms_st m)) 0 then _ else _) in *.
  destruct (update_constraint_penalty _ _ _ _ _ _) as [[P2 base] changed] eqn:EP.
  pose proof (minv_set pb q P2b m lam P2 base changed I EP) as M. cbv zeta in M.
  set (s0 := set_P2 _ _ _) in *. destruct M as [M1 [M2 [M3 M4]]].
  destruct (irls_step pb inner s0) as [s'|] eqn:ES; [|discriminate].
  destruct (irls_step_facts _ _ _ _ ES) as [d [cyc [_ F]]].
  destruct (prepare_spec pb s0 P2 HC M3 M1 M2) as [A1 [H1 _]]. set (s1 := fst (prepare pb s0)) in *.
  destruct F as [F1 F2 F3 F4 F5 F6 F7 F8 F9 F10 F11].
  assert (CO : coh pb P2 s').
  { rewrite <- M3. apply F11; auto. apply (coh_eta _ _ _ (inv_coh _ _ _ (minv_inv _ _ _ _ I))). }
  assert (P' : st_P2 s' = P2) by (rewrite F5; exact M3).
  assert (IV : inv pb P2 s').
  { constructor; auto; [rewrite F1; exact A1|rewrite F1, F2, F3, F4; exact H1]. }
  injection E as <-. constructor; cbn [ms_st ms_base].
  - destruct (_ && _)%bool; [|rewrite P'; exact IV].
    destruct IV as [[I1 I2 I3 I4 I5 I6] I7 I8 I9]. simpl. rewrite P'.
    constructor; simpl; auto. constructor; simpl; auto.
  - intros Hb. rewrite <- (M4 Hb). destruct (_ && _)%bool; simpl; exact P'.
Qed.
Lemma mreach_inv pb inner q P2b lf lm ls c m : pb_ok pb -> 0 <= pb_approx pb ->
  mreach pb inner q P2b lf lm ls c m -> minv pb q P2b m.
Proof.
  intros Hok HC R. induction R as [P2 base ch E|]; [|eapply minv_step; eauto].
  assert (EP : st_P2 (init_state pb P2 true c) = P2) by (apply (inv_P2 pb); apply inv_init; exact Hok).
  constructor; cbn [ms_st ms_base].
  - rewrite EP. apply inv_init. exact Hok.
  - rewrite EP. intros Hb. rewrite Hb in E. unfold update_constraint_penalty in E. destruct (build_monotonic_penalty _ _ _ _).
    + injection E as _ E _. discriminate.
    + injection E as <- _. reflexivity.
Qed.

(** ** active set *)
Lemma identify_in pb c sc mx k : In k (identify_active_set pb c sc mx) <->
  ((pb_ic pb = true /\ k = 0%nat) \/
   exists j, k = (ioff (pb_ic pb) + j)%nat /\ (j < pb_p pb)%nat /\ is_active pb c sc mx j = true).
Proof.
  unfold identify_active_set. rewrite in_app_iff, in_map_iff. split.
  - intros [H|[j [E Hj]]].
    + destruct (pb_ic pb); [|contradiction]. left. destruct H as [<-|[]]. auto.
    + right. exists j. apply filter_In in Hj. destruct Hj as [Hj Ha]. apply in_seq in Hj. repeat split; auto; lia.
  - intros [[-> ->]|[j [-> [Hj Ha]]]]; [left; simpl; auto|right].
    exists j. split; [reflexivity|]. apply filter_In. split; [apply in_seq; lia|exact Ha].
Qed.
Lemma dropped pb c sc mx k : (k < nc pb)%nat -> ~ In k (identify_active_set pb c sc mx) ->
  exists j m, k = (ioff (pb_ic pb) + j)%nat /\ (j < pb_p pb)%nat /\ c k = 0 /\ mx = Some m /\
              Rabs (sc k) < pb_P1 pb j - m.
Proof.
  intros Hk Hn. rewrite identify_in in Hn.
  assert (Hi : (ioff (pb_ic pb) <= k)%nat).
  { destruct (pb_ic pb) eqn:E; simpl; [|lia]. destruct k; [|lia]. destruct Hn. auto. }
  exists (k - ioff (pb_ic pb))%nat. unfold nc in Hk.
  assert (Ek : k = (ioff (pb_ic pb) + (k - ioff (pb_ic pb)))%nat) by lia.
  assert (Hf : is_active pb c sc mx (k - ioff (pb_ic pb)) = false).
  { destruct (is_active _ _ _ _ _) eqn:E; [|reflexivity]. destruct Hn. right. eexists. repeat split; [exact Ek|lia|exact E]. }
  unfold is_active in Hf. rewrite <- Ek in Hf. apply Bool.orb_false_iff in Hf. destruct Hf as [H1 H2].
  destruct mx as [m|]; [|discriminate]. exists m. repeat split; auto; try lia.
  - destruct (Reqb (c k) 0) eqn:E; [apply Reqb_true; exact E|discriminate].
  - apply Rleb_false. exact H2.
Qed.

(** the maximum is at least zero *)
Lemma max_nonneg pb c g m : snd (norm_min_subgrad (seq 0 (nc pb)) c g (pb_P1 pb) (pb_ic pb) (pb_lb pb) (pb_ub pb)) = Some m ->
  0 <= m /\ forall i, (i < nc pb)%nat -> entry c g (pb_P1 pb) (pb_ic pb) (pb_lb pb) (pb_ub pb) i <= m.
Proof.
  unfold norm_min_subgrad, nc, ioff. destruct (pb_ic pb) eqn:E.
  - cbn [Nat.add seq norm_loop]. cbn [Nat.ltb Nat.leb ioff]. intros H.
    assert (Hin : forall i, In i (seq 1 (pb_p pb)) -> (ioff true <= i)%nat) by (intros i Hi; apply in_seq in Hi; simpl; lia).
    destruct (max_mono (seq 1 (pb_p pb)) c g (pb_P1 pb) true (pb_lb pb) (pb_ub pb) Hin (Rabs (g 0%nat)) (Rabs (g 0%nat)))
      as [m' [E1 [E2 E3]]].
    rewrite E1 in H. injection H as <-. pose proof (Rabs_pos (g 0%nat)). split; [lra|].
    intros [|i] Hi.
    + unfold entry. simpl. lra.
    + apply E3. apply in_seq. lia.
  - rewrite max_no_ic. discriminate.
Qed.
