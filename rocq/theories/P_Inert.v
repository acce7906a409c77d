(** C97: a column without information gets the coefficient zero. *)
From Coq Require Import List Lia Lra Arith ZArith. Import ListNotations.
From Verif Require Import Base M_Link M_Dist M_CD M_Std M_Valid M_Fit L_CDrng L_CD L_Solver L_Solver2 L_Solver3 L_KKT L_Std S_Dist S_Std S_Fit S_FitAll S_CD L_Score L_FitAll L_Gap L_Fit P_Solver P_Score P_FitAll P_Train P_Twin S_Inert.
From Verif Require Import M_Solver S_Solver.
Local Open Scope R_scope.

(** ** coordinate descent leaves such a coefficient at zero *)
Section CD.
Variables (a : cd_args) (kj : nat).
Hypothesis ND : NoDup (cd_act a).
Hypothesis HQ : forall k l, (k < length (cd_act a))%nat -> (l < length (cd_act a))%nat -> k <> l -> nth l (cd_act a) 0%nat = kj -> cd_Q a k l = 0.
Hypothesis HB : within (bnd_of (cd_ic a) (cd_lb a) kj) (bnd_of (cd_ic a) (cd_ub a) kj) 0.
Definition still (w q : nat -> R) : Prop := w kj = 0 /\ (In kj (cd_act a) -> q kj = 0).
Lemma clip_zero l u : within l u 0 -> clip2 l u 0 = 0.
Proof.
  intros [A B]. unfold clip2.
  assert (E1 : below 0 l = false).
  { destruct l as [l|]; [|reflexivity]. cbn. apply Rltb_false. exact (A _ eq_refl). }
  rewrite E1. cbv zeta.
  assert (E2 : above 0 u = false).
  { destruct u as [u|]; [|reflexivity]. cbn. apply Rltb_false. exact (B _ eq_refl). }
  rewrite E2. reflexivity.
Qed.
Lemma still_visit k s : (k < length (cd_act a))%nat -> still (cs_w s) (cs_q s) -> still (cs_w (cd_visit a k s)) (cs_q (cd_visit a k s)).
Proof.
  intros Hk [W Q]. unfold cd_visit. destruct (Rleb (cd_Q a k k) (cd_eps a)); [split; assumption|]. cbv zeta. cbn [cs_w cs_q].
  set (i := nth k (cd_act a) 0%nat). destruct (Nat.eq_dec i kj) as [E|E].
  - assert (Hin : In kj (cd_act a)) by (rewrite <- E; apply nth_In, Hk).
    rewrite E. rewrite W, (Q Hin). replace (0 - 0 * cd_Q a k k) with 0 by ring. rewrite Ropp_0.
    replace (fsign 0) with 0 by (unfold fsign; rewrite (proj2 (Reqb_true 0 0)) by reflexivity; reflexivity).
    unfold Rdiv. rewrite !Rmult_0_l. rewrite cd_clip_of, (clip_zero _ _ HB).
    rewrite (proj2 (Reqb_true 0 0)) by reflexivity. cbn [negb orb]. split; [apply upd_same|exact Q].
  - split; [rewrite upd_other by (intros Z; apply E; symmetry; exact Z); exact W|]. intros Hin. destruct (_ || _)%bool; [|exact (Q Hin)].
    destruct (In_nth _ _ 0%nat Hin) as [l [Hl En]]. rewrite <- En. rewrite update_q_spec by assumption. rewrite En, (Q Hin).
    rewrite (HQ k l Hk Hl); [ring| |exact En]. intros Ekl. apply E. unfold i. rewrite Ekl. exact En.
Qed.
Lemma still_sweep : forall m f seed s, (f + m <= length (cd_act a))%nat -> (seed < 2 ^ 32)%N -> still (cs_w s) (cs_q s) ->
  let r := cd_sweep a m f seed s in still (cs_w (snd r)) (cs_q (snd r)) /\ (fst r < 2 ^ 32)%N.
Proof.
  induction m as [|m IH]; intros f seed s Hf Hs I; cbn [cd_sweep]; [split; assumption|].
  destruct (cd_random a).
  - pose proof (rand_int_ok (length (cd_act a)) seed ltac:(lia) Hs) as Hr. destruct (rand_int (length (cd_act a)) seed) as [k seed']. destruct Hr as [Hk [Hs' _]].
    apply IH; [lia|exact Hs'|]. apply still_visit; assumption.
  - apply IH; [lia|exact Hs|]. apply still_visit; [lia|exact I].
Qed.
Lemma still_loop : forall m n seed norm w q, (seed < 2 ^ 32)%N -> still w q -> let r := cd_loop a m n seed norm w q in still (cr_w r) (cr_q r).
Proof.
  induction m as [|m IH]; intros n seed norm w q Hs I; cbn [cd_loop]; [exact I|].
  pose proof (still_sweep (length (cd_act a)) 0 seed (mkCS w q 0 0) ltac:(lia) Hs I) as Hsw.
  destruct (cd_sweep a (length (cd_act a)) 0 seed (mkCS w q 0 0)) as [seed' s]. cbn in Hsw. destruct Hsw as [I' Hs'].
  destruct (Reqb (cs_wmax s) 0 || Rltb (cs_dwmax s / cs_wmax s) (cd_tol a) || Nat.eqb m 0)%bool; [destruct (Rleb _ _); [exact I'|]|]; apply IH; assumption.
Qed.
End CD.

(** ** every iterate keeps it at zero *)
Section Run.
Variables (pb : problem) (seed : Z -> N) (P2 : P2t) (kj : nat).
Hypothesis Hok : pb_ok pb.
Hypothesis HA : 0 <= pb_approx pb.
Hypothesis Hseed : seeds_ok seed.
Hypothesis Hkj : (kj < nc pb)%nat.
Hypothesis HX : forall i, (i < pb_n pb)%nat -> xt pb i kj = 0.
Hypothesis HP : forall k, (k < nc pb)%nat -> k <> kj -> p2_full (pb_ic pb) P2 k kj = 0.
Hypothesis HB : within (bnd_of (pb_ic pb) (pb_lb pb) kj) (bnd_of (pb_ic pb) (pb_ub pb) kj) 0.
Lemma still_score c : c kj = 0 -> score_of pb P2 c kj = 0.
Proof.
  intros Z. unfold score_of. rewrite rsum_zero by (intros i Hi; rewrite HX by exact Hi; ring).
  rewrite (rsum_zero (nc pb)); [ring|]. intros l Hl. destruct (Nat.eq_dec l kj) as [->|N]; [rewrite Z; ring|rewrite HP by assumption; ring].
Qed.
Lemma still_reach c s : c kj = 0 -> reach pb (cd_solver pb seed) P2 c s -> st_coef s kj = 0.
Proof.
  intros Z Re. induction Re as [|s s' Re IH E]; [rewrite init_coef; exact Z|].
  pose proof (reach_inv _ _ _ _ _ Hok HA Re) as I. destruct I as [C EP A H].
  destruct (prepare_spec pb s P2 HA EP A H) as (A1 & _ & EH & _).
  destruct (irls_step_facts _ _ _ _ E) as [d [cyc [Ei F]]]. pose proof (prepare_facts pb s) as PF.
  set (s1 := fst (prepare pb s)) in *. set (Hm := snd (prepare pb s)) in *.
  destruct (sf_ls _ _ _ _ _ _ F) as [Ec _].
  destruct (line_search_spec pb (st_P2 s) (st_coef s) (st_score s) (st_eta s) (st_obj s) d Hok (coh_eta _ _ _ C)) as [[L1 [L2 _]] [_ [L3 _]]].
  set (r := line_search _ _ _ _ _ _ _) in *. rewrite Ec, L2, L1. unfold vadd, vscale. rewrite IH.
  unfold cd_solver in Ei. injection Ei as Ed _. rewrite <- Ed. rewrite (pf_coef _ _ _ _ PF), IH.
  destruct A1 as [ND [Hlt _]].
  assert (ST : still (cd_args_of pb s1 Hm) kj (cr_w (enet_coordinate_descent_gram (cd_args_of pb s1 Hm) (seed (st_niter s1)) (st_coef s1) (fun k => - st_score s1 k)))
     (cr_q (enet_coordinate_descent_gram (cd_args_of pb s1 Hm) (seed (st_niter s1)) (st_coef s1) (fun k => - st_score s1 k)))).
  { unfold enet_coordinate_descent_gram. apply (still_loop (cd_args_of pb s1 Hm) kj ND); [|exact HB|apply Hseed|].
    - cbn [cd_args_of cd_act cd_Q]. intros k l Hk Hl N En. rewrite EH by assumption. unfold exact_hessian. rewrite En.
      rewrite rsum_zero by (intros i Hi; rewrite (HX i Hi); ring). rewrite HP; [ring|apply Hlt, nth_In, Hk|].
      intros E'. apply N. apply (nth_inj (st_act s1)); auto. rewrite En, E'. reflexivity.
    - split; [rewrite (pf_coef _ _ _ _ PF); exact IH|]. intros _. rewrite (pf_score _ _ _ _ PF), (coh_score _ _ _ C kj Hkj), (still_score _ IH). ring. }
  destruct ST as [W _]. rewrite (pf_coef _ _ _ _ PF) in W. rewrite W. ring.
Qed.
End Run.

(** ** the standardised column *)
Section Col.
Variables (u : user) (j : nat).
Hypothesis HU : uninformative u j.
Lemma in_mean : exists c, (forall i, (i < u_n u)%nat -> u_X u i j = c) /\ u_means u j = c /\ u_stds u j = 0 /\ (u_ic u = false -> c = 0).
Proof.
  destruct HU as (Hj & [(Hic & Hw & c & Hc)|Hz] & _).
  - exists c.
    assert (M : wmean (u_n u) (u_w u) (fun i => u_X u i j) = c).
    { unfold wmean. rewrite (rsum_ext _ _ (fun i => c * u_w u i)) by (intros i Hi; rewrite Hc by exact Hi; ring). rewrite rsum_scal, Hw. ring. }
    split; [exact Hc|]. split; [unfold u_means, col_means; rewrite Hic; exact M|]. split; [|rewrite Hic; discriminate].
    unfold u_stds, col_stds. rewrite M. rewrite rsum_zero by (intros i Hi; rewrite Hc by exact Hi; ring). apply sqrt_0.
  - exists 0.
    assert (M : wmean (u_n u) (u_w u) (fun i => u_X u i j) = 0).
    { apply rsum_zero. intros i Hi. rewrite Hz by exact Hi. ring. }
    split; [exact Hz|]. split; [unfold u_means, col_means; rewrite M; destruct (u_ic u); reflexivity|]. split; [|reflexivity].
    unfold u_stds, col_stds. rewrite M. rewrite rsum_zero by (intros i Hi; rewrite Hz by exact Hi; ring). apply sqrt_0.
Qed.
Lemma in_one : one_over (u_stds u j) = 1.
Proof.
  destruct in_mean as (c & _ & _ & -> & _). unfold one_over. rewrite Rabs_R0.
  rewrite (proj2 (Rltb_true _ _)); [reflexivity|]. unfold std_threshold. apply Rdiv_lt_0_compat; [lra|apply pow_lt; lra].
Qed.
Lemma in_scale : col_scale u j = 1.
Proof.
  destruct in_mean as (c & _ & _ & E & _). unfold col_scale. rewrite E, Rabs_R0.
  rewrite (proj2 (Rltb_true _ _)); [reflexivity|]. unfold std_threshold. apply Rdiv_lt_0_compat; [lra|apply pow_lt; lra].
Qed.
Lemma in_pen : pen_scale u j = 1.
Proof. unfold pen_scale. destruct (u_scale u); [apply in_scale|reflexivity]. Qed.
Lemma in_stdX i : (i < u_n u)%nat -> std_X (u_X u) (u_means u) (u_stds u) i j = 0.
Proof. intros Hi. destruct in_mean as (c & Hc & Hm & _). unfold std_X. rewrite Hc by exact Hi. rewrite Hm. ring. Qed.
Lemma in_xt se i : (i < u_n u)%nat -> xt (std_problem u se) i (ioff (u_ic u) + j) = 0.
Proof. intros Hi. unfold xt. cbn [std_problem pb_ic pb_X]. destruct (u_ic u); cbn [ioff Nat.add]; apply in_stdX, Hi. Qed.
Lemma in_P2 k : (k < u_p u)%nat -> k <> j -> p2_entry (std_problem_P2 u) k j = 0.
Proof.
  intros Hk N. destruct HU as (_ & _ & HP & _). destruct (HP k Hk N) as [_ Z].
  unfold std_problem_P2, std_P2. destruct (u_scale u); [exact Z|]. destruct (u_P2 u) as [v|M]; cbn in *.
  - rewrite (proj2 (Nat.eqb_neq k j)) by exact N. reflexivity.
  - rewrite Z. ring.
Qed.
Lemma in_box0 : within (bnd_of (u_ic u) (std_bounds (u_lb u) (u_stds u)) (ioff (u_ic u) + j)) (bnd_of (u_ic u) (std_bounds (u_ub u) (u_stds u)) (ioff (u_ic u) + j)) 0.
Proof.
  destruct HU as (_ & _ & _ & [A B]).
  assert (L : within (std_bounds (u_lb u) (u_stds u) j) (std_bounds (u_ub u) (u_stds u) j) 0).
  { unfold std_bounds. rewrite in_one. split; intros x.
    - destruct (u_lb u j) as [l|]; [|discriminate]. intros [= <-]. specialize (A l eq_refl). lra.
    - destruct (u_ub u j) as [l|]; [|discriminate]. intros [= <-]. specialize (B l eq_refl). lra. }
  unfold bnd_of. destruct (u_ic u); exact L.
Qed.
Lemma in_start guess a : starts_at_zero u a j -> get_start_coef (u_p u) (u_ic u) (u_means u) (u_stds u) guess (u_lb u) (u_ub u) a (ioff (u_ic u) + j) = 0.
Proof.
  intros HS. unfold get_start_coef, clip_start.
  rewrite (proj2 (Nat.ltb_ge _ _)) by lia. replace (ioff (u_ic u) + j - ioff (u_ic u))%nat with j by lia.
  match goal with |- clip_hi _ (clip_lo _ ?x) = 0 => assert (Z : x = 0) end.
  { destruct in_mean as (c & _ & _ & Es & _). unfold starts_at_zero in HS.
    destruct (u_ic u) eqn:Eic; destruct a as [c0 cf| |v]; cbn; rewrite ?Es; try ring; destruct HS as [X|X]; try discriminate; exact X. }
  rewrite Z. destruct HU as (_ & _ & _ & [A B]). unfold clip_lo, clip_hi.
  destruct (u_lb u j) as [l|]; [pose proof (A _ eq_refl); rewrite Rmax_left by lra|];
  destruct (u_ub u j) as [r|]; try reflexivity; pose proof (B _ eq_refl); rewrite Rmin_left by lra; reflexivity.
Qed.
End Col.

(** ** the theorems *)

(** With solver irls-cd the coefficient of such a column is exactly zero, whatever the number of iterations, warnings, line
    search, Hessian approximation or selection order. *)
Theorem C97_exact : forall u j se q l guess a b0 b w1 w2, uninformative u j -> user_ok u -> 0 <= se_approx se -> seeds_ok (lib_seed l) ->
  starts_at_zero u a j -> fit_with SCd u se q l guess a = Some (b0, b, w1, w2) -> b j = 0.
Proof.
  intros u j se q l guess a b0 b w1 w2 HU Hok HA Hs Hst E. unfold fit_with in E.
  pose proof (in_start u j HU guess a Hst) as E0. set (st := get_start_coef _ _ _ _ _ _ _ _) in *. cbn [solve] in E.
  set (se' := solve_settings SCd u se) in *.
  destruct (irls_solver (std_problem u se') (cd_solver (std_problem u se') (lib_seed l)) (std_problem_P2 u) st) as [[sf w]|] eqn:EI; [|discriminate].
  assert (Eb : b j = snd (user_result u (st_coef sf)) j).
  { destruct (user_result u (st_coef sf)). injection E as _ <- _ _. reflexivity. }
  rewrite Eb, result_coef.
  destruct (C27_iteration_accounting _ _ _ _ _ _ EI) as [n [hist [[H0 Hh] [Hn _]]]].
  pose proof HU as (Hj & _).
  assert (Z : st_coef sf (ioff (u_ic u) + j) = 0).
  { rewrite <- Hn. apply (still_reach (std_problem u se') (lib_seed l) (std_problem_P2 u) (ioff (u_ic u) + j) (std_ok u se' Hok) HA Hs) with (c := st).
    - unfold nc. cbn [std_problem pb_ic pb_p]. lia.
    - intros i Hi. apply in_xt; [exact HU|exact Hi].
    - intros k Hk N. cbn [std_problem pb_ic]. unfold nc in Hk. cbn [std_problem pb_ic pb_p] in Hk. unfold p2_full.
      destruct (u_ic u); cbn [ioff Nat.add] in *; [destruct k as [|k]; [reflexivity|]|]; apply in_P2; try exact HU; try lia.
    - apply in_box0; exact HU.
    - exact E0.
    - eapply hist_reach; eauto. }
  rewrite Z. ring.
Qed.
Print Assumptions C97_exact.

Lemma quad_isolate (M : nat -> nat -> R) p j (x x' : nat -> R) : (j < p)%nat -> x' j = 0 -> (forall k, k <> j -> x' k = x k) ->
  (forall k, (k < p)%nat -> k <> j -> M j k = 0 /\ M k j = 0) ->
  rsum p (fun i => rsum p (fun k => x i * M i k * x k)) = rsum p (fun i => rsum p (fun k => x' i * M i k * x' k)) + x j * M j j * x j.
Proof.
  intros Hj Z E D.
  rewrite (rsum_ext p (fun i => rsum p (fun k => x i * M i k * x k))
     (fun i => rsum p (fun k => x' i * M i k * x' k) + (if Nat.eqb i j then x j * M j j * x j else 0))).
  - rewrite rsum_plus. f_equal. rewrite (rsum_single p j) by (try exact Hj; intros i _ N; apply Nat.eqb_neq in N; rewrite N; reflexivity).
    rewrite Nat.eqb_refl. reflexivity.
  - intros i Hi. destruct (Nat.eqb_spec i j) as [->|N].
    + rewrite (rsum_single p j) by (try exact Hj; intros k Hk Nk; rewrite (proj1 (D k Hk Nk)); ring).
      rewrite (rsum_zero p (fun k => x' j * M j k * x' k)) by (intros; rewrite Z; ring). ring.
    + rewrite Rplus_0_r. apply rsum_ext. intros k Hk. rewrite (E i N). destruct (Nat.eq_dec k j) as [->|Nk].
      * rewrite (proj2 (D i Hi N)). ring.
      * rewrite (E k Nk). reflexivity.
Qed.
Lemma lin_isolate p j (f f' : nat -> R) : (j < p)%nat -> f' j = 0 -> (forall k, k <> j -> f' k = f k) -> rsum p f = rsum p f' + f j.
Proof.
  intros Hj Z E. rewrite (rsum_ext p f (fun k => f' k + (if Nat.eqb k j then f j else 0))).
  - rewrite rsum_plus. f_equal. rewrite (rsum_single p j) by (try exact Hj; intros i _ N; apply Nat.eqb_neq in N; rewrite N; reflexivity).
    rewrite Nat.eqb_refl. reflexivity.
  - intros k _. destruct (Nat.eqb_spec k j) as [->|N]; [rewrite Z; ring|rewrite (E k N); ring].
Qed.

(** With any solver that accepts the problem, a fit without warnings leaves at most [fit_tol] of penalty pull on it: it is
    zero as soon as its L1 penalty exceeds the tolerance, and at most tolerance / L2 penalty otherwise. *)
Theorem C97_silent : forall s u j se l guess a b0 b sl, uninformative u j -> user_ok u -> 0 <= se_approx se -> se_stol se = None ->
  convex_pair (u_fam u) (u_link u) -> libs_sound sl l -> start_ok u a -> accepts s u None -> s <> SMono ->
  (s = SLbfgs \/ s = STrust -> unclipped u b0 b) ->
  fit_with s u se None l guess a = Some (b0, b, false, false) ->
  b j = 0 \/ u_P1 u j + p2_entry (u_P2 u) j j * Rabs (b j) <= fit_tol s u se.
Proof.
  intros s u j se l guess a b0 b sl HU Hok HA Hst Hc Hl Ha Hacc Hs Hu E.
  destruct (C70_silent_near_optimal s u se None l guess a b0 b sl Hok HA Hst Hc Hl Ha Hacc Hs Hu E) as ([Hb0 N] & F & _).
  destruct (in_mean u j HU) as (c & Hc1 & Hm & Es & Hic).
  pose proof (in_scale u j HU) as SC. pose proof (in_pen u j HU) as PS. pose proof HU as (Hj & _ & HP & HB).
  destruct (Req_dec (b j) 0) as [Z|NZ]; [left; exact Z|right].
  set (b' := fun k => if Nat.eqb k j then 0 else b k).
  assert (Bj : b' j = 0) by (unfold b'; rewrite Nat.eqb_refl; reflexivity).
  assert (Bo : forall k, k <> j -> b' k = b k) by (intros k Nk; unfold b'; apply Nat.eqb_neq in Nk; rewrite Nk; reflexivity).
  assert (N' := N (b0 + c * b j) b' (Rabs (b j))). clear N.
  assert (ETA : forall i, (i < u_n u)%nat -> user_eta u (b0 + c * b j) b' i = user_eta u b0 b i).
  { intros i Hi. unfold user_eta. rewrite (lin_isolate (u_p u) j (fun k => u_X u i k * b k) (fun k => u_X u i k * b' k) Hj).
    - rewrite Hc1 by exact Hi. ring.
    - rewrite Bj. ring.
    - intros k Nk. rewrite (Bo k Nk). reflexivity. }
  assert (L : user_l2 u (pen_scale u) (fun k => b' k - b k) = p2_entry (u_P2 u) j j * (b j * b j)).
  { unfold user_l2. rewrite (rsum_single _ j) by (try exact Hj; intros i Hi Ni; apply rsum_zero; intros k Hk; rewrite (Bo i Ni); ring).
    rewrite (rsum_single _ j) by (try exact Hj; intros i Hi Ni; rewrite (Bo i Ni); ring). rewrite Bj, PS. ring. }
  assert (OB : user_obj u (pen_scale u) b0 b = user_obj u (pen_scale u) (b0 + c * b j) b' + / 2 * (p2_entry (u_P2 u) j j * (b j * b j)) + u_P1 u j * Rabs (b j)).
  { unfold user_obj.
    rewrite (map_ext_in (fun i => mkobs (u_y u i) (u_w u i) (search_mean (u_fam u) (u_link u) (user_eta u (b0 + c * b j) b' i)))
       (fun i => mkobs (u_y u i) (u_w u i) (search_mean (u_fam u) (u_link u) (user_eta u b0 b i))))
      by (intros i Hi; apply in_seq in Hi; rewrite ETA by lia; reflexivity).
    rewrite (quad_isolate (p2_entry (u_P2 u)) (u_p u) j (fun i => pen_scale u i * b i) (fun i => pen_scale u i * b' i) Hj);
      [|rewrite Bj; ring|intros k Nk; rewrite (Bo k Nk); reflexivity|exact HP].
    rewrite (lin_isolate (u_p u) j (fun k => u_P1 u k * Rabs (pen_scale u k * b k)) (fun k => u_P1 u k * Rabs (pen_scale u k * b' k)) Hj);
      [|rewrite Bj, Rmult_0_r, Rabs_R0; ring|intros k Nk; rewrite (Bo k Nk); reflexivity].
    rewrite PS, Rmult_1_l. ring. }
  pose proof (pred_dev_nonneg u b0 b (b0 + c * b j) b' Hok Hc) as PD.
  assert (AD : admissible u None b').
  { split; [|exact I]. intros k Hk. destruct (Nat.eq_dec k j) as [->|Nk]; [rewrite Bj; exact HB|rewrite (Bo k Nk); exact (F k Hk)]. }
  specialize (N' AD). 
  assert (I1 : u_ic u = false -> b0 + c * b j = 0) by (intros H; rewrite (Hb0 H), (Hic H); ring).
  specialize (N' I1 (Rabs_pos _)).
  assert (SCL : std_close u (Rabs (b j)) b0 b (b0 + c * b j) b').
  { split.
    - intros _. rewrite (rsum_single _ j) by (try exact Hj; intros i Hi Ni; rewrite (Bo i Ni); ring). rewrite Bj, Hm.
      replace (b0 + c * b j - b0 + c * (0 - b j)) with 0 by ring. rewrite Rabs_R0. apply Rabs_pos.
    - intros k Hk. destruct (Nat.eq_dec k j) as [->|Nk].
      + rewrite SC, Bj, Rminus_0_l, Rabs_Ropp. lra.
      + rewrite (Bo k Nk), Rminus_diag_eq, Rabs_R0, Rmult_0_r by reflexivity. apply Rabs_pos. }
  specialize (N' SCL). rewrite OB, L in N'.
  assert (N2 : u_P1 u j * Rabs (b j) + p2_entry (u_P2 u) j j * (b j * b j) <= fit_tol s u se * Rabs (b j)) by (destruct s; lra).
  assert (P : 0 < Rabs (b j)) by (apply Rabs_pos_lt, NZ).
  replace (b j * b j) with (Rabs (b j) * Rabs (b j)) in N2 by (rewrite <- Rabs_mult; apply Rabs_right; nra).
  apply (Rmult_le_reg_r (Rabs (b j))); [exact P|]. lra.
Qed.
Print Assumptions C97_silent.

(** Two informative columns and a constant one, with an intercept and an L1 penalty. *)
Definition ex97_u : user := mkUser 4 3
  (fun i j => match j with O => (if Nat.odd i then -1 else 1) | 1%nat => (if Nat.leb i 1 then 2 else -2) | _ => 5 end)
  (fun i => match i with O => 1 | 1%nat => -1 | 2%nat => -1 | _ => 1 end) (fun _ => / 4) (fun _ => 0) true
  NormalF IdentityL (fun _ => 1) (P2diag (fun _ => 0)) (fun _ => None) (fun j => match j with 2%nat => Some 0 | _ => None end) false.
Lemma ex97_ok : user_ok ex97_u.
Proof.
  split; [exact I|]. split; [intros; exact I|]. split; [intros; cbn; lra|]. split; [intros; cbn; lra|]. split.
  - intros i j _ _. cbn [ex97_u u_P2 p2_entry]. destruct (Nat.eqb i j), (Nat.eqb j i); reflexivity.
  - intros x. apply Req_le. symmetry. apply rsum_zero. intros i _. apply rsum_zero. intros j _. cbn [ex97_u u_P2 p2_entry].
    destruct (Nat.eqb i j); ring.
Qed.
Lemma ex97_fit l : exists b, fit_with SCd ex97_u ex70_se None l 0 StartNone = Some (0, b, false, false) /\ forall j, (j < 3)%nat -> b j = 0.
Proof.
  set (u := ex97_u). assert (Hok : user_ok u) by exact ex97_ok.
  set (v := get_start_coef (u_p u) (u_ic u) (u_means u) (u_stds u) 0 (u_lb u) (u_ub u) StartNone).
  assert (V : forall k, (k < 4)%nat -> v k = 0).
  { intros k Hk. destruct k as [|[|[|[|k]]]]; [| | | |lia]; cbn; try reflexivity. apply Rmin_left. lra. }
  assert (B : forall j, (j < 3)%nat -> snd (user_result u v) j = 0).
  { intros j Hj. rewrite result_coef. change (ioff (u_ic u) + j)%nat with (S j). rewrite V by lia. ring. }
  assert (B0 : fst (user_result u v) = 0).
  { unfold user_result, unpack, unstandardize. change (u_ic u) with true. cbn [fst]. rewrite (V 0%nat) by lia. rewrite rsum_zero; [ring|]. intros j Hj. change (u_p u) with 3%nat in Hj. rewrite V by lia. ring. }
  assert (ET : forall i, user_eta u (fst (user_result u v)) (snd (user_result u v)) i = 0).
  { intros i. unfold user_eta. rewrite B0, rsum_zero by (intros k Hk; rewrite B by exact Hk; ring). cbn. ring. }
  set (se := solve_settings SCd u ex70_se). set (pb := std_problem u se).
  assert (SC : forall k, (k < 4)%nat -> score_of pb (std_problem_P2 u) v k = 0).
  { intros k Hk. destruct k as [|j].
    - unfold pb. rewrite score_intercept; [|reflexivity|exact I]. change (u_n u) with 4%nat. cbn [rsum]. rewrite !ET. cbn. ring.
    - replace (S j) with (ioff (u_ic u) + j)%nat by reflexivity. unfold pb. rewrite score_column.
      + change (u_n u) with 4%nat. cbn [rsum]. rewrite !ET. set (o := one_over _). clearbody o.
        assert (M : u_means u j = match j with 2%nat => 5 | _ => 0 end).
        { destruct j as [|[|[|j]]]; [| | |lia]; unfold u_means, col_means; cbn; unfold wmean; cbn; field. }
        rewrite M. destruct j as [|[|[|j]]]; [| | |lia]; cbn; ring.
      + change (u_p u) with 3%nat. lia.
      + intros k _. cbn. destruct (Nat.eqb k j); reflexivity.
      + exact I. }
  assert (IR : irls_solver pb (cd_solver pb (lib_seed l)) (std_problem_P2 u) v = Some (init_state pb (std_problem_P2 u) false v, false)).
  { apply irls_at_start; [apply std_ok, Hok|cbn; lra|].
    change (nc pb) with 4%nat. rewrite rsum_zero; [cbn; lra|].
    intros k Hk. unfold entry.
    destruct (Nat.ltb k (ioff (pb_ic pb))); [rewrite (SC 0%nat) by lia; rewrite Ropp_0; apply Rabs_R0|].
    rewrite (SC k Hk), Ropp_0, (V k Hk).
    generalize (pb_P1 pb (k - ioff (pb_ic pb))%nat) (pb_lb pb (k - ioff (pb_ic pb))%nat) (pb_ub pb (k - ioff (pb_ic pb))%nat). intros x lo hi.
    unfold subgrad_term, fsign. rewrite !(proj2 (Reqb_true 0 0)) by reflexivity.
    rewrite Rmult_0_l. cbv zeta. repeat match goal with |- context [if ?c then 0 else 0] => destruct c end; apply Rabs_R0. }
  exists (snd (user_result u v)). split; [|exact B].
  assert (EC : forall pb P2, st_coef (init_state pb P2 false v) = v /\ st_lswarn (init_state pb P2 false v) = 0%nat).
  { intros pb0 P2. unfold init_state. destruct (eta_mu_objective _ _ _ _ _ _) as [[[? ?] ?] ?].
    destruct (update_quadratic _ _ _ _) as [[? ?] ?]. destruct (check_convergence _ _ _ _) as [[[? ?] ?] ?]. split; reflexivity. }
  unfold fit_with. fold v. unfold solve. cbv zeta. fold se. fold pb. rewrite IR.
  destruct (EC pb (std_problem_P2 u)) as [-> ->]. rewrite <- B0 at 1. rewrite <- surjective_pairing. reflexivity.
Qed.
Example ex97_nonvacuous : exists b, uninformative ex97_u 2 /\ user_ok ex97_u /\ libs_sound 0 exact_libs /\
  convex_pair (u_fam ex97_u) (u_link ex97_u) /\ start_ok ex97_u StartNone /\ accepts SCd ex97_u None /\ starts_at_zero ex97_u StartNone 2 /\
  fit_with SCd ex97_u ex70_se None exact_libs 0 StartNone = Some (0, b, false, false) /\ se_stol ex70_se = None /\ 0 <= se_approx ex70_se /\
  fit_tol SCd ex97_u ex70_se < u_P1 ex97_u 2.
Proof.
  destruct (ex97_fit exact_libs) as [b [F B]]. exists b. split.
  { split; [cbn; lia|]. split.
    - left. split; [reflexivity|]. split; [cbn; field|]. exists 5. intros i _. reflexivity.
    - split; [intros k Hk N; cbn; destruct k as [|[|[|k]]]; [split; reflexivity|split; reflexivity|congruence|cbn in Hk; lia]|].
      split; [discriminate|]. intros x [= <-]. lra. }
  split; [exact ex97_ok|]. split; [apply exact_libs_sound; lra|]. split; [exact I|].
  split; [left; split; [reflexivity|]; intros j Hj; cbn; destruct j as [|[|[|j]]]; split; try discriminate; try (cbn; intros x [= <-]; lra)|].
  split; [split; [congruence|congruence]|]. split; [left; reflexivity|]. split; [exact F|]. split; [reflexivity|]. split; cbn; lra.
Qed.
