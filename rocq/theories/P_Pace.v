(** C114: the number of iterations of irls-ls. *)
From Coq Require Import List Lia Lra Arith ZArith Classical_Prop. Import ListNotations.
From Verif Require Import L_Link L_Dist L_Dist2 L_Dist3 L_Dist4 L_CD L_CDb L_KKT L_Hess L_Solver L_Solver2 L_Solver3 L_Obj L_LS L_Psd L_Gap L_FitAll P_Solver P_LS S_Psd S_Pace.
From Verif Require Import M_Solver S_Solver.
Local Open Scope R_scope.

(** ** what one Newton step can rely on *)
Lemma upper_parabola (F F' F'' : R -> R) B : (forall x, is_derive F x (F' x)) -> (forall x, is_derive F' x (F'' x)) ->
  (forall x, F'' x <= B) -> forall a b, F b <= F a + F' a * (b - a) + / 2 * B * (b - a) ^ 2.
Proof.
  intros H1 H2 H3 a b.
  pose proof (convex_tangent (fun x => / 2 * B * x ^ 2 - F x) (fun x => B * x - F' x) (fun x => B - F'' x)) as T.
  assert (T1 : / 2 * B * a ^ 2 - F a + (B * a - F' a) * (b - a) <= / 2 * B * b ^ 2 - F b).
  { apply T.
    - intros x. apply (dR_eq (fun x => / 2 * B * x ^ 2 - F x) x (/ 2 * B * (2 * x) - F' x)); [|field].
      apply dR_minus; [auto_derive; [exact I | ring] | apply H1].
    - intros x. apply dR_minus; [auto_derive; [exact I | ring] | apply H2].
    - intros x. pose proof (H3 x). lra. }
  nra.
Qed.

Lemma logit_curv y w x : 0 <= w -> row_curv BinomialF LogitL y w x <= w * / 4.
Proof.
  intros Hw. unfold row_curv, hessian_row, rowwise, binomial_logit_rows. cbn [snd]. set (m := raw_inverse LogitL x).
  rewrite Rmult_assoc. apply Rmult_le_compat_l; [exact Hw|]. pose proof (pow2_ge_0 (m - / 2)). nra.
Qed.

Lemma logit_upper y w a b : 0 <= y <= 1 -> 0 <= w ->
  / 2 * (w * devrow BinomialF y (search_mean BinomialF LogitL b)) <=
  / 2 * (w * devrow BinomialF y (search_mean BinomialF LogitL a)) + - gradient_row BinomialF LogitL y w a (raw_inverse LogitL a) * (b - a)
  + / 2 * (w * / 4) * (b - a) ^ 2.
Proof.
  intros Hy Hw. apply (upper_parabola (fun e => / 2 * (w * devrow BinomialF y (search_mean BinomialF LogitL e)))
     (fun e => - gradient_row BinomialF LogitL y w e (raw_inverse LogitL e)) (row_curv BinomialF LogitL y w)).
  - intros x. apply row_derive; [exact I | exact Hy | apply (convex_pair_dev_ok BinomialF LogitL y I) | apply (convex_pair_regular BinomialF LogitL x I)].
  - intros x. replace (row_curv BinomialF LogitL y w x) with (hessian_row BinomialF LogitL y w x (raw_inverse LogitL x)) by reflexivity.
    eapply dR_eq; [apply dR_opp, hessian_row_is_derive; exact I | ring].
  - intros x. apply logit_curv, Hw.
Qed.

Lemma logistic_upper pb P2 c d t : pb_ok pb -> pb_fam pb = BinomialF -> pb_link pb = LogitL -> p2_sym (pb_p pb) P2 ->
  (forall i, (i < pb_n pb)%nat -> 0 <= pb_w pb i) ->
  smooth_obj pb P2 (vadd c (vscale t d)) <= smooth_obj pb P2 c - t * rsum (nc pb) (fun k => score_of pb P2 c k * d k)
   + / 2 * t ^ 2 * (rsum (pb_n pb) (fun i => pb_w pb i * / 4 * (rsum (nc pb) (fun k => xt pb i k * d k)) ^ 2) + l2_form pb P2 d).
Proof.
  intros Hok Ef El HS Hw.
  assert (EM : forall i, mean_of pb c i = raw_inverse (pb_link pb) (eta_of pb c i)) by (intros i; unfold mean_of; rewrite Ef, El; reflexivity).
  rewrite !smooth_obj_eq. unfold smooth_obj_with. rewrite l2_form_add by exact HS. rewrite !half_dev_rows.
  assert (ES : rsum (nc pb) (fun k => - score_of pb P2 c k * d k) =
     rsum (pb_n pb) (fun i => - gradient_row (pb_fam pb) (pb_link pb) (pb_y pb i) (pb_w pb i) (eta_of pb c i)
                             (raw_inverse (pb_link pb) (eta_of pb c i)) * lin_pred pb d i)
     + rsum (nc pb) (fun k => rsum (nc pb) (fun l => c l * p2_full (pb_ic pb) P2 l k) * d k)).
  { rewrite <- grad_dot. apply rsum_ext. intros k _. rewrite grad_score by auto. reflexivity. }
  assert (ES' : rsum (nc pb) (fun k => - score_of pb P2 c k * d k) = - rsum (nc pb) (fun k => score_of pb P2 c k * d k))
    by (rewrite <- rsum_opp; apply rsum_ext; intros; ring). rewrite ES' in ES. clear ES'.
  assert (RW : rsum (pb_n pb) (fun i => / 2 * (pb_w pb i * devrow (pb_fam pb) (pb_y pb i) (search_mean (pb_fam pb) (pb_link pb) (eta_of pb (vadd c (vscale t d)) i))))
    <= rsum (pb_n pb) (fun i => / 2 * (pb_w pb i * devrow (pb_fam pb) (pb_y pb i) (search_mean (pb_fam pb) (pb_link pb) (eta_of pb c i))))
    + t * rsum (pb_n pb) (fun i => - gradient_row (pb_fam pb) (pb_link pb) (pb_y pb i) (pb_w pb i) (eta_of pb c i)
                             (raw_inverse (pb_link pb) (eta_of pb c i)) * lin_pred pb d i)
    + / 2 * t ^ 2 * rsum (pb_n pb) (fun i => pb_w pb i * / 4 * (rsum (nc pb) (fun k => xt pb i k * d k)) ^ 2)).
  { rewrite <- !rsum_scal, <- !rsum_plus. apply rsum_le. intros i Hi. destruct Hok as [_ [Hy _]]. specialize (Hy i Hi). rewrite Ef in Hy.
    pose proof (logit_upper (pb_y pb i) (pb_w pb i) (eta_of pb c i) (eta_of pb (vadd c (vscale t d)) i) Hy (Hw i Hi)) as Q.
    rewrite Ef, El. eapply Rle_trans; [exact Q|]. rewrite !eta_of_add.
    assert (EL : lin_pred pb d i = rsum (nc pb) (fun k => xt pb i k * d k)) by apply lin_pred_eq. rewrite <- EL. right. ring. }
  apply (f_equal (Rmult t)) in ES. eapply Rle_trans; [apply Rplus_le_compat_r, RW|]. nra.
Qed.

Lemma score_below n (H : nat -> nat -> R) d s M : 0 < M -> (forall k l, (k < n)%nat -> (l < n)%nat -> H k l = H l k) ->
  (forall v : nat -> R, 0 <= rsum n (fun k => rsum n (fun l => v k * H k l * v l)) <= M * rsum n (fun k => v k ^ 2)) ->
  (forall k, (k < n)%nat -> rsum n (fun l => H k l * d l) = s k) -> rsum n (fun k => s k ^ 2) <= M * rsum n (fun k => s k * d k).
Proof.
  intros HM HS HB HD. set (t := / M). set (S2 := rsum n (fun k => s k ^ 2)). set (SD := rsum n (fun k => s k * d k)).
  destruct (HB (fun k => d k - t * s k)) as [P _]. destruct (HB s) as [_ Q].
  set (B := fun u v => rsum n (fun k => rsum n (fun l => u k * H k l * v l))) in *.
  assert (BD : forall u, B u d = rsum n (fun k => u k * s k)).
  { intros u. apply rsum_ext. intros k Hk. rewrite <- HD by exact Hk. rewrite <- rsum_scal. apply rsum_ext. intros; ring. }
  assert (BS : B d s = B s d).
  { unfold B. rewrite rsum_swap. apply rsum_ext. intros k Hk. apply rsum_ext. intros l Hl. rewrite (HS l k) by assumption. ring. }
  assert (E : B (fun k => d k - t * s k) (fun k => d k - t * s k) = B d d - t * B d s - t * B s d + t * t * B s s).
  { unfold B. rewrite <- !rsum_scal, <- !rsum_minus, <- rsum_plus. apply rsum_ext. intros k _. rewrite <- !rsum_scal, <- !rsum_minus, <- rsum_plus. apply rsum_ext. intros; ring. }
  change (0 <= B (fun k => d k - t * s k) (fun k => d k - t * s k)) in P. change (B s s <= M * S2) in Q. rewrite E, BS, !BD in P.
  assert (E1 : rsum n (fun k => d k * s k) = SD) by (apply rsum_ext; intros; ring).
  assert (E2 : rsum n (fun k => s k * s k) = S2) by (apply rsum_ext; intros; ring). rewrite E1, E2 in P.
  assert (T : t * M = 1) by (unfold t; field; lra). assert (T0 : 0 < t) by (apply Rinv_0_lt_compat, HM).
  assert (t * t * B s s <= t * S2) by (replace (t * S2) with (t * t * (M * S2)) by (transitivity ((t * M) * (t * S2)); [ring | rewrite T; ring]); apply Rmult_le_compat_l; nra).
  assert (t * S2 <= SD) by lra. apply Rmult_le_reg_l with t; [exact T0|]. rewrite <- Rmult_assoc, T. lra.
Qed.

Lemma smooth_norm pb s : smooth_problem pb -> fst (norm_min_subgrad (seq 0 (nc pb)) (st_coef s) (fun k => - st_score s k) (pb_P1 pb) (pb_ic pb) (pb_lb pb) (pb_ub pb))
  = rsum (nc pb) (fun k => Rabs (st_score s k)).
Proof.
  intros [H1 [H2 H3]].
  assert (T : forall c g j, (j < pb_p pb)%nat -> subgrad_term c g (pb_P1 pb j) (pb_lb pb j) (pb_ub pb j) = g).
  { intros c g j Hj. rewrite (H1 j Hj), H2, H3. unfold subgrad_term, at_bound. cbn [andb]. cbv zeta. destruct (Reqb c 0); [|ring].
    rewrite fmax_Rmax, Rmax_left by (pose proof (Rabs_pos g); lra).
    destruct (fsign_cases g) as [[A ->] | [[A ->] | [A ->]]]; unfold Rabs; destruct Rcase_abs; lra. }
  assert (L : forall ic act nm mx, (forall k, In k act -> (ioff ic <= k < pb_p pb + ioff ic)%nat) ->
    fst (norm_loop act (st_coef s) (fun k => - st_score s k) (pb_P1 pb) ic (pb_lb pb) (pb_ub pb) nm mx) = nm + lsumf (fun k => Rabs (st_score s k)) act).
  { intros ic. induction act as [|k act IH]; intros nm mx HK; cbn [norm_loop]; [rewrite lsumf_nil; cbn; ring|]. rewrite lsumf_cons.
    pose proof (HK k (or_introl eq_refl)) as Hk. rewrite (proj2 (Nat.ltb_ge _ _)) by lia. rewrite IH by (intros; apply HK; right; assumption).
    rewrite T by lia. rewrite Rabs_Ropp. ring. }
  unfold norm_min_subgrad. rewrite <- lsumf_seq. unfold nc. destruct (pb_ic pb) eqn:IC.
  - specialize (L true). cbn [ioff Nat.add seq norm_loop] in *. rewrite (proj2 (Nat.ltb_lt 0 1)) by lia. cbv iota.
    rewrite L by (intros k Hk; apply in_seq in Hk; lia). rewrite lsumf_cons, Rabs_Ropp. reflexivity.
  - specialize (L false). cbn [ioff Nat.add] in *. rewrite L by (intros k Hk; apply in_seq in Hk; lia). ring.
Qed.

Section Run.
Variables (pb : problem) (solve : linear_solver) (P2 : P2t) (c : nat -> R) (M : R).
Hypothesis Hok : pb_ok pb.
Hypothesis HA : pb_approx pb = 0.
Hypothesis Hw : forall i, (i < pb_n pb)%nat -> 0 <= pb_w pb i.
Hypothesis Hsafe : safe_pair (pb_fam pb) (pb_link pb).
Hypothesis HS : p2_sym (pb_p pb) P2.
Hypothesis HP : p2_psd (pb_p pb) P2.
Hypothesis HSm : smooth_problem pb.
Hypothesis Hsol : solve_sound solve.
Hypothesis HM : 0 < M.
Local Notation F := (train_obj pb P2).

(** one iteration: the objective falls by a multiple of the squared gradient *)
Lemma one_iteration s s' : reach pb (ls_solver pb solve) P2 c s -> irls_step pb (ls_solver pb solve) s = Some s' ->
  hessian_below pb P2 M (st_coef s) -> ~ ls_failed s s' -> ~ tiny pb s s' ->
  grad_sq pb P2 (st_coef s) <= M * armijo_scale * (F (st_coef s) - F (st_coef s')).
Proof.
  intros R0 E HB HF HT. assert (HC : 0 <= pb_approx pb) by lra. pose proof (reach_inv _ _ _ _ _ Hok HC R0) as I. pose proof I as [C P A H].
  destruct (irls_step_facts _ _ _ _ E) as [d [cyc [Ei Fa]]].
  destruct (sf_ls _ _ _ _ _ _ Fa) as [E1 [E2 [E3 [E4 [E5 [E6 E7]]]]]].
  destruct (line_search_spec pb (st_P2 s) (st_coef s) (st_score s) (st_eta s) (st_obj s) d Hok (coh_eta _ _ _ C))
    as [[_ [_ [_ [_ [Ho _]]]]] [Hk [Hf [_ Hacc]]]].
  set (r := line_search _ _ _ _ _ _ _) in *. rewrite P in Ho.
  destruct (ls_warn r) eqn:W; [exfalso; apply HF; unfold ls_failed; rewrite E7; lia|].
  destruct (proj1 Hacc eq_refl) as [[_ L]|[L _]]; [|exfalso; apply HT; unfold tiny; rewrite E5; exact L].
  pose proof (ls_direction pb solve P2 s d cyc Hok HC HS Hsol I Ei) as D.
  destruct (prepare_spec pb s P2 HC P A H) as [_ [_ [_ [_ HH]]]]. specialize (HH HA).
  assert (Ms : means_ok pb) by (apply safe_means_ok; exact Hsafe).
  destruct (old_rows_nonneg pb _ P2 c s Hok HC Hw Ms R0) as [N _].
  assert (EH : forall k l, exact_hessian pb (st_hrows (fst (prepare pb s))) P2 k l = exact_hessian pb (hrow_of pb (st_coef s)) P2 k l).
  { intros k l. unfold exact_hessian. f_equal. apply rsum_ext. intros i Hi. rewrite HH, (coh_hrows _ _ _ C) by exact Hi. reflexivity. }
  assert (D2 : forall k, (k < nc pb)%nat -> rsum (nc pb) (fun l => exact_hessian pb (hrow_of pb (st_coef s)) P2 k l * d l) = score_of pb P2 (st_coef s) k).
  { intros k Hk'. rewrite <- (coh_score _ _ _ C) by exact Hk'. rewrite <- (D k Hk'). apply rsum_ext. intros l _. rewrite EH. reflexivity. }
  pose proof (score_below (nc pb) (exact_hessian pb (hrow_of pb (st_coef s)) P2) d (score_of pb P2 (st_coef s)) M HM
    (fun k l => exact_hessian_sym pb _ P2 k l HS)) as SB.
  assert (PS : forall v : nat -> R, 0 <= rsum (nc pb) (fun k => rsum (nc pb) (fun l => v k * exact_hessian pb (hrow_of pb (st_coef s)) P2 k l * v l)) <= M * rsum (nc pb) (fun k => v k ^ 2)).
  { intros v. split; [|apply HB]. apply exact_psd; [|exact HP]. intros i Hi. rewrite <- (coh_hrows _ _ _ C) by exact Hi. apply N, Hi. }
  specialize (SB PS D2). fold (grad_sq pb P2 (st_coef s)) in SB. set (g2 := grad_sq pb P2 (st_coef s)) in *. set (sd := rsum (nc pb) (fun k => score_of pb P2 (st_coef s) k * d k)) in *.
  assert (BD : ls_bound pb (st_coef s) (st_score s) d = - (1 / 10000 * sd)).
  { unfold ls_bound. rewrite !l1_pen_zero by apply HSm. unfold dot. rewrite (rsum_ext (nc pb) (fun i => st_score s i * d i) (fun k => score_of pb P2 (st_coef s) k * d k)); [fold sd; ring|].
    intros k Hk'. rewrite (coh_score _ _ _ C) by exact Hk'. reflexivity. }
  rewrite BD, Ho in L. rewrite (coh_obj _ _ _ C) in L. rewrite E1.
  assert (G0 : 0 <= g2) by (apply rsum_nonneg; intros; apply pow2_ge_0).
  assert (SD0 : 0 <= sd) by (apply Rmult_le_reg_l with M; [exact HM|]; lra).
  assert (FK : / 2 ^ 19 <= ls_factor r).
  { rewrite Hf. apply Rinv_le_contravar; [apply pow_lt; lra|]. apply Rle_pow; [lra | exact Hk]. }
  assert (K : / 2 ^ 19 * (1 / 10000 * sd) <= F (st_coef s) - F (ls_coef r)).
  { apply Rle_trans with (ls_factor r * (1 / 10000 * sd)); [apply Rmult_le_compat_r; lra|]. lra. }
  unfold armijo_scale. assert (P19 : 2 ^ 19 = 524288) by (cbn; lra). rewrite P19 in *. nra.
Qed.

Lemma many_iterations n hist : run_history pb (ls_solver pb solve) P2 c n hist ->
  (forall k, (k < n)%nat -> hessian_below pb P2 M (st_coef (hist k)) /\ ~ ls_failed (hist k) (hist (S k)) /\ ~ tiny pb (hist k) (hist (S k))) ->
  rsum n (fun k => grad_sq pb P2 (st_coef (hist k))) <= M * armijo_scale * (F c - F (st_coef (hist n))).
Proof.
  intros [H0 HR] HK.
  assert (RE : forall k, (k <= n)%nat -> reach pb (ls_solver pb solve) P2 c (hist k)) by (eapply hist_reach; eauto).
  assert (G : forall m, (m <= n)%nat -> rsum m (fun k => grad_sq pb P2 (st_coef (hist k))) <= M * armijo_scale * (F c - F (st_coef (hist m)))).
  { induction m as [|m IH]; intros Hm.
    - cbn [rsum]. rewrite H0, init_coef. lra.
    - cbn [rsum]. specialize (IH ltac:(lia)). destruct (HK m ltac:(lia)) as [A [B D]].
      pose proof (one_iteration (hist m) (hist (S m)) (RE m ltac:(lia)) (HR m ltac:(lia)) A B D). lra. }
  apply G. lia.
Qed.

(** the objective never rises on the way *)
Lemma stays_below n hist : run_history pb (ls_solver pb solve) P2 c n hist ->
  (forall v, F v <= F c -> hessian_below pb P2 M v) ->
  (forall k, (k < n)%nat -> ~ ls_failed (hist k) (hist (S k)) /\ ~ tiny pb (hist k) (hist (S k))) ->
  forall k, (k <= n)%nat -> F (st_coef (hist k)) <= F c.
Proof.
  intros [H0 HR] HB HK. assert (RE : forall k, (k <= n)%nat -> reach pb (ls_solver pb solve) P2 c (hist k)) by (eapply hist_reach; eauto).
  induction k as [|k IH]; intros Hk; [rewrite H0, init_coef; lra|]. specialize (IH ltac:(lia)). destruct (HK k ltac:(lia)) as [A B].
  pose proof (one_iteration (hist k) (hist (S k)) (RE k ltac:(lia)) (HR k ltac:(lia)) (HB _ IH) A B) as Q.
  assert (G0 : 0 <= grad_sq pb P2 (st_coef (hist k))) by (apply rsum_nonneg; intros; apply pow2_ge_0).
  assert (Z : 0 < M * armijo_scale) by (unfold armijo_scale; apply Rmult_lt_0_compat; [exact HM|]; apply Rmult_lt_0_compat; [lra | apply pow_lt; lra]).
  assert (0 <= F (st_coef (hist k)) - F (st_coef (hist (S k)))) by (apply Rmult_le_reg_l with (M * armijo_scale); [exact Z|]; lra). lra.
Qed.

Lemma not_stop s : 0 <= pb_gtol pb -> reach pb (ls_solver pb solve) P2 c s -> ~ stop_test pb s ->
  pb_gtol pb ^ 2 <= INR (nc pb) * grad_sq pb P2 (st_coef s).
Proof.
  intros Hg R0 N. pose proof (reach_inv _ _ _ _ _ Hok ltac:(lra) R0) as [C _ _ _].
  assert (G : pb_gtol pb <= rsum (nc pb) (fun k => Rabs (st_score s k))).
  { apply Rnot_lt_le. intros Q. apply N. left. rewrite smooth_norm by exact HSm. exact Q. }
  set (a := rsum (nc pb) (fun k => Rabs (st_score s k))) in *.
  pose proof (L_Psd.cauchy (nc pb) (fun k => Rabs (st_score s k)) (fun _ => 1)) as CS. cbv beta in CS.
  rewrite (rsum_ext (nc pb) (fun i => Rabs (st_score s i) * 1) (fun k => Rabs (st_score s k))) in CS by (intros; ring). fold a in CS.
  assert (E1 : sq_norm (nc pb) (fun k => Rabs (st_score s k)) = grad_sq pb P2 (st_coef s)).
  { unfold sq_norm, grad_sq. apply rsum_ext. intros k Hk. rewrite <- (coh_score _ _ _ C) by exact Hk. rewrite <- Rabs_mult, Rabs_right; [ring | nra]. }
  assert (E2 : sq_norm (nc pb) (fun _ => 1) = INR (nc pb)).
  { unfold sq_norm. rewrite (rsum_ext (nc pb) _ (fun _ => 1)) by (intros; ring). rewrite rsum_const. ring. }
  rewrite E1, E2 in CS. apply Rle_trans with (a * a); [|lra]. replace (pb_gtol pb ^ 2) with (pb_gtol pb * pb_gtol pb) by ring. apply Rmult_le_compat; assumption.
Qed.

Lemma obj_nonneg v : 0 <= F v.
Proof.
  unfold train_obj, smooth_obj. assert (L : l1_form pb v = 0) by (rewrite <- l1_pen_eq by apply Hok; apply l1_pen_zero, HSm).
  rewrite L. pose proof (l2_form_nonneg pb P2 v HP). unfold half_deviance. assert (0 <= deviance (pb_fam pb) (fitted pb v)).
  { apply deviance_nonneg; [apply Hok|]. intros o Ho. unfold fitted in Ho. apply in_map_iff in Ho. destruct Ho as [i [<- Hi]]. apply in_seq in Hi.
    split; [split|]; cbn; [apply Hok; lia | apply (safe_means_ok pb Hsafe v i); lia | apply Hw; lia]. }
  lra.
Qed.
End Run.

(** The squared gradients of the iterates add up to at most a multiple of what the objective has lost: with G the gradient of the
    objective and M a bound of its Hessian, the sum of |G|^2 over the first n iterations is at most 10000 * 2^19 * M * (F_0 - F_n). *)
Theorem C114_rate : forall pb solve P2 c M n hist, pb_ok pb -> pb_approx pb = 0 ->
  (forall i, (i < pb_n pb)%nat -> 0 <= pb_w pb i) -> safe_pair (pb_fam pb) (pb_link pb) ->
  p2_sym (pb_p pb) P2 -> p2_psd (pb_p pb) P2 -> smooth_problem pb -> solve_sound solve -> 0 < M ->
  run_history pb (ls_solver pb solve) P2 c n hist ->
  (forall k, (k < n)%nat -> hessian_below pb P2 M (st_coef (hist k)) /\ ~ ls_failed (hist k) (hist (S k)) /\ ~ tiny pb (hist k) (hist (S k))) ->
  rsum n (fun k => grad_sq pb P2 (st_coef (hist k))) <= M * armijo_scale * (train_obj pb P2 c - train_obj pb P2 (st_coef (hist n))).
Proof. intros. eapply many_iterations; eauto. Qed.
Print Assumptions C114_rate.

(** A run makes at most  nc * 10000 * 2^19 * M * F_0 / gtol^2  iterations, wherever it starts - or one of its iterations is one in which
    the line search warned or in which the objective moved by no more than the machine-precision tolerance. *)
Theorem C114_iterations : forall pb solve P2 c M sf warned, pb_ok pb -> pb_approx pb = 0 -> 0 <= pb_gtol pb ->
  (forall i, (i < pb_n pb)%nat -> 0 <= pb_w pb i) -> safe_pair (pb_fam pb) (pb_link pb) ->
  p2_sym (pb_p pb) P2 -> p2_psd (pb_p pb) P2 -> smooth_problem pb -> solve_sound solve -> 0 < M ->
  (forall v, train_obj pb P2 v <= train_obj pb P2 c -> hessian_below pb P2 M v) ->
  irls_solver pb (ls_solver pb solve) P2 c = Some (sf, warned) ->
  IZR (st_niter sf) * pb_gtol pb ^ 2 <= INR (nc pb) * (M * armijo_scale * train_obj pb P2 c)
  \/ exists s s', reach pb (ls_solver pb solve) P2 c s /\ irls_step pb (ls_solver pb solve) s = Some s' /\ (ls_failed s s' \/ tiny pb s s').
Proof.
  intros pb solve P2 c M sf warned Hok HA Hg Hw Hs HS HP HSm Hsol HM HB E.
  destruct (C27_iteration_accounting _ _ _ _ _ _ E) as [n [hist [RH [Hn [En [_ [_ [NS _]]]]]]]].
  assert (RE : forall k, (k <= n)%nat -> reach pb (ls_solver pb solve) P2 c (hist k)) by (eapply hist_reach; apply RH).
  destruct (classic (exists k, (k < n)%nat /\ (ls_failed (hist k) (hist (S k)) \/ tiny pb (hist k) (hist (S k))))) as [[k [Hk Q]]|NB].
  { right. exists (hist k), (hist (S k)). split; [apply RE; lia|]. split; [apply RH, Hk | exact Q]. }
  assert (OK : forall k, (k < n)%nat -> ~ ls_failed (hist k) (hist (S k)) /\ ~ tiny pb (hist k) (hist (S k))).
  { intros k Hk. split; intros Q; apply NB; exists k; auto. }
  left. pose proof (stays_below pb solve P2 c M Hok HA Hw Hs HS HP HSm Hsol HM n hist RH HB OK) as LV.
  assert (HK : forall k, (k < n)%nat -> hessian_below pb P2 M (st_coef (hist k)) /\ ~ ls_failed (hist k) (hist (S k)) /\ ~ tiny pb (hist k) (hist (S k))).
  { intros k Hk. split; [apply HB, LV; lia | apply OK, Hk]. }
  pose proof (many_iterations pb solve P2 c M Hok HA Hw Hs HS HP HSm Hsol HM n hist RH HK) as MI.
  assert (Z : 0 < M * armijo_scale) by (unfold armijo_scale; apply Rmult_lt_0_compat; [exact HM|]; apply Rmult_lt_0_compat; [lra | apply pow_lt; lra]).
  pose proof (obj_nonneg pb P2 Hok Hw Hs HP HSm (st_coef (hist n))) as NN.
  assert (Q : INR n * pb_gtol pb ^ 2 <= INR (nc pb) * rsum n (fun k => grad_sq pb P2 (st_coef (hist k)))).
  { rewrite <- rsum_scal, Rmult_comm, <- rsum_const. apply rsum_le. intros k Hk. apply (not_stop pb solve P2 c Hok HA HSm); [exact Hg | apply RE; lia | apply NS, Hk]. }
  rewrite En, <- INR_IZR_INZ. eapply Rle_trans; [exact Q|]. apply Rmult_le_compat_l; [apply pos_INR|]. eapply Rle_trans; [exact MI|].
  apply Rmult_le_compat_l; [lra|]. lra.
Qed.
Print Assumptions C114_iterations.

(** ** logistic regression *)
Lemma mean_probability pb c i : pb_fam pb = BinomialF -> pb_link pb = LogitL -> mean_of pb c i = probability pb c i.
Proof. intros Ef El. unfold mean_of, probability, search_mean. rewrite Ef, El. cbn [raw_inverse]. unfold expit, Rdiv. ring. Qed.
Lemma probability_range pb c i : 0 < probability pb c i < 1.
Proof.
  unfold probability. pose proof (exp_pos (- eta_of pb c i)) as E. split; [apply Rinv_0_lt_compat; lra|].
  rewrite <- Rinv_1. apply Rinv_lt_contravar; lra.
Qed.
Lemma logit_row pb c i : pb_fam pb = BinomialF -> pb_link pb = LogitL ->
  hrow_of pb c i = pb_w pb i * (probability pb c i * (1 - probability pb c i)).
Proof.
  intros Ef El. unfold hrow_of. rewrite (mean_probability pb c i Ef El), Ef, El. unfold hessian_row, rowwise, binomial_logit_rows. cbn [snd]. ring.
Qed.

(** In logistic regression without L1 penalty and bounds the line search succeeds at every iterate at which no estimated probability of
    a weighted row is within 2.5e-7 of 0 or 1 - whatever the data, the penalty and the iteration. *)
Theorem C114_logistic_line_search : forall pb solve P2 c s s', pb_ok pb -> pb_approx pb = 0 -> 1 <= pb_large pb ->
  (forall i, (i < pb_n pb)%nat -> 0 <= pb_w pb i) -> pb_fam pb = BinomialF -> pb_link pb = LogitL ->
  p2_sym (pb_p pb) P2 -> p2_psd (pb_p pb) P2 -> smooth_problem pb -> solve_sound solve ->
  reach pb (ls_solver pb solve) P2 c s -> irls_step pb (ls_solver pb solve) s = Some s' ->
  undecided pb (st_coef s) -> ~ ls_failed s s'.
Proof.
  intros pb solve P2 c s s' Hok HA Hbig Hw Ef El HS HP HSm Hsol R0 E HU HF.
  assert (HC : 0 <= pb_approx pb) by lra. pose proof (reach_inv _ _ _ _ _ Hok HC R0) as I. pose proof I as [C P A H].
  destruct (irls_step_facts _ _ _ _ E) as [d [cyc [Ei Fa]]].
  destruct (sf_ls _ _ _ _ _ _ Fa) as [E1 [E2 [E3 [E4 [E5 [E6 E7]]]]]].
  destruct (line_search_spec pb (st_P2 s) (st_coef s) (st_score s) (st_eta s) (st_obj s) d Hok (coh_eta _ _ _ C))
    as [[Hst [Hc [_ [Hmu [Ho _]]]]] [Hk [Hf [Hk19 Hacc]]]].
  set (r := line_search _ _ _ _ _ _ _) in *. rewrite P in Ho.
  destruct (ls_warn r) eqn:W; [|unfold ls_failed in HF; rewrite E7 in HF; lia].
  assert (NA : ~ ls_accept pb (st_score s) (st_obj s) (ls_bound pb (st_coef s) (st_score s) d) r) by (intros Q; apply Hacc in Q; discriminate).
  apply NA. left. split.
  { intros i Hi. rewrite Hmu by exact Hi. rewrite (mean_probability pb _ _ Ef El). pose proof (probability_range pb (ls_coef r) i). lra. }
  rewrite (Hk19 eq_refl) in Hf. pose proof (ls_direction pb solve P2 s d cyc Hok HC HS Hsol I Ei) as D.
  destruct (prepare_spec pb s P2 HC P A H) as [_ [_ [_ [_ HH]]]]. specialize (HH HA).
  assert (EH : forall k l, exact_hessian pb (st_hrows (fst (prepare pb s))) P2 k l = exact_hessian pb (hrow_of pb (st_coef s)) P2 k l).
  { intros k l. unfold exact_hessian. f_equal. apply rsum_ext. intros i Hi. rewrite HH, (coh_hrows _ _ _ C) by exact Hi. reflexivity. }
  assert (D2 : forall k, (k < nc pb)%nat -> rsum (nc pb) (fun l => exact_hessian pb (hrow_of pb (st_coef s)) P2 k l * d l) = score_of pb P2 (st_coef s) k).
  { intros k Hk'. rewrite <- (coh_score _ _ _ C) by exact Hk'. rewrite <- (D k Hk'). apply rsum_ext. intros l _. rewrite EH. reflexivity. }
  set (sd := rsum (nc pb) (fun k => score_of pb P2 (st_coef s) k * d k)) in *.
  assert (QD : rsum (pb_n pb) (fun i => hrow_of pb (st_coef s) i * (rsum (nc pb) (fun k => xt pb i k * d k)) ^ 2) + l2_form pb P2 d = sd).
  { rewrite <- quad_exact. unfold sd. apply rsum_ext. intros k Hk'. rewrite <- (D2 k Hk'), <- rsum_scal_r. apply rsum_ext. intros; ring. }
  assert (BD : ls_bound pb (st_coef s) (st_score s) d = - (1 / 10000 * sd)).
  { unfold ls_bound. rewrite !l1_pen_zero by apply HSm. unfold dot. rewrite (rsum_ext (nc pb) (fun i => st_score s i * d i) (fun k => score_of pb P2 (st_coef s) k * d k)); [fold sd; ring|].
    intros k Hk'. rewrite (coh_score _ _ _ C) by exact Hk'. reflexivity. }
  rewrite BD, Ho, (coh_obj _ _ _ C), Hc, Hst, Hf.
  pose proof (logistic_upper pb P2 (st_coef s) d (/ 2 ^ 19) Hok Ef El HS Hw) as U. fold sd in U.
  assert (QU : rsum (pb_n pb) (fun i => pb_w pb i * / 4 * (rsum (nc pb) (fun k => xt pb i k * d k)) ^ 2) + l2_form pb P2 d <= 1000000 * sd).
  { rewrite <- QD, Rmult_plus_distr_l. pose proof (l2_form_nonneg pb P2 d HP). apply Rplus_le_compat; [|lra]. rewrite <- rsum_scal. apply rsum_le. intros i Hi.
    rewrite <- Rmult_assoc. apply Rmult_le_compat_r; [apply pow2_ge_0|]. rewrite (logit_row pb _ _ Ef El).
    destruct (Rle_lt_or_eq_dec 0 (pb_w pb i) (Hw i Hi)) as [Wp|<-]; [|lra]. specialize (HU i Hi Wp).
    rewrite <- Rmult_assoc, (Rmult_comm 1000000), Rmult_assoc. apply Rmult_le_compat_l; lra. }
  assert (SD0 : 0 <= sd).
  { rewrite <- QD. pose proof (l2_form_nonneg pb P2 d HP). assert (0 <= rsum (pb_n pb) (fun i => hrow_of pb (st_coef s) i * (rsum (nc pb) (fun k => xt pb i k * d k)) ^ 2)); [|lra].
    apply rsum_nonneg. intros i Hi. apply Rmult_le_pos; [|apply pow2_ge_0]. rewrite (logit_row pb _ _ Ef El). pose proof (probability_range pb (st_coef s) i).
    apply Rmult_le_pos; [apply Hw, Hi|]. apply Rmult_le_pos; lra. }
  unfold train_obj. rewrite <- !l1_pen_eq by apply Hok. rewrite !l1_pen_zero by apply HSm.
  assert (P19 : 2 ^ 19 = 524288) by (cbn; lra). rewrite P19 in *. nra.
Qed.
Print Assumptions C114_logistic_line_search.

Lemma rows_below pb P2 c b lambda : (forall i, (i < pb_n pb)%nat -> 0 <= b i /\ hrow_of pb c i <= b i) -> l2_below pb P2 lambda ->
  hessian_below pb P2 (rsum (pb_n pb) (fun i => b i * rsum (nc pb) (fun k => xt pb i k ^ 2)) + lambda) c.
Proof.
  intros HB HL v. rewrite quad_exact, Rmult_plus_distr_r. apply Rplus_le_compat; [|apply HL].
  rewrite <- rsum_scal_r. apply rsum_le. intros i Hi. destruct (HB i Hi) as [B0 B1].
  apply Rle_trans with (b i * rsum (nc pb) (fun k => xt pb i k * v k) ^ 2); [apply Rmult_le_compat_r; [apply pow2_ge_0 | exact B1]|].
  rewrite Rmult_assoc. apply Rmult_le_compat_l; [exact B0|]. pose proof (L_Psd.cauchy (nc pb) (fun k => xt pb i k) v) as CS. unfold sq_norm in CS.
  rewrite (rsum_ext (nc pb) (fun k => xt pb i k ^ 2) (fun k => xt pb i k * xt pb i k)) by (intros; ring).
  rewrite (rsum_ext (nc pb) (fun k => v k ^ 2) (fun k => v k * v k)) by (intros; ring). cbn [pow]. rewrite Rmult_1_r. exact CS.
Qed.

(** A logistic regression without L1 penalty and bounds makes at most  nc * 10000 * 2^19 * (|design|^2 / 4 + lambda) * F_0 / gtol^2
    iterations, unless the objective moves by no more than the machine-precision tolerance or some estimated probability comes within
    2.5e-7 of 0 or 1. *)
Theorem C114_logistic_iterations : forall pb solve P2 c lambda sf warned, pb_ok pb -> pb_approx pb = 0 -> 0 <= pb_gtol pb -> 1 <= pb_large pb ->
  (forall i, (i < pb_n pb)%nat -> 0 <= pb_w pb i) -> pb_fam pb = BinomialF -> pb_link pb = LogitL ->
  p2_sym (pb_p pb) P2 -> p2_psd (pb_p pb) P2 -> smooth_problem pb -> solve_sound solve ->
  l2_below pb P2 lambda -> 0 < design_size pb + lambda ->
  irls_solver pb (ls_solver pb solve) P2 c = Some (sf, warned) ->
  IZR (st_niter sf) * pb_gtol pb ^ 2 <= INR (nc pb) * ((design_size pb + lambda) * armijo_scale * train_obj pb P2 c)
  \/ exists s s', reach pb (ls_solver pb solve) P2 c s /\ irls_step pb (ls_solver pb solve) s = Some s' /\ (tiny pb s s' \/ ~ undecided pb (st_coef s)).
Proof.
  intros pb solve P2 c lambda sf warned Hok HA Hg Hbig Hw Ef El HS HP HSm Hsol HL HM E.
  assert (Hs : safe_pair (pb_fam pb) (pb_link pb)) by (rewrite Ef, El; left; reflexivity).
  assert (HB : forall v, train_obj pb P2 v <= train_obj pb P2 c -> hessian_below pb P2 (design_size pb + lambda) v).
  { intros v _. assert (EQ : design_size pb = rsum (pb_n pb) (fun i => pb_w pb i * / 4 * rsum (nc pb) (fun k => xt pb i k ^ 2))).
    { unfold design_size. rewrite <- rsum_scal. apply rsum_ext. intros; ring. }
    rewrite EQ. apply rows_below; [|exact HL]. intros i Hi. split; [pose proof (Hw i Hi); lra|]. rewrite (logit_row pb v i Ef El).
    apply Rmult_le_compat_l; [apply Hw, Hi|]. pose proof (pow2_ge_0 (probability pb v i - / 2)). nra. }
  destruct (C114_iterations pb solve P2 c (design_size pb + lambda) sf warned Hok HA Hg Hw Hs HS HP HSm Hsol HM HB E) as [Q|[s [s' [R0 [E' [F|F]]]]]]; [left; exact Q| |].
  - right. exists s, s'. split; [exact R0|]. split; [exact E'|]. right. intros U.
    apply (C114_logistic_line_search pb solve P2 c s s' Hok HA Hbig Hw Ef El HS HP HSm Hsol R0 E' U F).
  - right. exists s, s'. split; [exact R0|]. split; [exact E'|]. left. exact F.
Qed.
Print Assumptions C114_logistic_iterations.

(** A run that does not stop by itself has used all its iterations, so a large enough max_iter makes it converge. *)
Theorem C114_enough_iterations : forall pb solve P2 c M sf warned, pb_ok pb -> pb_approx pb = 0 -> 0 <= pb_gtol pb ->
  (forall i, (i < pb_n pb)%nat -> 0 <= pb_w pb i) -> safe_pair (pb_fam pb) (pb_link pb) ->
  p2_sym (pb_p pb) P2 -> p2_psd (pb_p pb) P2 -> smooth_problem pb -> solve_sound solve -> 0 < M ->
  (forall v, train_obj pb P2 v <= train_obj pb P2 c -> hessian_below pb P2 M v) ->
  INR (nc pb) * (M * armijo_scale * train_obj pb P2 c) < IZR (pb_max_iter pb) * pb_gtol pb ^ 2 ->
  irls_solver pb (ls_solver pb solve) P2 c = Some (sf, warned) ->
  warned = false
  \/ exists s s', reach pb (ls_solver pb solve) P2 c s /\ irls_step pb (ls_solver pb solve) s = Some s' /\ (ls_failed s s' \/ tiny pb s s').
Proof.
  intros pb solve P2 c M sf warned Hok HA Hg Hw Hs HS HP HSm Hsol HM HB HI E.
  destruct (C114_iterations pb solve P2 c M sf warned Hok HA Hg Hw Hs HS HP HSm Hsol HM HB E) as [Q|Q]; [|right; exact Q]. left.
  destruct (C27_iteration_accounting _ _ _ _ _ _ E) as [n [hist [_ [_ [En [_ [_ [_ [_ W]]]]]]]]].
  destruct warned; [exfalso|reflexivity]. specialize (W eq_refl). rewrite En, W in Q.
  assert (IZR (pb_max_iter pb) <= IZR (Z.max 0 (pb_max_iter pb))) by (apply IZR_le; lia). pose proof (pow2_ge_0 (pb_gtol pb)). nra.
Qed.
Print Assumptions C114_enough_iterations.

(** Non-vacuity: a ridge-penalised logistic regression of one row; its first iteration exists and meets every hypothesis. *)
Definition ex_pb114 : problem :=
  mkPb 1 1 (fun _ _ => 1) (fun _ => 1) (fun _ => 1) (fun _ => 0) false
       BinomialF LogitL (fun _ => 0) 5 1000 (1 / 10000) None 0 None false
       (fun _ => None) (fun _ => None) false 1000000 (1 / 1000000000).
Example C114_nonvacuous : pb_ok ex_pb114 /\ smooth_problem ex_pb114 /\ solve_sound solve1 /\
  l2_below ex_pb114 (P2diag (fun _ => 1)) 1 /\ 0 < design_size ex_pb114 + 1 /\ undecided ex_pb114 (fun _ => 1) /\
  (forall v, hessian_below ex_pb114 (P2diag (fun _ => 1)) (design_size ex_pb114 + 1) v) /\
  exists s', irls_step ex_pb114 (ls_solver ex_pb114 solve1) (init_state ex_pb114 (P2diag (fun _ => 1)) false (fun _ => 1)) = Some s'.
Proof.
  set (pb := ex_pb114). set (P2 := P2diag (fun _ => 1)).
  assert (Hok : pb_ok pb) by (split; [exact I|split; [intros; simpl; lra|intros; simpl; lra]]).
  assert (L2 : l2_below pb P2 1) by (intros v; unfold l2_form, nc, p2_full, p2_entry, P2; simpl; lra).
  assert (U : undecided pb (fun _ => 1)).
  { intros i _ _. unfold probability, eta_of, nc, xt. cbn. replace (0 + 1 * 1 + 0) with 1 by ring. rewrite exp_Ropp. pose proof exp_le_3 as E3. pose proof (exp_increasing 0 1 ltac:(lra)) as E1. rewrite exp_0 in E1.
    set (e := exp 1) in *. replace (/ (1 + / e) * (1 - / (1 + / e))) with (e / ((1 + e) * (1 + e))) by (field; split; lra).
    apply Rmult_le_reg_r with ((1 + e) * (1 + e)); [nra|]. unfold Rdiv. rewrite Rmult_assoc, Rinv_l by nra. nra. }
  split; [exact Hok|]. split; [split; [reflexivity | split; reflexivity]|]. split; [exact solve1_sound|]. split; [exact L2|].
  split; [unfold design_size, nc, xt; simpl; lra|]. split; [exact U|]. split.
  { intros v. assert (EQ : design_size pb = rsum (pb_n pb) (fun i => pb_w pb i * / 4 * rsum (nc pb) (fun k => xt pb i k ^ 2))) by (unfold design_size, nc, xt; simpl; lra).
    rewrite EQ. apply rows_below; [|exact L2]. intros i Hi. split; [simpl; lra|]. rewrite (logit_row pb v i) by reflexivity.
    apply Rmult_le_compat_l; [simpl; lra|]. pose proof (pow2_ge_0 (probability pb v i - / 2)). nra. }
  set (s0 := init_state pb P2 false (fun _ => 1)). pose proof (inv_init pb P2 false (fun _ => 1) Hok) as I0. fold s0 in I0.
  assert (Ec : st_coef s0 = (fun _ => 1)) by (unfold s0; apply init_coef).
  destruct (irls_step pb (ls_solver pb solve1) s0) as [s'|] eqn:ES; [eexists; reflexivity|]. exfalso. unfold irls_step in ES.
  destruct (prepare_spec pb s0 P2 (Rle_refl 0) (inv_P2 _ _ _ I0) (inv_act _ _ _ I0) (inv_hess _ _ _ I0)) as [_ [_ [HE [_ H0]]]].
  pose proof (prepare_facts pb s0) as PF. destruct (prepare pb s0) as [s1 Hm]. cbn [fst snd] in *.
  unfold ls_solver in ES. simpl pb_has_bounds in ES. cbv iota in ES.
  assert (EA : st_act s1 = (0%nat :: nil)).
  { rewrite (pf_act _ _ _ _ PF), Ec. unfold identify_active_set, is_active. simpl. rewrite (proj2 (Reqb_false 1 0)) by lra. reflexivity. }
  rewrite EA in ES. simpl Nat.eqb in ES. cbv iota in ES. unfold solve1 in ES. change (nc pb) with 1%nat in ES. simpl Nat.eqb in ES. cbv iota in ES.
  destruct (Reqb (Hm 0%nat 0%nat) 0) eqn:EH.
  - apply Reqb_true in EH. rewrite HE in EH by (rewrite EA; simpl; lia). rewrite EA in EH. simpl nth in EH.
    unfold exact_hessian in EH. simpl in EH. rewrite H0 in EH by reflexivity.
    assert (Q : 0 <= st_hrows s0 0%nat).
    { rewrite (coh_hrows _ _ _ (inv_coh _ _ _ I0)) by (simpl; lia). rewrite (logit_row pb _ _) by reflexivity. pose proof (probability_range pb (st_coef s0) 0).
      apply Rmult_le_pos; [simpl; lra|]. apply Rmult_le_pos; lra. }
    change (xt pb 0 0) with 1 in EH. lra.
  - destruct (update_quadratic _ _ _ _) as [[g sc] h]. destruct (check_convergence _ _ _ _) as [[[q1 q2] q3] q4]. discriminate.
Qed.
