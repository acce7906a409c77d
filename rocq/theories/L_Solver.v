(** Coherence of the solver state: what eta, mu, objective, score and row weights are,
    in every state at the head of the loop. *)
From Verif Require Import M_Solver S_Solver L_Link L_Dist L_Dist2 L_Dist3 L_CD L_CDb L_KKT L_Hess.
From Verif Require Import M_Solver S_Solver.
Local Open Scope R_scope.

(** ** algebra of the pieces *)
Lemma rsum_nc pb f : rsum (nc pb) f =
  (if pb_ic pb then f 0%nat else 0) + rsum (pb_p pb) (fun j => f (ioff (pb_ic pb) + j)%nat).
Proof. unfold nc, ioff. destruct (pb_ic pb); simpl Nat.add; [apply rsum_S_l|]. rewrite Rplus_0_l. apply rsum_ext. reflexivity. Qed.

Lemma lin_pred_eq pb c i : lin_pred pb c i = rsum (nc pb) (fun k => xt pb i k * c k).
Proof.
  rewrite rsum_nc. unfold lin_pred, xt, ioff. destruct (pb_ic pb).
  - rewrite Rmult_1_l. reflexivity.
  - reflexivity.
Qed.
Lemma eta_of_eq pb c i : eta_of pb c i = lin_pred pb c i + pb_off pb i.
Proof. rewrite lin_pred_eq. reflexivity. Qed.
Lemma lin_pred_add pb c d t i : lin_pred pb (vadd c (vscale t d)) i = lin_pred pb c i + t * lin_pred pb d i.
Proof.
  rewrite !lin_pred_eq, <- rsum_scal, <- rsum_plus. apply rsum_ext. intros. unfold vadd, vscale. ring.
Qed.
Lemma eta_of_add pb c d t i : eta_of pb (vadd c (vscale t d)) i = eta_of pb c i + t * lin_pred pb d i.
Proof. rewrite !eta_of_eq, lin_pred_add. ring. Qed.

Lemma p2_full_0l ic P2 l : ic = true -> p2_full ic P2 0 l = 0.
Proof. intros ->. reflexivity. Qed.
Lemma coef_P2_eq pb P2 c k : (k < nc pb)%nat ->
  make_coef_P2 pb P2 c k = rsum (nc pb) (fun l => c l * p2_full (pb_ic pb) P2 l k).
Proof.
  intros Hk. rewrite rsum_nc. unfold nc in Hk. unfold make_coef_P2, p2_full, ioff in *.
  assert (D : forall v off j, (j < pb_p pb)%nat ->
     c (off + j)%nat * v j = rsum (pb_p pb) (fun l => c (off + l)%nat * (if Nat.eqb l j then v l else 0))).
  { intros v off j Hj. symmetry. rewrite (rsum_single _ j); [rewrite Nat.eqb_refl; reflexivity|exact Hj|].
    intros i _ Hi. apply Nat.eqb_neq in Hi. rewrite Hi. ring. }
  destruct (pb_ic pb).
  - destruct k as [|k]; simpl.
    + rewrite rsum_zero; [ring|]. intros. ring.
    + rewrite Nat.sub_0_r, Rmult_0_r, Rplus_0_l.
      destruct P2 as [v|M]; simpl; [apply (D v 1%nat); lia|reflexivity].
  - simpl. rewrite Nat.sub_0_r, Rplus_0_l. destruct P2 as [v|M]; simpl; [apply (D v 0%nat); lia|reflexivity].
Qed.
Lemma dot_P2 pb P2 c : dot (nc pb) (make_coef_P2 pb P2 c) c = l2_form pb P2 c.
Proof.
  unfold dot, l2_form. rewrite rsum_swap. apply rsum_ext. intros k Hk.
  rewrite coef_P2_eq by exact Hk. rewrite <- rsum_scal_r. apply rsum_ext. intros. ring.
Qed.
Lemma l1_pen_eq pb c : (forall j, 0 <= pb_P1 pb j) -> l1_pen pb c = l1_form pb c.
Proof.
  intros H. unfold l1_pen, l1_form. rewrite rsum_nc. unfold pen_of, ioff.
  destruct (pb_ic pb).
  - rewrite Rmult_0_l, Rplus_0_l. apply rsum_ext. intros j _. simpl.
    rewrite Rabs_mult, (Rabs_right (pb_P1 pb j)) by (apply Rle_ge; auto). reflexivity.
  - rewrite Rplus_0_l. apply rsum_ext. intros j _. simpl.
    rewrite Rabs_mult, (Rabs_right (pb_P1 pb j)) by (apply Rle_ge; auto). reflexivity.
Qed.
Lemma xt_vec_eq pb g k : (k < nc pb)%nat -> xt_vec pb g k = rsum (pb_n pb) (fun i => g i * xt pb i k).
Proof.
  intros Hk. unfold xt_vec, xt, ioff. destruct (pb_ic pb).
  - destruct k as [|k]; simpl.
    + apply rsum_ext. intros. ring.
    + rewrite Nat.sub_0_r. reflexivity.
  - simpl. rewrite Nat.sub_0_r. reflexivity.
Qed.

(** constant by which the kernels' value differs from the deviance *)
Definition obj_k (pb : problem) : R :=
  / 2 * rsum (pb_n pb) (fun i => emd_k (pb_fam pb) (pb_link pb) (pb_y pb i) (pb_w pb i)).

Lemma vec_map A (f : A -> R) (d : A) l i : (i < length l)%nat -> vec (map f l) i = f (nth i l d).
Proof. intros H. unfold vec. rewrite (nth_indep _ 0 (f d)) by (rewrite map_length; exact H). apply map_nth. Qed.
Lemma vec_map_seq (f : nat -> R) n i : (i < n)%nat -> vec (map f (seq 0 n)) i = f i.
Proof. intros H. rewrite (vec_map _ f 0%nat) by (rewrite seq_length; exact H). f_equal. apply seq_nth. exact H. Qed.

Lemma to_obs_seq pb eta xd (mus : nat -> R) :
  to_obs (srows pb eta xd) (map mus (seq 0 (pb_n pb))) =
  map (fun i => mkobs (pb_y pb i) (pb_w pb i) (mus i)) (seq 0 (pb_n pb)).
Proof.
  unfold srows. generalize (seq 0 (pb_n pb)). intros l. unfold to_obs. induction l as [|i l IH]; [reflexivity|].
  simpl in *. f_equal. exact IH.
Qed.

Lemma eta_mu_objective_spec pb P2 xd t c cur : pb_ok pb ->
  (forall i, (i < pb_n pb)%nat -> cur i + t * xd i = eta_of pb c i) ->
  let '(eta, mu, obj, cP2) := eta_mu_objective pb P2 xd t c cur in
  (forall i, (i < pb_n pb)%nat -> eta i = eta_of pb c i) /\
  (forall i, (i < pb_n pb)%nat -> mu i = mean_of pb c i) /\
  obj = train_obj pb P2 c + obj_k pb /\ cP2 = make_coef_P2 pb P2 c.
Proof.
  intros [Hf [Hy HP]] E. unfold eta_mu_objective.
  pose proof (eta_mu_deviance_spec (pb_fam pb) (pb_link pb) t (srows pb cur xd) Hf) as S.
  assert (Hs : forall s, In s (srows pb cur xd) -> support (pb_fam pb) (s_y s)).
  { intros s Hs. unfold srows in Hs. apply in_map_iff in Hs. destruct Hs as [i [<- Hi]]. simpl.
    apply Hy. apply in_seq in Hi. lia. }
  specialize (S Hs). cbv zeta in S. rewrite S. clear S. cbv zeta.
  assert (Ee : map (fun s => s_eta s + t * s_xd s) (srows pb cur xd) = map (eta_of pb c) (seq 0 (pb_n pb))).
  { unfold srows. rewrite map_map. apply map_ext_in. intros i Hi. simpl. apply E. apply in_seq in Hi. lia. }
  rewrite Ee. rewrite map_map.
  split; [intros i Hi; apply vec_map_seq; exact Hi|].
  split; [intros i Hi; apply (vec_map_seq (fun x => search_mean _ _ _)); exact Hi|].
  split; [|reflexivity].
  rewrite (to_obs_seq pb cur xd (fun x => search_mean (pb_fam pb) (pb_link pb) (eta_of pb c x))).
  unfold train_obj, smooth_obj, half_deviance, obj_k.
  rewrite l1_pen_eq, dot_P2 by exact HP.
  fold (fitted pb c). unfold srows. rewrite !lsumf_map. cbn [s_y s_w]. rewrite !lsumf_seq. ring.
Qed.

Record coh (pb : problem) (P2 : P2t) (s : state) : Prop := mkCoh {
  coh_eta : forall i, (i < pb_n pb)%nat -> st_eta s i = eta_of pb (st_coef s) i;
  coh_mu : forall i, (i < pb_n pb)%nat -> st_mu s i = mean_of pb (st_coef s) i;
  coh_obj : st_obj s = train_obj pb P2 (st_coef s) + obj_k pb;
  coh_score : forall k, (k < nc pb)%nat -> st_score s k = score_of pb P2 (st_coef s) k;
  coh_hrows : forall i, (i < pb_n pb)%nat -> st_hrows s i = hrow_of pb (st_coef s) i;
  coh_norm : (st_norm s, st_max s) = norm_min_subgrad (seq 0 (nc pb)) (st_coef s) (fun k => - st_score s k)
               (pb_P1 pb) (pb_ic pb) (pb_lb pb) (pb_ub pb) }.

Lemma update_quadratic_spec pb P2 eta mu c :
  (forall i, (i < pb_n pb)%nat -> eta i = eta_of pb c i) ->
  (forall i, (i < pb_n pb)%nat -> mu i = mean_of pb c i) ->
  let '(g, score, h) := update_quadratic pb eta mu (make_coef_P2 pb P2 c) in
  (forall k, (k < nc pb)%nat -> score k = score_of pb P2 c k) /\
  (forall i, (i < pb_n pb)%nat -> h i = hrow_of pb c i).
Proof.
  intros He Hm. unfold update_quadratic. split.
  - intros k Hk. unfold score_of. rewrite xt_vec_eq, coef_P2_eq by exact Hk. f_equal.
    apply rsum_ext. intros i Hi. rewrite He, Hm by exact Hi. reflexivity.
  - intros i Hi. unfold hrow_of. rewrite He, Hm by exact Hi. reflexivity.
Qed.

(** ** the line search *)
Definition ls_accept (pb : problem) (score : nat -> R) (obj bound : R) (r : ls_result) : Prop :=
  ((forall i, (i < pb_n pb)%nat -> ls_mu r i < pb_large pb) /\ ls_obj r - obj <= ls_factor r * bound) \/
  (Rabs (ls_obj r - obj) <= Rabs (obj * pb_eps pb) /\
   trial_grad_norm pb (ls_eta r) (ls_mu r) (ls_cP2 r) < rsum (nc pb) (fun i => Rabs (score i))).

Definition ls_coherent (pb : problem) (P2 : P2t) (c d : nat -> R) (r : ls_result) : Prop :=
  ls_step r = vscale (ls_factor r) d /\ ls_coef r = vadd c (ls_step r) /\
  (forall i, (i < pb_n pb)%nat -> ls_eta r i = eta_of pb (ls_coef r) i) /\
  (forall i, (i < pb_n pb)%nat -> ls_mu r i = mean_of pb (ls_coef r) i) /\
  ls_obj r = train_obj pb P2 (ls_coef r) + obj_k pb /\ ls_cP2 r = make_coef_P2 pb P2 (ls_coef r).

Lemma ls_loop_spec pb P2 c score eta obj d bound : pb_ok pb ->
  (forall i, (i < pb_n pb)%nat -> eta i = eta_of pb c i) ->
  forall m k factor,
  let r := ls_loop pb P2 c score eta obj d (lin_pred pb d) bound m k factor in
  ls_coherent pb P2 c d r /\
  (exists n, (n <= m)%nat /\ ls_factor r = factor * / 2 ^ n /\ ls_k r = (k + n)%nat /\
             (ls_warn r = true -> n = m)) /\
  (ls_warn r = false -> ls_accept pb score obj bound r) /\
  (ls_warn r = true -> ~ ls_accept pb score obj bound r).
Proof.
  intros Hok He. induction m as [|m IH]; intros k factor; cbn zeta.
  all: cbn [ls_loop].
  all: assert (S := eta_mu_objective_spec pb P2 (lin_pred pb d) factor (vadd c (vscale factor d)) eta Hok);
    assert (E : forall i, (i < pb_n pb)%nat -> eta i + factor * lin_pred pb d i = eta_of pb (vadd c (vscale factor d)) i)
      by (intros i Hi; rewrite eta_of_add, He by exact Hi; reflexivity);
    specialize (S E);
    destruct (eta_mu_objective pb P2 (lin_pred pb d) factor (vadd c (vscale factor d)) eta) as [[[eta' mu'] obj'] cP2'];
    destruct S as [S1 [S2 [S3 S4]]].
  all: assert (CO : forall w, ls_coherent pb P2 c d (mkLs (vadd c (vscale factor d)) (vscale factor d) eta' mu' obj' cP2' k w factor))
      by (intros w; unfold ls_coherent; simpl; repeat split; auto).
  all: assert (FA : forallb (fun i => Rltb (mu' i) (pb_large pb)) (seq 0 (pb_n pb)) = true <->
      (forall i, (i < pb_n pb)%nat -> mu' i < pb_large pb))
      by (rewrite forallb_forall; split; intros Q i Hi;
          [apply Rltb_true, Q, in_seq; lia | apply Rltb_true, Q; apply in_seq in Hi; lia]).
  all: set (c1 := (forallb _ _ && Rleb _ _)%bool);
       set (c2 := (Rleb _ _ && Rltb _ _)%bool).
  all: assert (HC1 : c1 = true <-> (forall i, (i < pb_n pb)%nat -> mu' i < pb_large pb) /\ obj' - obj <= factor * bound)
      by (unfold c1; rewrite Bool.andb_true_iff, FA, Rleb_true; tauto);
    assert (HC2 : c2 = true <-> Rabs (obj' - obj) <= Rabs (obj * pb_eps pb) /\
      trial_grad_norm pb eta' mu' cP2' < rsum (nc pb) (fun i => Rabs (score i)))
      by (unfold c2; rewrite Bool.andb_true_iff, Rltb_true, Rleb_true; tauto).
  all: destruct c1; [|destruct c2].
  all: try (split; [apply CO|]; split;
     [exists 0%nat; simpl; split; [lia|]; split; [field|]; split; [lia|intros W; first [discriminate W|reflexivity]]|];
     split; [intros W; first [discriminate W|unfold ls_accept; simpl; tauto]|
             intros W; try discriminate W]).
  - unfold ls_accept. simpl. intros [A|A]; [apply HC1 in A|apply HC2 in A]; discriminate.
  - specialize (IH (S k) (factor * / 2)). cbn zeta in IH. destruct IH as [I1 [[n [N1 [N2 [N3 N4]]]] I3]].
    split; [exact I1|]. split; [|exact I3].
    exists (S n). split; [lia|]. split; [rewrite N2; simpl; field; apply pow_nonzero; lra|].
    split; [lia|]. intros W. rewrite (N4 W). reflexivity.
Qed.

Lemma line_search_spec pb P2 c score eta obj d : pb_ok pb ->
  (forall i, (i < pb_n pb)%nat -> eta i = eta_of pb c i) ->
  let r := line_search pb P2 c score eta obj d in
  ls_coherent pb P2 c d r /\
  (ls_k r <= 19)%nat /\ ls_factor r = / 2 ^ (ls_k r) /\ (ls_warn r = true -> ls_k r = 19%nat) /\
  (ls_warn r = false <-> ls_accept pb score obj (ls_bound pb c score d) r).
Proof.
  intros Hok He. unfold line_search.
  destruct (ls_loop_spec pb P2 c score eta obj d (ls_bound pb c score d) Hok He 19 0 1) as [A [[n [N1 [N2 [N3 N4]]]] [B C]]].
  cbn zeta. set (r := ls_loop _ _ _ _ _ _ _ _ _ _ _ _) in *. simpl in N3.
  split; [exact A|]. split; [lia|]. split; [rewrite N3, N2; ring|]. split; [intros W; rewrite N3; auto|].
  split; [exact B|]. intros Q. destruct (ls_warn r); [destruct (C eq_refl Q)|reflexivity].
Qed.

(** the factor is a fraction *)
Lemma half_pow_range n : 0 < / 2 ^ n <= 1.
Proof.
  assert (1 <= 2 ^ n) by (induction n; simpl; lra).
  split; [apply Rinv_0_lt_compat; lra|]. rewrite <- Rinv_1. apply Rinv_le_contravar; lra.
Qed.

(** ** initial state and steps *)
Lemma coh_init pb P2 b c : pb_ok pb -> coh pb P2 (init_state pb P2 b c).
Proof.
  intros Hok. unfold init_state.
  assert (S := eta_mu_objective_spec pb P2 (fun i => lin_pred pb c i + pb_off pb i) 1 c (fun _ => 0) Hok).
  assert (E : forall i, (i < pb_n pb)%nat -> 0 + 1 * (lin_pred pb c i + pb_off pb i) = eta_of pb c i)
    by (intros i _; rewrite eta_of_eq; ring).
  specialize (S E). destruct (eta_mu_objective _ _ _ _ _ _) as [[[eta mu] obj] cP2]. destruct S as [S1 [S2 [S3 S4]]].
  rewrite S4. assert (Q := update_quadratic_spec pb P2 eta mu c S1 S2).
  destruct (update_quadratic _ _ _ _) as [[g score] h]. destruct Q as [Q1 Q2].
  unfold check_convergence. destruct (norm_min_subgrad _ _ _ _ _ _ _) as [nm mx] eqn:EN.
  unfold record_iteration. constructor; simpl; auto.
Qed.

(** Everything that is known about one iteration. *)
Record prep_facts (pb : problem) (s s1 : state) (H : nat -> nat -> R) : Prop := mkPF {
  pf_coef : st_coef s1 = st_coef s; pf_eta : st_eta s1 = st_eta s; pf_obj : st_obj s1 = st_obj s;
  pf_score : st_score s1 = st_score s; pf_P2 : st_P2 s1 = st_P2 s; pf_niter : st_niter s1 = st_niter s;
  pf_diag : st_diag s1 = st_diag s; pf_lswarn : st_lswarn s1 = st_lswarn s; pf_itol : st_itol s1 = st_itol s;
  pf_oldh : st_old_hrows s1 = st_old_hrows s; pf_ncyc : st_ncycles s1 = st_ncycles s;
  pf_act : st_act s1 = identify_active_set pb (st_coef s) (st_score s) (st_max s);
  pf_hess : exists nr, update_hessian pb (st_hess s) (st_hinit s) (st_act s) (st_act s1) (st_hrows s)
                         (st_old_hrows s) (st_P2 s) = (st_hess s1, st_hrows s1, H, nr) }.
Lemma prepare_facts pb s : prep_facts pb s (fst (prepare pb s)) (snd (prepare pb s)).
Proof.
  unfold prepare. destruct (update_hessian _ _ _ _ _ _ _ _) as [[[hess h] Hact] nr] eqn:EU.
  constructor; simpl; auto. exists nr. exact EU.
Qed.

Record step_facts (pb : problem) (s s' s1 : state) (d : nat -> R) (cyc : nat) : Prop := mkSF {
  sf_act : st_act s' = st_act s1;
  sf_hess : st_hess s' = st_hess s1;
  sf_old : st_old_hrows s' = st_hrows s1;
  sf_hinit : st_hinit s' = true;
  sf_P2 : st_P2 s' = st_P2 s;
  sf_niter : st_niter s' = (st_niter s + 1)%Z;
  sf_ncyc : st_ncycles s' = (st_ncycles s + cyc)%nat;
  sf_diag : st_diag s' = st_diag s ++ [(st_niter s', st_norm s', st_obj s')];
  sf_ls : let r := line_search pb (st_P2 s) (st_coef s) (st_score s) (st_eta s) (st_obj s) d in
          st_coef s' = ls_coef r /\ st_step s' = ls_step r /\ st_eta s' = ls_eta r /\ st_mu s' = ls_mu r /\
          st_obj s' = ls_obj r /\ st_nls s' = ls_k r /\
          st_lswarn s' = (st_lswarn s + if ls_warn r then 1 else 0)%nat;
  sf_conv : (st_conv s', st_norm s', st_max s', st_itol s') =
            check_convergence pb (st_coef s') (st_step s') (st_score s');
  sf_coh : pb_ok pb -> (forall i, (i < pb_n pb)%nat -> st_eta s i = eta_of pb (st_coef s) i) -> coh pb (st_P2 s) s' }.

Lemma irls_step_facts pb inner s s' : irls_step pb inner s = Some s' ->
  exists d cyc, inner (fst (prepare pb s)) (snd (prepare pb s)) = Some (d, cyc) /\
    step_facts pb s s' (fst (prepare pb s)) d cyc.
Proof.
  unfold irls_step. intros H. pose proof (prepare_facts pb s) as PF.
  destruct (prepare pb s) as [s1 Hact]. cbn [fst snd] in *.
  destruct (inner s1 Hact) as [[d cyc]|] eqn:EI; [|discriminate].
  destruct PF as [P1 P2 P3 P4 P5 P6 P7 P8 P9 P10 P11 P12 _].
  rewrite ?P1, ?P2, ?P3, ?P4, ?P5, ?P6, ?P7, ?P8, ?P11 in H.
  destruct (update_quadratic _ _ _ _) as [[g score] h'] eqn:EQ.
  destruct (check_convergence _ _ _ _) as [[[conv nm] mx] itol] eqn:EC.
  injection H as <-.
  exists d, cyc. split; [reflexivity|].
  constructor; simpl; try reflexivity; auto.
  - repeat split; reflexivity.
  - intros Hok He.
    destruct (line_search_spec pb (st_P2 s) (st_coef s) (st_score s) (st_eta s) (st_obj s) d Hok He)
      as [[A1 [A2 [A3 [A4 [A5 A6]]]]] _].
    set (r := line_search _ _ _ _ _ _ _) in *.
    rewrite A6 in EQ. assert (Q := update_quadratic_spec pb (st_P2 s) (ls_eta r) (ls_mu r) (ls_coef r) A3 A4).
    rewrite EQ in Q. destruct Q as [Q1 Q2].
    constructor; simpl; auto.
    unfold check_convergence in EC. destruct (norm_min_subgrad _ _ _ _ _ _ _) as [n0 m0]. injection EC as <- <- <- <-. reflexivity.
Qed.
