(** Properties of single coordinates that coordinate descent and the line search preserve (used for C57). *)
From Verif Require Import Base M_CD S_CD L_CDrng L_CD L_CDb M_Std S_Std L_Solver L_Solver2 L_Solver3 L_Std P_Solver.
From Verif Require Import M_Solver S_Solver.
Local Open Scope R_scope.

Section Keep.
Variable P : nat -> R -> Prop.
Definition keeps (D : nat -> Prop) (w : nat -> R) : Prop := forall i, D i -> P i (w i).
Section CD.
Variables (D : nat -> Prop) (a : cd_args).
Hypothesis clip_in : forall i x, D i -> P i (clip2 (bnd_of (cd_ic a) (cd_lb a) i) (bnd_of (cd_ic a) (cd_ub a) i) x).
Lemma visit_keeps k s : keeps D (cs_w s) -> keeps D (cs_w (cd_visit a k s)).
Proof.
  intros H i Di. unfold cd_visit. destruct (Rleb _ _); [apply H; exact Di|]. cbv zeta. cbn [cs_w].
  unfold upd. destruct (Nat.eqb_spec i (nth k (cd_act a) 0%nat)) as [ -> | ]; [|apply H; exact Di].
  rewrite cd_clip_of. apply clip_in. exact Di.
Qed.
Lemma sweep_keeps : forall m f seed s, keeps D (cs_w s) -> keeps D (cs_w (snd (cd_sweep a m f seed s))).
Proof.
  induction m as [|m IH]; intros f seed s H; cbn [cd_sweep]; [exact H|].
  destruct (if cd_random a then _ else _) as [k seed']. apply IH. apply visit_keeps. exact H.
Qed.
Lemma loop_keeps : forall m n seed norm w q, keeps D w -> keeps D (cr_w (cd_loop a m n seed norm w q)).
Proof.
  induction m as [|m IH]; intros n seed norm w q H; cbn [cd_loop]; [exact H|].
  pose proof (sweep_keeps (length (cd_act a)) 0 seed (mkCS w q 0 0) H) as Hs.
  destruct (cd_sweep a (length (cd_act a)) 0 seed (mkCS w q 0 0)) as [seed' s]. cbn in Hs.
  destruct (_ || _ || _); [|apply IH; exact Hs].
  destruct (Rleb _ _); [exact Hs|apply IH; exact Hs].
Qed.
End CD.

Variable pb : problem.
Hypothesis clip_pb : forall k x, (k < nc pb)%nat -> P k (clip2 (bnd_of (pb_ic pb) (pb_lb pb) k) (bnd_of (pb_ic pb) (pb_ub pb) k) x).
Hypothesis convex : forall k x y t, P k x -> P k y -> 0 <= t <= 1 -> P k (x + t * (y - x)).
Lemma step_keeps seed s s' : pb_ok pb -> (forall i, (i < pb_n pb)%nat -> st_eta s i = eta_of pb (st_coef s) i) ->
  irls_step pb (cd_solver pb seed) s = Some s' -> keeps (fun k => (k < nc pb)%nat) (st_coef s) -> keeps (fun k => (k < nc pb)%nat) (st_coef s').
Proof.
  intros Hok He E B. destruct (irls_step_facts _ _ _ _ E) as [d [cyc [Ei F]]].
  pose proof (prepare_facts pb s) as PF. set (s1 := fst (prepare pb s)) in *. set (H := snd (prepare pb s)) in *.
  destruct (sf_ls _ _ _ _ _ _ F) as [Ec _].
  destruct (line_search_spec pb (st_P2 s) (st_coef s) (st_score s) (st_eta s) (st_obj s) d Hok He)
    as [[A1 [A2 _]] [_ [A3 _]]].
  set (r := line_search _ _ _ _ _ _ _) in *. rewrite Ec, A2, A1, A3.
  intros k Hk. unfold vadd, vscale.
  pose proof (half_pow_range (ls_k r)) as Ht.
  unfold cd_solver in Ei. injection Ei as Ed _. rewrite <- Ed. rewrite (pf_coef _ _ _ _ PF).
  apply convex; [apply B; exact Hk| |lra].
  apply (loop_keeps (fun i => (i < nc pb)%nat) (cd_args_of pb s1 H)); [exact clip_pb|exact B|exact Hk].
Qed.
Lemma result_keeps seed P2 c sf warned : pb_ok pb -> 0 <= pb_approx pb -> keeps (fun k => (k < nc pb)%nat) c ->
  irls_solver pb (cd_solver pb seed) P2 c = Some (sf, warned) -> keeps (fun k => (k < nc pb)%nat) (st_coef sf).
Proof.
  intros Hok HC HB E.
  destruct (C27_iteration_accounting _ _ _ _ _ _ E) as [n [hist [[H0 Hs] [Hn _]]]]. rewrite <- Hn.
  assert (Rc : reach pb (cd_solver pb seed) P2 c (hist n)) by (eapply hist_reach; eauto).
  clear Hn Hs H0 E. revert Rc. generalize (hist n). intros sx Rc.
  induction Rc as [|s s' Rc IH Es]; [rewrite init_coef; exact HB|].
  eapply step_keeps; eauto. apply (coh_eta _ _ _ (inv_coh _ _ _ (reach_inv _ _ _ _ _ Hok HC Rc))).
Qed.
End Keep.

(** between the bounds, or between a bound and the start *)
Definition hull (l u : option R) (s x : R) : Prop :=
  (forall b, l = Some b -> Rmin b s <= x) /\ (forall b, u = Some b -> x <= Rmax b s).
Lemma hull_start l u s : hull l u s s.
Proof. split; intros b _; [apply Rmin_r|apply Rmax_r]. Qed.
Lemma hull_convex l u s x y t : hull l u s x -> hull l u s y -> 0 <= t <= 1 -> hull l u s (x + t * (y - x)).
Proof.
  intros [A B] [C D] T. split; intros b Hb.
  - specialize (A b Hb). specialize (C b Hb). nra.
  - specialize (B b Hb). specialize (D b Hb). nra.
Qed.
Lemma hull_clip l u s x : (forall a b, l = Some a -> u = Some b -> a <= b) -> hull l u s (clip2 l u x).
Proof.
  intros H. assert (W : within l u (clip2 l u x)).
  { destruct l as [l|], u as [u|].
    - apply clip2_within with l. split; intros b Hb; injection Hb as <-; [lra|apply H; reflexivity].
    - apply clip2_within with l. split; intros b Hb; try discriminate; injection Hb as <-; lra.
    - apply clip2_within with u. split; intros b Hb; try discriminate; injection Hb as <-; lra.
    - apply clip2_within with 0. split; intros b Hb; discriminate. }
  destruct W as [A B]. split; intros b Hb.
  - eapply Rle_trans; [apply Rmin_l|apply A, Hb].
  - eapply Rle_trans; [apply B, Hb|apply Rmax_l].
Qed.
Lemma hull_scale l u o s z : 0 < o ->
  hull (match l with Some b => Some (b / o) | None => None end) (match u with Some b => Some (b / o) | None => None end) s z -> hull l u (s * o) (z * o).
Proof.
  intros Ho [A B]. assert (Q : forall b, b = b / o * o) by (intros; field; lra). split; intros b Hb; subst.
  - specialize (A _ eq_refl). destruct (Rle_dec (b / o) s).
    + rewrite Rmin_left in A by lra. eapply Rle_trans; [apply Rmin_l|]. rewrite (Q b). apply Rmult_le_compat_r; lra.
    + rewrite Rmin_right in A by lra. eapply Rle_trans; [apply Rmin_r|]. apply Rmult_le_compat_r; lra.
  - specialize (B _ eq_refl). destruct (Rle_dec (b / o) s).
    + rewrite Rmax_right in B by lra. eapply Rle_trans; [|apply Rmax_r]. apply Rmult_le_compat_r; lra.
    + rewrite Rmax_left in B by lra. eapply Rle_trans; [|apply Rmax_l]. rewrite (Q b). apply Rmult_le_compat_r; lra.
Qed.
