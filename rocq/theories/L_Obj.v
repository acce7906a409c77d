(** Gradient and convexity of the training objective. *)
From Verif Require Import M_Solver S_Solver L_Link L_Dist L_Dist2 L_Dist3 L_Dist4 L_CD L_KKT L_Hess L_Solver L_Solver2 L_Solver3.
From Verif Require Import M_Solver S_Solver.
Local Open Scope R_scope.

Lemma devrow_eq f y mu : family_ok f -> support f y -> dev_ok f y -> mean_range f mu ->
  devrow f y mu = unit_deviance f y mu.
Proof.
  intros Hf Hy Hd Hm. unfold devrow. rewrite deviance_sum; auto.
  - rewrite lsumf_cons, lsumf_nil. simpl. ring.
  - intros o [<-|[]]. split; assumption.
  - intros p -> Hp o [<-|[]]. apply Hd. exact Hp.
Qed.

Lemma row_derive f lk g y w eta : family_ok f -> support f y -> dev_ok f y -> regular f lk g eta ->
  is_derive (fun e => / 2 * (w * devrow f y (g e))) eta (- gradient_row f lk y w eta (raw_inverse lk eta)).
Proof.
  intros Hf Hy Hd [Hl [Hm Hg]].
  apply (dR_ext_loc (fun e => - (- (1 / 2) * (w * unit_deviance f y (raw_inverse lk e))))).
  - assert (L2 : locally eta (fun e => mean_range f (raw_inverse lk e))).
    { apply (raw_inverse_continuous lk eta Hl). apply mean_range_locally; auto. }
    generalize (filter_and _ _ L2 Hg). apply filter_imp. intros e [E1 E2].
    rewrite E2, devrow_eq by auto. field.
  - apply dR_opp. apply gradient_row_is_derive; auto.
Qed.

Lemma half_dev_rows pb g c :
  / 2 * deviance (pb_fam pb) (map (fun i => mkobs (pb_y pb i) (pb_w pb i) (g (eta_of pb c i))) (seq 0 (pb_n pb)))
  = rsum (pb_n pb) (fun i => / 2 * (pb_w pb i * devrow (pb_fam pb) (pb_y pb i) (g (eta_of pb c i)))).
Proof. rewrite deviance_rows, lsumf_map, lsumf_seq, <- rsum_scal. apply rsum_ext. intros; reflexivity. Qed.

Lemma smooth_obj_eq pb P2 c : smooth_obj pb P2 c = smooth_obj_with pb (search_mean (pb_fam pb) (pb_link pb)) P2 c.
Proof. reflexivity. Qed.

Lemma locally_at eta g (h : R -> R) : locally eta (fun e => g e = h e) -> g eta = h eta.
Proof. intros L. exact (locally_singleton eta _ L). Qed.

(** quadratic form *)
Lemma p2_full_sym pb P2 k l : p2_sym (pb_p pb) P2 -> (k < nc pb)%nat -> (l < nc pb)%nat ->
  p2_full (pb_ic pb) P2 k l = p2_full (pb_ic pb) P2 l k.
Proof.
  intros HS Hk Hl. unfold p2_full, nc in *. destruct (pb_ic pb); simpl in *.
  - destruct k as [|k], l as [|l]; auto. apply HS; lia.
  - apply HS; lia.
Qed.
Lemma l2_form_add pb P2 c v t : p2_sym (pb_p pb) P2 ->
  / 2 * l2_form pb P2 (vadd c (vscale t v)) =
  / 2 * l2_form pb P2 c + t * rsum (nc pb) (fun k => rsum (nc pb) (fun l => c l * p2_full (pb_ic pb) P2 l k) * v k)
  + t * t * (/ 2 * l2_form pb P2 v).
Proof.
  intros HS. unfold l2_form, vadd, vscale.
  assert (E1 : rsum (nc pb) (fun k => rsum (nc pb) (fun l => (c k + t * v k) * p2_full (pb_ic pb) P2 k l * (c l + t * v l)))
   = rsum (nc pb) (fun k => rsum (nc pb) (fun l => c k * p2_full (pb_ic pb) P2 k l * c l))
   + t * rsum (nc pb) (fun k => rsum (nc pb) (fun l => c k * p2_full (pb_ic pb) P2 k l * v l))
   + t * rsum (nc pb) (fun k => rsum (nc pb) (fun l => v k * p2_full (pb_ic pb) P2 k l * c l))
   + t * t * rsum (nc pb) (fun k => rsum (nc pb) (fun l => v k * p2_full (pb_ic pb) P2 k l * v l))).
  { rewrite <- !rsum_scal, <- !rsum_plus. apply rsum_ext. intros k _.
    rewrite <- !rsum_scal, <- !rsum_plus. apply rsum_ext. intros l _. ring. }
  rewrite E1.
  assert (E2 : rsum (nc pb) (fun k => rsum (nc pb) (fun l => c k * p2_full (pb_ic pb) P2 k l * v l))
    = rsum (nc pb) (fun k => rsum (nc pb) (fun l => c l * p2_full (pb_ic pb) P2 l k) * v k)).
  { rewrite rsum_swap. apply rsum_ext. intros k _. rewrite <- rsum_scal_r. reflexivity. }
  assert (E3 : rsum (nc pb) (fun k => rsum (nc pb) (fun l => v k * p2_full (pb_ic pb) P2 k l * c l))
    = rsum (nc pb) (fun k => rsum (nc pb) (fun l => c l * p2_full (pb_ic pb) P2 l k) * v k)).
  { apply rsum_ext. intros k Hk. rewrite <- rsum_scal_r. apply rsum_ext. intros l Hl.
    rewrite (p2_full_sym pb P2 k l) by auto. ring. }
  rewrite E2, E3. field.
Qed.

Definition grad_with (pb : problem) (P2 : P2t) (c : nat -> R) (k : nat) : R :=
  rsum (pb_n pb) (fun i => - gradient_row (pb_fam pb) (pb_link pb) (pb_y pb i) (pb_w pb i) (eta_of pb c i)
                             (raw_inverse (pb_link pb) (eta_of pb c i)) * xt pb i k)
  + rsum (nc pb) (fun l => c l * p2_full (pb_ic pb) P2 l k).

Lemma grad_dot pb P2 c v : rsum (nc pb) (fun k => grad_with pb P2 c k * v k) =
  rsum (pb_n pb) (fun i => - gradient_row (pb_fam pb) (pb_link pb) (pb_y pb i) (pb_w pb i) (eta_of pb c i)
                             (raw_inverse (pb_link pb) (eta_of pb c i)) * lin_pred pb v i)
  + rsum (nc pb) (fun k => rsum (nc pb) (fun l => c l * p2_full (pb_ic pb) P2 l k) * v k).
Proof.
  unfold grad_with.
  transitivity (rsum (nc pb) (fun k => rsum (pb_n pb) (fun i => - gradient_row (pb_fam pb) (pb_link pb) (pb_y pb i) (pb_w pb i) (eta_of pb c i)
                             (raw_inverse (pb_link pb) (eta_of pb c i)) * (xt pb i k * v k))
       + rsum (nc pb) (fun l => c l * p2_full (pb_ic pb) P2 l k) * v k)).
  - apply rsum_ext. intros k _. rewrite Rmult_plus_distr_r, <- rsum_scal_r. f_equal. apply rsum_ext. intros; ring.
  - rewrite rsum_plus. f_equal. rewrite rsum_swap. apply rsum_ext. intros i _.
    rewrite rsum_scal, lin_pred_eq. reflexivity.
Qed.

Lemma smooth_derive pb g P2 c v : pb_ok pb -> p2_sym (pb_p pb) P2 ->
  (forall i, (i < pb_n pb)%nat -> dev_ok (pb_fam pb) (pb_y pb i)) ->
  (forall i, (i < pb_n pb)%nat -> regular (pb_fam pb) (pb_link pb) g (eta_of pb c i)) ->
  is_derive (fun t => smooth_obj_with pb g P2 (vadd c (vscale t v))) 0
    (rsum (nc pb) (fun k => grad_with pb P2 c k * v k)).
Proof.
  intros Hok HS Hd Hr.
  apply (dR_ext (fun t => rsum (pb_n pb) (fun i => / 2 * (pb_w pb i * devrow (pb_fam pb) (pb_y pb i) (g (eta_of pb c i + t * lin_pred pb v i))))
     + (/ 2 * l2_form pb P2 c + t * rsum (nc pb) (fun k => rsum (nc pb) (fun l => c l * p2_full (pb_ic pb) P2 l k) * v k)
        + t * t * (/ 2 * l2_form pb P2 v)))).
  { intros t. unfold smooth_obj_with. rewrite half_dev_rows. rewrite <- l2_form_add by exact HS. f_equal.
    apply rsum_ext. intros i _. rewrite eta_of_add. reflexivity. }
  eapply dR_eq.
  - apply dR_plus.
    + apply (dR_rsum (pb_n pb) (fun i t => / 2 * (pb_w pb i * devrow (pb_fam pb) (pb_y pb i) (g (eta_of pb c i + t * lin_pred pb v i))))
         (fun i => - gradient_row (pb_fam pb) (pb_link pb) (pb_y pb i) (pb_w pb i) (eta_of pb c i) (raw_inverse (pb_link pb) (eta_of pb c i)) * lin_pred pb v i)).
      intros i Hi. destruct Hok as [Hf [Hy _]].
      apply (dR_comp (fun e => / 2 * (pb_w pb i * devrow (pb_fam pb) (pb_y pb i) (g e))) (fun t => eta_of pb c i + t * lin_pred pb v i)).
      * rewrite Rmult_0_l, Rplus_0_r. apply row_derive; auto.
      * eapply dR_eq; [apply dR_plus; [apply dR_const|apply dR_scal_r, dR_id]|ring].
    + auto_derive; [exact I|reflexivity].
  - rewrite grad_dot. ring.
Qed.

Lemma grad_score pb P2 c : (forall i, (i < pb_n pb)%nat -> mean_of pb c i = raw_inverse (pb_link pb) (eta_of pb c i)) ->
  forall k, grad_with pb P2 c k = - score_of pb P2 c k.
Proof.
  intros E k. unfold grad_with, score_of. rewrite Ropp_minus_distr, Rplus_comm. unfold Rminus. f_equal.
  rewrite <- rsum_opp. apply rsum_ext. intros i Hi. rewrite (E i Hi). ring.
Qed.

(** ** objective handed to the quasi-Newton solvers *)
Lemma obj_fun_eq pb P2 c : fst (get_obj_and_derivative pb P2 c) = smooth_obj_with pb (inverse1 (pb_link pb)) P2 c.
Proof.
  unfold get_obj_and_derivative, smooth_obj_with. cbn [fst]. f_equal.
  - do 2 f_equal. apply map_ext. intros i. rewrite eta_of_eq. reflexivity.
  - f_equal. rewrite l2_form_p. apply rsum_ext. intros j Hj.
    destruct P2 as [u|M]; simpl.
    + rewrite (rsum_single _ j); [rewrite Nat.eqb_refl; ring|exact Hj|]. intros i _ Hi.
      apply Nat.neq_sym, Nat.eqb_neq in Hi. rewrite Hi. ring.
    + rewrite <- rsum_scal. apply rsum_ext. intros; ring.
Qed.
Lemma obj_grad_eq pb P2 c k : pb_ok pb -> p2_sym (pb_p pb) P2 -> (k < nc pb)%nat ->
  (forall i, (i < pb_n pb)%nat -> regular (pb_fam pb) (pb_link pb) (inverse1 (pb_link pb)) (eta_of pb c i)) ->
  snd (get_obj_and_derivative pb P2 c) k = grad_with pb P2 c k.
Proof.
  intros Hok HS Hk Hr. unfold get_obj_and_derivative. cbn [snd].
  set (temp := fun i => _).
  assert (E1 : / 2 * xt_vec pb temp k = rsum (pb_n pb) (fun i => - gradient_row (pb_fam pb) (pb_link pb) (pb_y pb i) (pb_w pb i) (eta_of pb c i)
                             (raw_inverse (pb_link pb) (eta_of pb c i)) * xt pb i k)).
  { rewrite xt_vec_eq by exact Hk. rewrite <- rsum_scal. apply rsum_ext. intros i Hi. unfold temp.
    rewrite <- eta_of_eq. destruct (Hr i Hi) as [R1 [R2 R3]]. rewrite (locally_at _ _ _ R3).
    rewrite gradient_row_eq by (try exact R2; apply Hok). unfold unit_deviance_derivative.
    assert (Hv := unit_variance_pos _ _ (proj1 Hok) R2). field. lra. }
  assert (E2 : forall j, (j < pb_p pb)%nat -> k = (ioff (pb_ic pb) + j)%nat ->
     match P2 with P2diag v => v j * c (ioff (pb_ic pb) + j)%nat | P2mat M => rsum (pb_p pb) (fun l => M j l * c (ioff (pb_ic pb) + l)%nat) end
     = rsum (nc pb) (fun l => c l * p2_full (pb_ic pb) P2 l k)).
  { intros j Hj Ek. rewrite <- coef_P2_eq by exact Hk. unfold make_coef_P2.
    destruct (Nat.ltb_spec k (ioff (pb_ic pb))); [lia|].
    replace (k - ioff (pb_ic pb))%nat with j by lia. destruct P2 as [u|M].
    - rewrite Ek. ring.
    - apply rsum_ext. intros l Hl. rewrite Rmult_comm. f_equal. apply (HS j l); auto. }
  unfold grad_with. destruct (Nat.ltb_spec k (ioff (pb_ic pb))) as [Hlt|Hge].
  - rewrite E1. rewrite <- coef_P2_eq by exact Hk. unfold make_coef_P2.
    destruct (Nat.ltb_spec k (ioff (pb_ic pb))); [ring|lia].
  - rewrite E1. f_equal. apply E2; unfold nc in Hk; lia.
Qed.

(** ** convexity *)
Lemma convex_tangent (F F' F'' : R -> R) : (forall x, is_derive F x (F' x)) -> (forall x, is_derive F' x (F'' x)) ->
  (forall x, 0 <= F'' x) -> forall a b, F a + F' a * (b - a) <= F b.
Proof.
  intros H1 H2 H3 a b.
  assert (M : forall x y, x <= y -> F' x <= F' y).
  { intros x y Hxy. apply (derive_nonneg_mono F' F''); auto. }
  destruct (Rtotal_order a b) as [Hab|[Hab|Hab]].
  - destruct (mvt F F' a b Hab (fun x _ => H1 x)) as [t [E Ht]]. specialize (M a t ltac:(lra)). nra.
  - subst. lra.
  - destruct (mvt F F' b a Hab (fun x _ => H1 x)) as [t [E Ht]]. specialize (M t a ltac:(lra)). nra.
Qed.

Lemma convex_pair_regular f lk eta : convex_pair f lk -> regular f lk (search_mean f lk) eta.
Proof.
  intros H. unfold regular.
  destruct f as [p| | | | | | |th]; destruct lk as [q| | | |]; simpl in H; try tauto;
   (split; [exact I|]; split; [|apply filter_forall; intros e; reflexivity]); simpl; auto; try apply exp_pos.
  - intros Hp. lra.
  - intros _. apply exp_pos.
  - apply expit_bounds.
Qed.
Lemma convex_pair_dev_ok f lk y : convex_pair f lk -> dev_ok f y.
Proof.
  intros H. unfold dev_ok, neg_power. destruct f as [p| | | | | | |th]; destruct lk; simpl in H; try tauto; lra.
Qed.
Lemma convex_pair_cases f lk : convex_pair f lk -> exact_hessian_pair f lk \/ exists th, f = NegBinF th /\ lk = LogL.
Proof.
  intros H. destruct f as [p| | | | | | |th]; destruct lk as [q| | | |]; simpl in H; try tauto; try (left; exact H).
  right. exists th. split; reflexivity.
Qed.
(** the second derivative in the linear predictor; for the negative binomial the observed one *)
Definition row_curv (f : family) (lk : link) (y w e : R) : R :=
  match f, lk with
  | NegBinF th, LogL => w * exp e * (1 + th * y) / (1 + th * exp e) ^ 2
  | _, _ => hessian_row f lk y w e (raw_inverse lk e)
  end.
Lemma row_convex f lk y w : family_ok f -> support f y -> 0 <= w -> convex_pair f lk -> forall a b,
  / 2 * (w * devrow f y (search_mean f lk a)) + - gradient_row f lk y w a (raw_inverse lk a) * (b - a)
  <= / 2 * (w * devrow f y (search_mean f lk b)).
Proof.
  intros Hf Hy Hw Hc.
  apply (convex_tangent (fun e => / 2 * (w * devrow f y (search_mean f lk e)))
     (fun e => - gradient_row f lk y w e (raw_inverse lk e)) (row_curv f lk y w)).
  - intros x. apply row_derive; auto; [eapply convex_pair_dev_ok; eauto|apply convex_pair_regular; exact Hc].
  - intros x. destruct (convex_pair_cases f lk Hc) as [He|[th [-> ->]]].
    + replace (row_curv f lk y w x) with (hessian_row f lk y w x (raw_inverse lk x))
        by (destruct f, lk; simpl in He; try tauto; reflexivity).
      eapply dR_eq; [apply dR_opp, hessian_row_is_derive; exact He|ring].
    + cbn in Hf. assert (H : 0 < 1 + th * exp x) by (pose proof (Rmult_lt_0_compat th (exp x) Hf (exp_pos x)); lra).
      unfold gradient_row, rowwise, row_curv. simpl. auto_derive; [lra|]. field. lra.
  - intros x. destruct (convex_pair_cases f lk Hc) as [He|[th [-> ->]]].
    + replace (row_curv f lk y w x) with (hessian_row f lk y w x (raw_inverse lk x))
        by (destruct f, lk; simpl in He; try tauto; reflexivity).
      apply hessian_row_nonneg; auto. apply (convex_pair_regular f lk x Hc).
    + cbn in Hf, Hy. unfold row_curv. assert (H : 0 < 1 + th * exp x) by (pose proof (Rmult_lt_0_compat th (exp x) Hf (exp_pos x)); lra).
      unfold Rdiv. apply Rmult_le_pos; [|apply Rlt_le, Rinv_0_lt_compat, pow_lt, H].
      apply Rmult_le_pos; [apply Rmult_le_pos; [exact Hw|apply Rlt_le, exp_pos]|]. assert (0 <= th * y) by (apply Rmult_le_pos; lra). lra.
Qed.

Lemma smooth_convex pb P2 c v : pb_ok pb -> p2_sym (pb_p pb) P2 ->
  (forall i, (i < pb_n pb)%nat -> 0 <= pb_w pb i) -> convex_pair (pb_fam pb) (pb_link pb) ->
  smooth_obj pb P2 c + rsum (nc pb) (fun k => - score_of pb P2 c k * (v k - c k))
  + / 2 * l2_form pb P2 (fun k => v k - c k) <= smooth_obj pb P2 v.
Proof.
  intros Hok HS Hw Hc.
  assert (EM : forall i, mean_of pb c i = raw_inverse (pb_link pb) (eta_of pb c i)).
  { intros i. destruct (convex_pair_regular _ _ (eta_of pb c i) Hc) as [_ [_ L]]. apply (locally_at _ _ _ L). }
  set (d := fun k => v k - c k).
  assert (Ev : v = vadd c (vscale 1 d)).
  { apply FunctionalExtensionality.functional_extensionality. intros k. unfold vadd, vscale, d. ring. }
  rewrite Ev at 1. rewrite !smooth_obj_eq. unfold smooth_obj_with. rewrite l2_form_add by exact HS.
  rewrite !half_dev_rows.
  assert (ES : rsum (nc pb) (fun k => - score_of pb P2 c k * (v k - c k)) =
     rsum (pb_n pb) (fun i => - gradient_row (pb_fam pb) (pb_link pb) (pb_y pb i) (pb_w pb i) (eta_of pb c i)
                             (raw_inverse (pb_link pb) (eta_of pb c i)) * lin_pred pb d i)
     + rsum (nc pb) (fun k => rsum (nc pb) (fun l => c l * p2_full (pb_ic pb) P2 l k) * d k)).
  { rewrite <- grad_dot. apply rsum_ext. intros k _. rewrite grad_score by auto. reflexivity. }
  rewrite ES. fold d.
  assert (R : rsum (pb_n pb) (fun i => / 2 * (pb_w pb i * devrow (pb_fam pb) (pb_y pb i) (search_mean (pb_fam pb) (pb_link pb) (eta_of pb c i))))
    + rsum (pb_n pb) (fun i => - gradient_row (pb_fam pb) (pb_link pb) (pb_y pb i) (pb_w pb i) (eta_of pb c i)
                             (raw_inverse (pb_link pb) (eta_of pb c i)) * lin_pred pb d i)
    <= rsum (pb_n pb) (fun i => / 2 * (pb_w pb i * devrow (pb_fam pb) (pb_y pb i) (search_mean (pb_fam pb) (pb_link pb) (eta_of pb (vadd c (vscale 1 d)) i))))).
  { rewrite <- rsum_plus. apply rsum_le. intros i Hi.
    pose proof (row_convex (pb_fam pb) (pb_link pb) (pb_y pb i) (pb_w pb i) (proj1 Hok) (proj1 (proj2 Hok) i Hi) (Hw i Hi) Hc
       (eta_of pb c i) (eta_of pb (vadd c (vscale 1 d)) i)) as Q.
    rewrite eta_of_add in Q at 1.
    replace (eta_of pb c i + 1 * lin_pred pb d i - eta_of pb c i) with (lin_pred pb d i) in Q by ring. exact Q. }
  lra.
Qed.
