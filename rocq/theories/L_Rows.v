From Coq Require Import FunctionalExtensionality Permutation.
From Verif Require Import M_Std S_Std L_Link L_Dist L_Dist2 L_Dist3 L_Dist4 L_CDrng L_CD L_KKT L_Hess L_Solver L_Solver2 L_Solver3 L_Obj L_Std L_Fit L_Same P_Solver.
From Verif Require Import M_Solver S_Solver.
Local Open Scope R_scope.

Lemma rsum_nth A (l : list A) (d : A) (F : A -> R) : rsum (length l) (fun i => F (nth i l d)) = lsumf F l.
Proof.
  rewrite <- lsumf_seq. transitivity (lsumf F (map (fun i => nth i l d) (seq 0 (length l)))); [rewrite lsumf_map; reflexivity|].
  f_equal. apply nth_ext with d d; [rewrite map_length, seq_length; reflexivity|].
  intros i Hi. rewrite map_length, seq_length in Hi. rewrite (nth_indep _ d (nth 0 l d)) by (rewrite map_length, seq_length; exact Hi).
  change (nth 0 l d) with ((fun i => nth i l d) 0%nat). rewrite map_nth, seq_nth by exact Hi. reflexivity.
Qed.

Definition wtot (rows : list row) : R := lsumf r_w rows.
Definition ravg (rows : list row) (G : (nat -> R) -> R -> R -> R) : R :=
  lsumf (fun r => r_w r * G (r_x r) (r_y r) (r_off r)) rows / wtot rows.
Definition same_rows (rows1 rows2 : list row) : Prop := forall G, ravg rows1 G = ravg rows2 G.
Definition same_supp (rows1 rows2 : list row) : Prop := forall P : (nat -> R) -> R -> R -> Prop,
  (forall r, In r rows1 -> P (r_x r) (r_y r) (r_off r)) <-> (forall r, In r rows2 -> P (r_x r) (r_y r) (r_off r)).

Lemma lsum_lsumf l : lsum l = lsumf (fun x => x) l.
Proof. unfold lsumf. rewrite map_id. reflexivity. Qed.
Lemma w_nth rows i : nth i (normalise_weights (map r_w rows)) 0 = r_w (nth i rows row0) / wtot rows.
Proof.
  unfold normalise_weights, wtot. rewrite lsum_lsumf, lsumf_map. set (W := lsumf _ _).
  replace 0 with (r_w row0 / W) at 1 by (unfold Rdiv; simpl; ring).
  rewrite map_map. rewrite (map_nth (fun r => r_w r / W)). reflexivity.
Qed.
Lemma sum_rows u rows (G : (nat -> R) -> R -> R -> R) :
  rsum (length rows) (fun i => u_w (with_rows u rows) i * G (r_x (nth i rows row0)) (r_y (nth i rows row0)) (r_off (nth i rows row0))) = ravg rows G.
Proof.
  cbn [with_rows u_w].
  rewrite (rsum_ext (length rows) _ (fun i => (fun r => r_w r / wtot rows * G (r_x r) (r_y r) (r_off r)) (nth i rows row0)))
    by (intros; rewrite w_nth; reflexivity).
  rewrite (rsum_nth _ rows row0 (fun r => r_w r / wtot rows * G (r_x r) (r_y r) (r_off r))). unfold ravg, Rdiv. rewrite Rmult_comm, <- lsumf_scal. apply lsumf_ext. intros. ring.
Qed.

Section Two.
Variables (u : user) (rows1 rows2 : list row).
Hypothesis HR : same_rows rows1 rows2.
Let u1 := with_rows u rows1.
Let u2 := with_rows u rows2.

Lemma same_means : u_means u1 = u_means u2.
Proof.
  apply functional_extensionality. intros j. unfold u_means, col_means. change (u_ic u1) with (u_ic u). change (u_ic u2) with (u_ic u).
  destruct (u_ic u); [|reflexivity]. unfold wmean.
  transitivity (ravg rows1 (fun x _ _ => x j)); [apply (sum_rows u rows1 (fun x _ _ => x j))|].
  rewrite HR. symmetry. apply (sum_rows u rows2 (fun x _ _ => x j)).
Qed.
Lemma same_stds : u_stds u1 = u_stds u2.
Proof.
  apply functional_extensionality. intros j. unfold u_stds, col_stds. f_equal.
  assert (M : wmean (u_n u1) (u_w u1) (fun i => u_X u1 i j) = wmean (u_n u2) (u_w u2) (fun i => u_X u2 i j)).
  { transitivity (ravg rows1 (fun x _ _ => x j)); [apply (sum_rows u rows1 (fun x _ _ => x j))|].
    rewrite HR. symmetry. apply (sum_rows u rows2 (fun x _ _ => x j)). }
  rewrite M. set (m := wmean _ _ _). 
  transitivity (ravg rows1 (fun x _ _ => (x j - m) ^ 2)); [apply (sum_rows u rows1 (fun x _ _ => (x j - m) ^ 2))|].
  rewrite HR. symmetry. apply (sum_rows u rows2 (fun x _ _ => (x j - m) ^ 2)).
Qed.
Lemma same_avg se : forall G, avg (std_problem u1 se) G = avg (std_problem u2 se) G.
Proof.
  intros G. unfold avg. cbn [std_problem pb_n pb_w pb_X pb_y pb_off]. rewrite same_means, same_stds.
  set (m := u_means u2). set (s := u_stds u2).
  set (G' := fun x y off => G (fun j => x j * one_over (s j) + - m j * one_over (s j)) y off).
  transitivity (ravg rows1 G'); [apply (sum_rows u rows1 G')|]. rewrite HR. symmetry. apply (sum_rows u rows2 G').
Qed.

Lemma same_std_P1 se : pb_P1 (std_problem u1 se) = pb_P1 (std_problem u2 se).
Proof. cbn. rewrite same_stds. reflexivity. Qed.
Lemma same_std_obj se P2 c : train_obj (std_problem u1 se) P2 c = train_obj (std_problem u2 se) P2 c.
Proof. apply same_train_obj; try reflexivity; [apply same_std_P1|apply same_avg]. Qed.
Lemma same_std se : same_pb (std_problem u1 se) (std_problem u2 se).
Proof.
  constructor; try reflexivity; try (cbn; rewrite same_stds; reflexivity).
  intros G _. apply same_avg.
Qed.
Lemma same_std_val se : same_obj (std_problem u1 se) (std_problem u2 se).
Proof. intros P2 c. rewrite same_std_obj. f_equal. apply same_obj_k; try reflexivity. apply same_avg. Qed.
Lemma same_problem : same_fit_problem u1 u2.
Proof.
  split; [intros; rewrite same_means; reflexivity|]. split; [intros; rewrite same_stds; reflexivity|].
  intros se P2 v. pose proof (same_std se) as S. split; [apply same_std_obj|]. split.
  - intros k Hk. unfold score_of. pose proof (same_xt_grad _ _ S v k) as E. rewrite !xt_vec_xr in E.
    rewrite (same_nc _ _ S). change (pb_ic (std_problem u1 se)) with (pb_ic (std_problem u2 se)). f_equal. exact E.
  - intros k l. apply same_hessian, S.
Qed.

(** ** the whole fit *)
Hypothesis HS : same_supp rows1 rows2.
Lemma supp_rows rows (P : (nat -> R) -> R -> R -> Prop) :
  (forall i, (i < length rows)%nat -> P (r_x (nth i rows row0)) (r_y (nth i rows row0)) (r_off (nth i rows row0))) <->
  (forall r, In r rows -> P (r_x r) (r_y r) (r_off r)).
Proof.
  split.
  - intros H r Hr. apply (In_nth _ _ row0) in Hr. destruct Hr as [i [Hi <-]]. apply H, Hi.
  - intros H i Hi. apply H, nth_In, Hi.
Qed.
Lemma same_large_rows se : same_large (std_problem u1 se) (std_problem u2 se).
Proof.
  intros c. cbn [std_problem pb_n pb_large].
  set (P := fun (x : nat -> R) (y off : R) => mr (u_fam u) (u_link u) (u_ic u) (u_p u) c (fun j => x j * one_over (u_stds u2 j) + - u_means u2 j * one_over (u_stds u2 j)) off < se_large se).
  transitivity (forall r, In r rows1 -> P (r_x r) (r_y r) (r_off r)); [|transitivity (forall r, In r rows2 -> P (r_x r) (r_y r) (r_off r)); [apply HS|]].
  - rewrite <- supp_rows. split; intros H i Hi; specialize (H i Hi).
    + rewrite mean_mr in H. cbn [std_problem pb_fam pb_link pb_ic pb_p pb_X pb_off] in H. rewrite same_means, same_stds in H. exact H.
    + rewrite mean_mr. cbn [std_problem pb_fam pb_link pb_ic pb_p pb_X pb_off]. rewrite same_means, same_stds. exact H.
  - rewrite <- supp_rows. split; intros H i Hi; specialize (H i Hi).
    + rewrite mean_mr. exact H.
    + rewrite mean_mr in H. exact H.
Qed.
End Two.

Lemma rows_pb_ok u rows se : rows_ok u rows -> pb_ok (std_problem (with_rows u rows) se).
Proof.
  intros [A [B C]]. split; [exact A|]. split.
  - intros i Hi. cbn. apply B. apply nth_In. exact Hi.
  - intros j. cbn. unfold std_P1. destruct (u_scale u); [apply C|]. apply Rmult_le_pos; [apply C|]. left. apply (inv_pos (with_rows u rows)).
Qed.

Lemma fit_cd_same' u rows1 rows2 se seed guess a :
  u_means (with_rows u rows1) = u_means (with_rows u rows2) -> u_stds (with_rows u rows1) = u_stds (with_rows u rows2) ->
  same_pb (std_problem (with_rows u rows1) se) (std_problem (with_rows u rows2) se) ->
  same_obj (std_problem (with_rows u rows1) se) (std_problem (with_rows u rows2) se) ->
  same_large (std_problem (with_rows u rows1) se) (std_problem (with_rows u rows2) se) ->
  rows_ok u rows1 -> rows_ok u rows2 -> se_approx se = 0 -> seeds_ok seed ->
  fit_cd (with_rows u rows1) se seed guess a = fit_cd (with_rows u rows2) se seed guess a.
Proof.
  intros EM ES SP OB HL O1 O2 HC Hs. unfold fit_cd.
  assert (EP : std_problem_P2 (with_rows u rows1) = std_problem_P2 (with_rows u rows2)).
  { unfold std_problem_P2. rewrite ES. reflexivity. }
  rewrite EM, ES, EP.
  change (u_p (with_rows u rows1)) with (u_p (with_rows u rows2)). change (u_ic (with_rows u rows1)) with (u_ic (with_rows u rows2)).
  change (u_lb (with_rows u rows1)) with (u_lb (with_rows u rows2)). change (u_ub (with_rows u rows1)) with (u_ub (with_rows u rows2)).
  set (c := get_start_coef _ _ _ _ _ _ _ _).
  pose proof (same_solver _ _ SP HL OB (rows_pb_ok u rows1 se O1) (rows_pb_ok u rows2 se O2) HC HC seed
    (std_problem_P2 (with_rows u rows2)) c Hs) as H.
  destruct (irls_solver (std_problem (with_rows u rows1) se) _ _ _) as [[t1 w1]|]; [|contradiction].
  destruct (irls_solver (std_problem (with_rows u rows2) se) _ _ _) as [[t2 w2]|]; [|contradiction].
  destruct H as [H ->]. unfold user_result. rewrite (ss_coef _ _ H), EM, ES. reflexivity.
Qed.
Lemma fit_cd_same u rows1 rows2 se seed guess a : same_rows rows1 rows2 ->
  same_large (std_problem (with_rows u rows1) se) (std_problem (with_rows u rows2) se) ->
  rows_ok u rows1 -> rows_ok u rows2 -> se_approx se = 0 -> seeds_ok seed ->
  fit_cd (with_rows u rows1) se seed guess a = fit_cd (with_rows u rows2) se seed guess a.
Proof.
  intros HR. apply fit_cd_same'; [apply (same_means u rows1 rows2 HR)|apply (same_stds u rows1 rows2 HR)|apply (same_std u rows1 rows2 HR)|apply (same_std_val u rows1 rows2 HR)].
Qed.

(** guess_intercept *)
Definition grows (u : user) (rows : list row) : list grow :=
  map (fun i => mkgrow (u_y (with_rows u rows) i) (u_w (with_rows u rows) i) (u_off (with_rows u rows) i)) (seq 0 (u_n (with_rows u rows))).
Lemma grows_sum u rows (F : R -> R -> R) :
  lsumf (fun g => F (g_y g) (g_eta g) * g_w g) (grows u rows) = ravg rows (fun _ y off => F y off).
Proof.
  unfold grows. rewrite lsumf_map, lsumf_seq. cbn [g_y g_eta g_w].
  rewrite <- (sum_rows u rows (fun _ y off => F y off)). apply rsum_ext. intros. cbn. ring.
Qed.
Lemma grows_tot u rows : lsumf g_w (grows u rows) = ravg rows (fun _ _ _ => 1).
Proof.
  rewrite <- (grows_sum u rows (fun _ _ => 1)). apply lsumf_ext. intros. ring.
Qed.
Lemma all_equal_iff l : all_equal l = true <-> l <> [] /\ exists v, forall g, In g l -> g_y g = v.
Proof.
  destruct l as [|g l]; simpl.
  - split; [discriminate|]. intros [H _]. congruence.
  - rewrite forallb_forall. split.
    + intros H. split; [discriminate|]. exists (g_y g). intros h [<-|Hh]; [reflexivity|]. apply Reqb_true, H, Hh.
    + intros [_ [v H]] h Hh. apply Reqb_true. rewrite (H h (or_intror Hh)), (H g (or_introl eq_refl)). reflexivity.
Qed.
Lemma all_equal_rows u rows : all_equal (grows u rows) = true <-> rows <> [] /\ exists v, forall r, In r rows -> r_y r = v.
Proof.
  rewrite all_equal_iff. unfold grows. split; intros [A [v B]]; split.
  - intros ->. apply A. reflexivity.
  - exists v. apply (supp_rows rows (fun _ y _ => y = v)). intros i Hi. specialize (B (mkgrow (r_y (nth i rows row0)) (u_w (with_rows u rows) i) (r_off (nth i rows row0)))). apply B.
    apply in_map_iff. exists i. split; [reflexivity|]. apply in_seq. cbn. lia.
  - cbn. destruct rows; [congruence|discriminate].
  - exists v. intros g Hg. apply in_map_iff in Hg. destruct Hg as [i [<- Hi]]. apply in_seq in Hi. cbn in *. apply B. apply nth_In. lia.
Qed.

Lemma guess_same u rows1 rows2 has_off : same_rows rows1 rows2 ->
  all_equal (grows u rows1) = all_equal (grows u rows2) ->
  guess_intercept (u_fam u) (u_link u) has_off (grows u rows1) = guess_intercept (u_fam u) (u_link u) has_off (grows u rows2).
Proof.
  intros HR HE. unfold guess_intercept. rewrite HE. destruct (_ && _)%bool; [reflexivity|]. f_equal.
  assert (G : forall F : R -> R -> R, lsumf (fun g => F (g_y g) (g_eta g) * g_w g) (grows u rows1) = lsumf (fun g => F (g_y g) (g_eta g) * g_w g) (grows u rows2)).
  { intros F. rewrite !grows_sum. apply HR. }
  assert (T : lsumf g_w (grows u rows1) = lsumf g_w (grows u rows2)) by (rewrite !grows_tot; apply HR).
  assert (Y : gavg g_y (grows u rows1) = gavg g_y (grows u rows2)) by (unfold gavg; rewrite T, (G (fun y _ => y)); reflexivity).
  assert (O : gavg g_eta (grows u rows1) = gavg g_eta (grows u rows2)) by (unfold gavg; rewrite T, (G (fun _ e => e)); reflexivity).
  pose proof (G (fun y _ => y)) as G1. cbv beta in G1.
  pose proof (G (fun y e => y * Rpower (exp e) (1 - guess_power (u_fam u)))) as G2.
  pose proof (G (fun y e => Rpower (exp e) (2 - guess_power (u_fam u)))) as G3. cbv beta in G2, G3.
  rewrite Y, O. cbv zeta. rewrite G1, G2, G3. reflexivity.
Qed.

Lemma fit_rows_same u rows1 rows2 se seed has_off a : same_rows rows1 rows2 ->
  same_large (std_problem (with_rows u rows1) se) (std_problem (with_rows u rows2) se) ->
  (a = StartNone -> u_ic u = true -> u_link u <> IdentityL -> all_equal (grows u rows1) = all_equal (grows u rows2)) ->
  rows_ok u rows1 -> rows_ok u rows2 -> se_approx se = 0 -> seeds_ok seed ->
  fit_rows u se seed has_off rows1 a = fit_rows u se seed has_off rows2 a.
Proof.
  intros HR HL HE O1 O2 HC Hs. unfold fit_rows.
  assert (F : forall g, fit_cd (with_rows u rows1) se seed g a = fit_cd (with_rows u rows2) se seed g a) by (intros; apply fit_cd_same; auto).
  destruct a; try apply F. destruct (u_ic u); [|apply F].
  assert (GE : guess_intercept (u_fam u) (u_link u) has_off (grows u rows1) = guess_intercept (u_fam u) (u_link u) has_off (grows u rows2)).
  { destruct (u_link u) eqn:EL; try (rewrite <- EL; apply guess_same; [exact HR|apply HE; auto; rewrite ?EL; discriminate]).
    unfold guess_intercept. simpl.
    assert (G : forall F : R -> R -> R, lsumf (fun g => F (g_y g) (g_eta g) * g_w g) (grows u rows1) = lsumf (fun g => F (g_y g) (g_eta g) * g_w g) (grows u rows2)).
    { intros F0. rewrite !grows_sum. apply HR. }
    assert (T : lsumf g_w (grows u rows1) = lsumf g_w (grows u rows2)) by (rewrite !grows_tot; apply HR).
    unfold gavg. rewrite T, (G (fun y _ => y)), (G (fun _ e => e)). reflexivity. }
  change (match guess_intercept (u_fam u) (u_link u) has_off (grows u rows1) with Some g => fit_cd (with_rows u rows1) se seed g StartNone | None => None end
        = match guess_intercept (u_fam u) (u_link u) has_off (grows u rows2) with Some g => fit_cd (with_rows u rows2) se seed g StartNone | None => None end).
  rewrite GE. destruct (guess_intercept _ _ _ (grows u rows2)); [apply F|reflexivity].
Qed.

(** ** the row transformations *)
Lemma drop_zero_same rows : same_rows (drop_zero rows) rows.
Proof.
  assert (E : forall F : row -> R, (forall r, r_w r = 0 -> F r = 0) -> lsumf F (drop_zero rows) = lsumf F rows).
  { intros F HF. unfold drop_zero. induction rows as [|r l IH]; [reflexivity|]. simpl. destruct (Reqb (r_w r) 0) eqn:E; simpl; rewrite ?lsumf_cons, IH.
    - apply Reqb_true in E. rewrite (HF r E). ring.
    - reflexivity. }
  intros G. unfold ravg, wtot. rewrite !E; [reflexivity|auto|]. intros r ->. ring.
Qed.
Lemma freq_expand_same l : same_rows (freq_rows l) (expand_rows l).
Proof.
  assert (E : forall G : (nat -> R) -> R -> R -> R, lsumf (fun r => r_w r * G (r_x r) (r_y r) (r_off r)) (freq_rows l) = lsumf (fun r => r_w r * G (r_x r) (r_y r) (r_off r)) (expand_rows l)).
  { intros G. unfold freq_rows, expand_rows. induction l as [|[k r] l IH]; [reflexivity|]. simpl map. simpl flat_map.
    rewrite lsumf_cons, lsumf_app, IH, lsumf_repeat. cbn. ring. }
  intros G. unfold ravg. rewrite E. f_equal. unfold wtot.
  rewrite (lsumf_ext _ r_w (fun r => r_w r * (fun _ _ _ => 1) (r_x r) (r_y r) (r_off r)) (freq_rows l)) by (intros; ring).
  rewrite (lsumf_ext _ r_w (fun r => r_w r * (fun _ _ _ => 1) (r_x r) (r_y r) (r_off r)) (expand_rows l)) by (intros; ring).
  apply (E (fun _ _ _ => 1)).
Qed.
Lemma scale_same c rows : c <> 0 -> same_rows (scale_rows c rows) rows.
Proof.
  intros Hc G. unfold ravg, wtot, scale_rows. rewrite !lsumf_map. cbn [set_w r_w r_x r_y r_off].
  rewrite (lsumf_ext _ (fun a => c * r_w a * G (r_x a) (r_y a) (r_off a)) (fun a => c * (r_w a * G (r_x a) (r_y a) (r_off a)))) by (intros; ring).
  rewrite !lsumf_scal. set (A := lsumf _ _). set (B := lsumf _ _). destruct (Req_dec B 0) as [E|E].
  - rewrite E, Rmult_0_r. unfold Rdiv. rewrite Rinv_0. ring.
  - field. split; assumption.
Qed.
Lemma perm_same rows1 rows2 : Permutation rows1 rows2 -> same_rows rows1 rows2.
Proof. intros P G. unfold ravg, wtot. rewrite !(lsumf_perm _ _ _ _ P). reflexivity. Qed.
Lemma perm_supp rows1 rows2 : Permutation rows1 rows2 -> same_supp rows1 rows2.
Proof.
  intros P Q. split; intros H r Hr; apply H.
  - eapply Permutation_in; [apply Permutation_sym, P|exact Hr].
  - eapply Permutation_in; eauto.
Qed.
Lemma freq_expand_supp l : (forall kr, In kr l -> (0 < fst kr)%nat) -> same_supp (freq_rows l) (expand_rows l).
Proof.
  intros Hk P. unfold freq_rows, expand_rows. split; intros H r Hr.
  - apply in_flat_map in Hr. destruct Hr as [kr [H1 H2]]. apply repeat_spec in H2. subst r. cbn.
    specialize (H (set_w (INR (fst kr)) (snd kr))). apply H. apply in_map_iff. exists kr. auto.
  - apply in_map_iff in Hr. destruct Hr as [kr [<- H1]]. cbn. specialize (H (set_w 1 (snd kr))). apply H.
    apply in_flat_map. exists kr. split; [exact H1|]. pose proof (Hk kr H1). destruct (fst kr); [lia|]. left. reflexivity.
Qed.
Lemma same_supp_equal u rows1 rows2 : same_supp rows1 rows2 -> all_equal (grows u rows1) = all_equal (grows u rows2).
Proof.
  intros HS. apply bool_iff. rewrite !all_equal_rows.
  assert (N : forall a b, same_supp a b -> a <> [] -> b <> []).
  { intros a b Hab Ha ->. apply Ha. destruct a as [|r a]; [reflexivity|]. exfalso. apply (proj2 (Hab (fun _ _ _ => False))) with r; [intros q []|left; reflexivity]. }
  split; intros [A [v B]]; split.
  - eapply N; eauto.
  - exists v. apply (HS (fun _ y _ => y = v)). exact B.
  - apply (N rows2); auto. intros P. symmetry. apply HS.
  - exists v. apply (HS (fun _ y _ => y = v)). exact B.
Qed.
