(** Lemmas about alpha paths. *)
From Verif Require Import M_Path S_Path L_Link L_Dist L_Dist2 L_Dist4 L_CD L_KKT L_Hess L_Solver L_Solver2 L_Solver3 L_Obj L_Std L_Fit.
From Coq Require Import FunctionalExtensionality.
From Verif Require Import M_Solver S_Solver.
Local Open Scope R_scope.

(** ** grid *)
Lemma linspace_length a b n : length (linspace a b n) = n.
Proof. unfold linspace. rewrite map_length, seq_length. reflexivity. Qed.
Lemma nth_map_seq (f : nat -> R) n k d : (k < n)%nat -> nth k (map f (seq 0 n)) d = f k.
Proof.
  intros H. rewrite (nth_indep _ d (f 0%nat)) by (rewrite map_length, seq_length; exact H).
  rewrite map_nth, seq_nth by exact H. reflexivity.
Qed.
Lemma linspace_nth a b n k d : (k < n)%nat -> nth k (linspace a b n) d = a + INR k * ((b - a) / INR (n - 1)).
Proof.
  intros H. unfold linspace. rewrite nth_map_seq by exact H.
  destruct (Nat.ltb_spec 1 n); cbn [andb].
  - destruct (Nat.eqb_spec k (n - 1)) as [->|]; [|ring]. field. apply not_0_INR. lia.
  - replace k with 0%nat by lia. simpl. ring.
Qed.
Lemma logspace_nth a b n k d : (k < n)%nat -> nth k (logspace a b n) d = exp (a + INR k * ((b - a) / INR (n - 1))).
Proof.
  intros H. unfold logspace. rewrite (nth_indep _ d (exp 0)) by (rewrite map_length, linspace_length; exact H).
  rewrite map_nth, linspace_nth by exact H. reflexivity.
Qed.

(** ** maximum *)
Lemma fold_max_spec l x : (In (fold_left Rmax l x) (x :: l)) /\ x <= fold_left Rmax l x /\ (forall y, In y l -> y <= fold_left Rmax l x).
Proof.
  revert x. induction l as [|a l IH]; intros x; simpl.
  - split; [auto|]. split; [lra|tauto].
  - destruct (IH (Rmax x a)) as [A [B C]]. pose proof (Rmax_l x a). pose proof (Rmax_r x a).
    split; [|split].
    + destruct A as [A|A]; [|auto]. unfold Rmax in A at 1. destruct (Rle_dec x a); auto.
    + lra.
    + intros y [<-|Hy]; [lra|auto].
Qed.
Lemma np_max_spec l m : np_max l = Some m -> In m l /\ forall x, In x l -> x <= m.
Proof.
  destruct l as [|a l]; [discriminate|]. intros H. injection H as <-. destruct (fold_max_spec l a) as [A [B C]].
  split; [exact A|]. intros x [<-|Hx]; auto.
Qed.

Definition has_l1 (pb : problem) : Prop := exists j, (j < pb_p pb)%nat /\ 0 < pb_P1 pb j.
Lemma alpha_max_spec pb a c : (forall j, 0 <= pb_P1 pb j) -> has_l1 pb -> null_coef pb = Some c -> alpha_max pb = Some a ->
  0 < a /\
  (forall j, (j < pb_p pb)%nat -> 0 < pb_P1 pb j -> feature_gradient pb c j <= a * pb_P1 pb j) /\
  ((forall j, (j < pb_p pb)%nat -> 0 < pb_P1 pb j -> feature_gradient pb c j = 0) \/
   exists j, (j < pb_p pb)%nat /\ 0 < pb_P1 pb j /\ feature_gradient pb c j = a * pb_P1 pb j).
Proof.
  intros HP [j0 [Hj0 P0]] Hc. unfold alpha_max. rewrite Hc.
  assert (Ef : forallb (fun j => Reqb (pb_P1 pb j) 0) (seq 0 (pb_p pb)) = false).
  { apply not_true_is_false. intros F. rewrite forallb_forall in F.
    specialize (F j0 ltac:(apply in_seq; lia)). apply Reqb_true in F. lra. }
  rewrite Ef. destruct (np_max _) as [m|] eqn:Em; [|discriminate]. intros H. injection H as <-.
  apply np_max_spec in Em as [Hin Hmax].
  apply in_map_iff in Hin as [j [Ej Hj]]. apply filter_In in Hj as [Hj Pj].
  apply in_seq in Hj. apply Rltb_true in Pj.
  assert (G0 : forall k, 0 <= feature_gradient pb c k) by (intros; apply Rabs_pos).
  assert (Hall : forall k, (k < pb_p pb)%nat -> 0 < pb_P1 pb k -> feature_gradient pb c k <= m * pb_P1 pb k).
  { intros k Hk Pk. assert (feature_gradient pb c k / pb_P1 pb k <= m).
    { apply Hmax, in_map_iff. exists k. split; [reflexivity|]. apply filter_In. split; [apply in_seq; lia|apply Rltb_true; exact Pk]. }
    apply Rmult_le_compat_r with (r := pb_P1 pb k) in H; [|lra]. unfold Rdiv in H. rewrite Rmult_assoc, Rinv_l in H by lra. lra. }
  assert (M0 : 0 <= m). { rewrite <- Ej. apply Rmult_le_pos; [apply G0|]. left. apply Rinv_0_lt_compat. exact Pj. }
  unfold Reqb. destruct (Req_EM_T m 0) as [E|E].
  - split; [lra|]. split.
    + intros k Hk Pk. specialize (Hall k Hk Pk). rewrite E in Hall. specialize (G0 k). nra.
    + left. intros k Hk Pk. specialize (Hall k Hk Pk). rewrite E in Hall. specialize (G0 k). lra.
  - split; [lra|]. split; [exact Hall|]. right. exists j. split; [lia|]. split; [exact Pj|]. rewrite <- Ej. field. lra.
Qed.

(** ** the null model *)
Lemma inverse1_band lk eta : in_band lk (raw_inverse lk eta) -> inverse1 lk eta = raw_inverse lk eta.
Proof. destruct lk; simpl; auto; intros H; apply clip_id; exact H. Qed.
Lemma search_band f lk eta : in_band lk (raw_inverse lk eta) -> search_mean f lk eta = raw_inverse lk eta.
Proof. intros H. unfold search_mean. destruct f; try (apply inverse1_band; exact H). destruct lk; try (apply inverse1_band; exact H). reflexivity. Qed.

(** null regularity of a problem *)
Definition pb_ybar (pb : problem) : R := rsum (pb_n pb) (fun i => pb_w pb i * pb_y pb i) / rsum (pb_n pb) (pb_w pb).
Definition pb_null_regular (pb : problem) : Prop :=
  if pb_ic pb
  then (forall i, (i < pb_n pb)%nat -> pb_off pb i = 0) /\ mean_domain (pb_link pb) (pb_ybar pb) /\
       mean_range (pb_fam pb) (pb_ybar pb) /\ in_band (pb_link pb) (pb_ybar pb)
  else forall i, (i < pb_n pb)%nat ->
       mean_range (pb_fam pb) (raw_inverse (pb_link pb) (pb_off pb i)) /\ in_band (pb_link pb) (raw_inverse (pb_link pb) (pb_off pb i)).

Lemma grows_sum pb (f : grow -> R) : lsumf f (grows_of pb) = rsum (pb_n pb) (fun i => f (mkgrow (pb_y pb i) (pb_w pb i) 0)).
Proof. unfold grows_of. rewrite lsumf_map, lsumf_seq. reflexivity. Qed.
Lemma grows_avg pb : wavg (g_yw (grows_of pb)) = pb_ybar pb.
Proof.
  unfold wavg, pb_ybar, g_yw. rewrite !lsumf_map, !grows_sum. cbn [g_y g_w fst snd]. f_equal.
  apply rsum_ext. intros; ring.
Qed.

Lemma null_is pb c : pb_ok pb -> (forall i, (i < pb_n pb)%nat -> 0 <= pb_w pb i) -> rsum (pb_n pb) (pb_w pb) = 1 ->
  pb_null_regular pb -> null_coef pb = Some c ->
  (exists g, c = pack (pb_ic pb) g (fun _ => 0) /\ (pb_ic pb = true -> raw_inverse (pb_link pb) g = pb_ybar pb)).
Proof.
  intros Hok Hw H1 Hr. unfold null_coef, pb_null_regular in *. destruct (pb_ic pb).
  - destruct (guess_intercept _ _ _ _) as [g|] eqn:Eg; [|discriminate]. intros H. injection H as <-.
    exists g. split; [reflexivity|]. intros _. destruct Hr as [_ [D [M _]]].
    assert (W : lsumf g_w (grows_of pb) = 1) by (rewrite grows_sum; exact H1).
    destruct (guess_no_offset (pb_fam pb) (pb_link pb) (grows_of pb) g (pb_ybar pb)) as [E _]; auto.
    + apply Hok.
    + intros r Hin. apply in_map_iff in Hin as [i [<- Hi]]. apply in_seq in Hi. cbn [g_y g_w]. split; [apply Hok|apply Hw]; lia.
    + lra.
    + destruct (pb_link pb); auto.
    + rewrite grows_avg. exact D.
    + rewrite grows_avg. exact M.
    + rewrite E. apply grows_avg.
  - intros H. injection H as <-. exists 0. split; [|discriminate]. unfold pack. reflexivity.
Qed.

Lemma null_eta pb g i : eta_of pb (pack (pb_ic pb) g (fun _ => 0)) i = (if pb_ic pb then g else 0) + pb_off pb i.
Proof.
  unfold eta_of, nc, xt, pack. destruct (pb_ic pb); simpl ioff.
  - change (1 + pb_p pb)%nat with (S (pb_p pb)). rewrite rsum_S_l. rewrite (rsum_zero (pb_p pb)) by (intros; ring). ring.
  - change (0 + pb_p pb)%nat with (pb_p pb). rewrite rsum_zero by (intros; ring). reflexivity.
Qed.

(** the means of the null model *)
Lemma null_means pb g : pb_null_regular pb -> (pb_ic pb = true -> raw_inverse (pb_link pb) g = pb_ybar pb) ->
  let c := pack (pb_ic pb) g (fun _ => 0) in
  forall i, (i < pb_n pb)%nat ->
    mean_range (pb_fam pb) (raw_inverse (pb_link pb) (eta_of pb c i)) /\ in_band (pb_link pb) (raw_inverse (pb_link pb) (eta_of pb c i)) /\
    (pb_ic pb = true -> eta_of pb c i = g).
Proof.
  intros Hr Hg c i Hi. unfold c. rewrite null_eta. unfold pb_null_regular in Hr. destruct (pb_ic pb).
  - destruct Hr as [O [D [M B]]]. rewrite (O i Hi), Rplus_0_r, Hg by reflexivity. auto.
  - rewrite Rplus_0_l. destruct (Hr i Hi). auto. split; [auto|]. split; [auto|discriminate].
Qed.

Lemma null_p2 pb P2 g k : (k < nc pb)%nat ->
  rsum (nc pb) (fun l => pack (pb_ic pb) g (fun _ => 0) l * p2_full (pb_ic pb) P2 l k) = 0.
Proof.
  intros Hk. apply rsum_zero. intros l _. unfold pack, p2_full. destruct (pb_ic pb); [|ring].
  destruct l; [ring|]. ring.
Qed.

Lemma feature_gradient_score pb P2 g j : pb_ok pb -> pb_null_regular pb ->
  (pb_ic pb = true -> raw_inverse (pb_link pb) g = pb_ybar pb) -> (j < pb_p pb)%nat ->
  let c := pack (pb_ic pb) g (fun _ => 0) in
  feature_gradient pb c j = Rabs (score_of pb P2 c (ioff (pb_ic pb) + j)).
Proof.
  intros Hok Hr Hg Hj c. unfold feature_gradient. f_equal. unfold deviance_der, score_of.
  assert (Hk : (ioff (pb_ic pb) + j < nc pb)%nat) by (unfold nc; lia).
  rewrite (null_p2 pb P2 g _ Hk : rsum (nc pb) (fun l => c l * p2_full (pb_ic pb) P2 l (ioff (pb_ic pb) + j)) = 0). rewrite Rminus_0_r.
  rewrite xt_vec_eq by exact Hk. rewrite <- rsum_scal. apply rsum_ext. intros i Hi.
  rewrite <- eta_of_eq. destruct (null_means pb g Hr Hg i Hi) as [M [B _]]. fold c in M, B.
  unfold mean_of. rewrite (search_band _ _ _ B), (inverse1_band _ _ B).
  rewrite gradient_row_eq by (try exact M; apply Hok). unfold unit_deviance_derivative.
  assert (Hv := unit_variance_pos _ _ (proj1 Hok) M). field. lra.
Qed.

Lemma intercept_score pb P2 g : pb_ok pb -> pb_null_regular pb -> pb_ic pb = true -> rsum (pb_n pb) (pb_w pb) = 1 ->
  raw_inverse (pb_link pb) g = pb_ybar pb ->
  score_of pb P2 (pack (pb_ic pb) g (fun _ => 0)) 0 = 0.
Proof.
  intros Hok Hr Hic H1 Hg. unfold score_of. set (c := pack _ g _).
  assert (Hk : (0 < nc pb)%nat) by (unfold nc; rewrite Hic; simpl; lia).
  rewrite (null_p2 pb P2 g _ Hk : rsum (nc pb) (fun l => c l * p2_full (pb_ic pb) P2 l 0) = 0). rewrite Rminus_0_r.
  assert (E : forall i, (i < pb_n pb)%nat ->
    gradient_row (pb_fam pb) (pb_link pb) (pb_y pb i) (pb_w pb i) (eta_of pb c i) (mean_of pb c i) * xt pb i 0
    = (inverse_derivative (pb_link pb) g / unit_variance (pb_fam pb) (pb_ybar pb)) * (pb_w pb i * pb_y pb i - pb_ybar pb * pb_w pb i)).
  { intros i Hi. destruct (null_means pb g Hr (fun _ => Hg) i Hi) as [M [B E]]. fold c in M, B, E. specialize (E Hic).
    unfold mean_of. rewrite (search_band _ _ _ B). rewrite gradient_row_eq by (try exact M; apply Hok).
    rewrite E in *. rewrite Hg in *. assert (Hv := unit_variance_pos _ _ (proj1 Hok) M).
    unfold xt. rewrite Hic. field. lra. }
  rewrite (rsum_ext _ _ _ E). rewrite rsum_scal, rsum_minus, rsum_scal. unfold pb_ybar at 2. rewrite H1.
  unfold Rdiv at 2. rewrite Rinv_1. ring.
Qed.

(** stationarity of zero *)
Lemma zero_stationary s p l u : Rabs s <= p -> coord_stationary (- s) p l u 0.
Proof.
  intros H t _. rewrite Rabs_R0, !Rminus_0_r.
  assert (s * t <= p * Rabs t).
  { eapply Rle_trans; [apply Rle_abs|]. rewrite Rabs_mult. apply Rmult_le_compat_r; [apply Rabs_pos|exact H]. }
  lra.
Qed.

(** a function with negative derivative decreases *)
Lemma descent (f : R -> R) l : is_derive f 0 l -> l < 0 -> exists d, 0 < d /\ forall t, 0 < t < d -> f t < f 0.
Proof.
  intros H Hl. apply is_derive_Reals in H. destruct (H (- l) ltac:(lra)) as [d Hd].
  exists d. split; [apply cond_pos|]. intros t Ht.
  specialize (Hd t ltac:(lra) ltac:(rewrite Rabs_right; lra)). rewrite Rplus_0_l in Hd.
  apply Rabs_def2 in Hd as [Hd _].
  assert (E : f t - f 0 = t * ((f t - f 0) / t)) by (field; lra).
  assert ((f t - f 0) / t < 0) by lra. nra.
Qed.

(** ** alpha and standardisation *)
Lemma std_problem_alpha u se alpha :
  std_problem (with_alpha u alpha) se = set_P1 (std_problem u se) (p1_scale alpha (pb_P1 (std_problem u se))).
Proof.
  unfold std_problem, set_P1. cbn. unfold u_means, u_stds. cbn. f_equal.
  apply functional_extensionality. intros j. unfold std_P1, p1_scale. destruct (u_scale u); ring.
Qed.
Lemma std_P2_alpha u alpha : std_problem_P2 (with_alpha u alpha) = p2_scale alpha (std_problem_P2 u).
Proof.
  unfold std_problem_P2, std_P2, p2_scale. cbn. unfold u_stds. cbn. destruct (u_scale u); [reflexivity|].
  destruct (u_P2 u); f_equal; repeat (apply functional_extensionality; intro); ring.
Qed.
Lemma with_alpha_ok u alpha : 0 <= alpha -> user_ok u -> user_ok (with_alpha u alpha).
Proof.
  intros Ha [H1 [H2 [H3 [H4 [H5 H6]]]]]. unfold user_ok. cbn.
  split; [exact H1|]. split; [exact H2|]. split; [exact H3|]. split; [intros j; apply Rmult_le_pos; auto|].
  assert (E : forall i j, p2_entry (match u_P2 u with P2diag v => P2diag (fun j => v j * alpha) | P2mat M => P2mat (fun i j => M i j * alpha) end) i j
     = p2_entry (u_P2 u) i j * alpha).
  { intros i j. destruct (u_P2 u); cbn; [destruct (Nat.eqb i j)|]; ring. }
  split.
  - intros i j Hi Hj. rewrite !E. f_equal. apply H5; auto.
  - intros v. rewrite (rsum_ext _ _ (fun i => rsum (u_p u) (fun j => v i * p2_entry (u_P2 u) i j * v j) * alpha)).
    + rewrite rsum_scal_r. apply Rmult_le_pos; [apply H6|exact Ha].
    + intros i _. rewrite <- rsum_scal_r. apply rsum_ext. intros j _. rewrite E. ring.
Qed.
Lemma pen_scale_alpha u alpha : pen_scale (with_alpha u alpha) = pen_scale u.
Proof. reflexivity. Qed.

Lemma null_result u g : user_result u (pack (u_ic u) g (fun _ => 0)) = (if u_ic u then g else 0, fun j => 0 * one_over (u_stds u j)).
Proof.
  unfold user_result, unpack, pack. destruct (u_ic u); unfold unstandardize; f_equal;
   rewrite rsum_zero by (intros; ring); ring.
Qed.
