(** Lemmas for C91: everything a fit uses is affine in the responses. *)
From Coq Require Import List Lia Lra FunctionalExtensionality. Import ListNotations.
From Verif Require Import Base M_Link M_Dist M_Std M_Valid M_Fit S_Dist S_Std S_Fit S_FitAll L_Link L_Dist L_Dist2 L_Dist3 L_Dist4 L_KKT L_Obj L_Solver L_Std L_Fit L_Same L_Rows L_Score L_Gap L_FitAll S_Agg.
From Verif Require Import M_Solver S_Solver.
Local Open Scope R_scope.

Lemma lsumf_concat A (f : A -> R) ll : lsumf f (concat ll) = lsumf (fun l => lsumf f l) ll.
Proof. induction ll as [|l ll IH]; [rewrite !lsumf_nil; reflexivity|]. cbn [concat]. rewrite lsumf_app, lsumf_cons, IH. reflexivity. Qed.
Lemma cell_head g : cell g -> In (hd row0 g) g.
Proof. intros [_ [W _]]. destruct g; [rewrite lsumf_nil in W; lra|left; reflexivity]. Qed.
Lemma cell_row g r : cell g -> In r g -> r_x r = r_x (merged g) /\ r_off r = r_off (merged g).
Proof.
  intros Hg Hr. pose proof (cell_head g Hg) as H0. destruct Hg as [_ [_ H]]. destruct (H r (hd row0 g) Hr H0) as [X O].
  split; [apply functional_extensionality, X|exact O].
Qed.
Lemma cell_affine g (A B : (nat -> R) -> R -> R) : cell g ->
  lsumf (fun r => r_w r * (A (r_x r) (r_off r) + r_y r * B (r_x r) (r_off r))) g
  = r_w (merged g) * (A (r_x (merged g)) (r_off (merged g)) + r_y (merged g) * B (r_x (merged g)) (r_off (merged g))).
Proof.
  intros Hg. set (m := merged g).
  rewrite (lsumf_ext _ _ (fun r => A (r_x m) (r_off m) * r_w r + B (r_x m) (r_off m) * (r_w r * r_y r))).
  - rewrite lsumf_plus, !lsumf_scal. change (r_w m) with (lsumf r_w g). change (r_y m) with (lsumf (fun r => r_w r * r_y r) g / lsumf r_w g). destruct Hg as [_ [W _]]. field. lra.
  - intros r Hr. destruct (cell_row g r Hg Hr) as [-> ->]. fold m. ring.
Qed.

Section Cells.
Variable cells : list (list row).
Hypothesis HC : List.Forall cell cells.
Notation full := (concat cells).
Notation agg := (map merged cells).

Lemma cells_sum (F : row -> R) (H : forall g, cell g -> lsumf F g = F (merged g)) : lsumf F full = lsumf F agg.
Proof.
  rewrite lsumf_concat, lsumf_map. apply lsumf_ext. intros g Hg. apply H. rewrite Forall_forall in HC. apply HC, Hg.
Qed.
Lemma cells_wtot : wtot full = wtot agg.
Proof. unfold wtot. apply cells_sum. intros g _. reflexivity. Qed.
Lemma cells_wpos : cells <> [] -> 0 < wtot full.
Proof.
  intros N. unfold wtot. rewrite lsumf_concat. rewrite Forall_forall in HC. destruct cells as [|g l]; [congruence|]. rewrite lsumf_cons.
  assert (0 < lsumf r_w g) by (apply HC; left; reflexivity).
  assert (0 <= lsumf (fun l => lsumf r_w l) l); [|lra]. assert (HL : forall g, In g l -> cell g) by (intros; apply HC; right; assumption).
  clear - HL. induction l as [|h l IH]; [rewrite lsumf_nil; lra|]. rewrite lsumf_cons.
  assert (0 < lsumf r_w h) by (apply HL; left; reflexivity). assert (0 <= lsumf (fun l => lsumf r_w l) l); [|lra]. apply IH. intros; apply HL; right; assumption.
Qed.
Lemma cells_ravg (A B : (nat -> R) -> R -> R) :
  ravg full (fun x y off => A x off + y * B x off) = ravg agg (fun x y off => A x off + y * B x off).
Proof. unfold ravg. rewrite cells_wtot. f_equal. apply cells_sum. intros g Hg. apply (cell_affine g A B Hg). Qed.
Lemma ravg_affine rows G A B : (forall r, In r rows -> G (r_x r) (r_y r) (r_off r) = A (r_x r) (r_off r) + r_y r * B (r_x r) (r_off r)) ->
  ravg rows G = ravg rows (fun x y off => A x off + y * B x off).
Proof. intros H. unfold ravg. f_equal. apply lsumf_ext. intros r Hr. rewrite H by exact Hr. reflexivity. Qed.
Lemma cells_eq G A B : (forall x y off, G x y off = A x off + y * B x off) -> ravg full G = ravg agg G.
Proof. intros H. rewrite (ravg_affine full G A B), (ravg_affine agg G A B) by (intros; apply H). apply cells_ravg. Qed.

Variable u : user.
Notation u1 := (with_rows u full).
Notation u2 := (with_rows u agg).
Lemma agg_means : u_means u1 = u_means u2.
Proof.
  apply functional_extensionality. intros j. unfold u_means, col_means. change (u_ic u1) with (u_ic u). change (u_ic u2) with (u_ic u).
  destruct (u_ic u); [|reflexivity]. unfold wmean.
  transitivity (ravg full (fun x _ _ => x j)); [apply (sum_rows u full (fun x _ _ => x j))|].
  rewrite (cells_eq _ (fun x _ => x j) (fun _ _ => 0)) by (intros; ring). symmetry. apply (sum_rows u agg (fun x _ _ => x j)).
Qed.
Lemma agg_stds : u_stds u1 = u_stds u2.
Proof.
  apply functional_extensionality. intros j. unfold u_stds, col_stds. f_equal.
  assert (M : wmean (u_n u1) (u_w u1) (fun i => u_X u1 i j) = wmean (u_n u2) (u_w u2) (fun i => u_X u2 i j)).
  { transitivity (ravg full (fun x _ _ => x j)); [apply (sum_rows u full (fun x _ _ => x j))|].
    rewrite (cells_eq _ (fun x _ => x j) (fun _ _ => 0)) by (intros; ring). symmetry. apply (sum_rows u agg (fun x _ _ => x j)). }
  rewrite M. set (m := wmean _ _ _).
  transitivity (ravg full (fun x _ _ => (x j - m) ^ 2)); [apply (sum_rows u full (fun x _ _ => (x j - m) ^ 2))|].
  rewrite (cells_eq _ (fun x _ => (x j - m) ^ 2) (fun _ _ => 0)) by (intros; ring). symmetry. apply (sum_rows u agg (fun x _ _ => (x j - m) ^ 2)).
Qed.
(** a sum over the standardized rows *)
Lemma agg_avg se G A B : (forall x y off, G x y off = A x off + y * B x off) -> avg (std_problem u1 se) G = avg (std_problem u2 se) G.
Proof.
  intros H. unfold avg. cbn [std_problem pb_n pb_w pb_X pb_y pb_off]. rewrite agg_means, agg_stds.
  set (m := u_means u2). set (s := u_stds u2).
  set (T := fun x j => x j * one_over (s j) + - m j * one_over (s j)).
  set (G' := fun x y off => G (T x) y off).
  transitivity (ravg full G'); [apply (sum_rows u full G')|].
  rewrite (cells_eq G' (fun x => A (T x)) (fun x => B (T x))) by (intros; apply H). symmetry. apply (sum_rows u agg G').
Qed.
End Cells.

(** The part of the unit deviance that depends on the mean. *)
Definition kern (f : family) (y m : R) : R :=
  match f with
  | TweedieF p =>
      if Req_EM_T p 0 then m ^ 2 - 2 * y * m
      else if Req_EM_T p 1 then 2 * (m - y * ln m)
      else if Req_EM_T p 2 then 2 * (ln m + y / m)
      else if Req_EM_T p 3 then y / m ^ 2 - 2 / m
      else 2 * (m * Rpower m (1 - p) / (2 - p) - y * Rpower m (1 - p) / (1 - p))
  | NormalF => m ^ 2 - 2 * y * m
  | PoissonF => 2 * (m - y * ln m)
  | GammaF => 2 * (ln m + y / m)
  | InvGaussF => y / m ^ 2 - 2 / m
  | GHSF => ln (1 + m ^ 2) - 2 * y * atan m
  | BinomialF => - 2 * (y * ln m + (1 - y) * ln (1 - m))
  | NegBinF th => 2 * ((y + 1 / th) * ln (m + 1 / th) - y * ln m)
  end.
Lemma kern_affine f y m : kern f y m = kern f 0 m + y * (kern f 1 m - kern f 0 m).
Proof.
  destruct f as [p| | | | | | |th]; cbn [kern];
  repeat match goal with |- context [Req_EM_T ?a ?b] => destruct (Req_EM_T a b) end; unfold Rdiv; ring.
Qed.
Lemma unit_kern f y m m' : family_ok f -> support f y -> mean_range f m -> mean_range f m' ->
  unit_deviance f y m' - unit_deviance f y m = kern f y m' - kern f y m.
Proof.
  intros Hf Hy Hm Hm'.
  assert (P1 : forall y, 0 <= y -> 0 < m -> 0 < m' -> 2 * (xlogy y (y / m') - y + m') - 2 * (xlogy y (y / m) - y + m) = 2 * (m' - y * ln m') - 2 * (m - y * ln m)).
  { intros z Hz A B. rewrite !xlogy_eq. destruct (Req_dec z 0) as [->|N]; [ring|].
    unfold Rdiv. rewrite !ln_mult, !ln_Rinv by (try apply Rinv_0_lt_compat; lra). ring. }
  assert (P2 : forall y, 0 < y -> 0 < m -> 0 < m' -> 2 * (ln (m' / y) + y / m' - 1) - 2 * (ln (m / y) + y / m - 1) = 2 * (ln m' + y / m') - 2 * (ln m + y / m)).
  { intros z Hz A B. unfold Rdiv. rewrite !ln_mult, !ln_Rinv by (try apply Rinv_0_lt_compat; lra). ring. }
  destruct f as [p| | | | | | |th]; cbn [kern unit_deviance support mean_range family_ok] in *.
  - repeat match goal with |- context [Req_EM_T ?a ?b] => destruct (Req_EM_T a b) end.
    + ring.
    + apply P1; [apply Hy; lra|apply Hm; lra|apply Hm'; lra].
    + apply P2; [apply Hy; lra|apply Hm; lra|apply Hm'; lra].
    + assert (0 < y) by (apply Hy; lra). assert (0 < m) by (apply Hm; lra). assert (0 < m') by (apply Hm'; lra). field. lra.
    + cbv zeta. unfold Rdiv. ring.
  - ring.
  - apply P1; assumption.
  - apply P2; assumption.
  - field. lra.
  - assert (Q : forall x, 0 < 1 + x ^ 2) by (intros x; nra). unfold Rdiv. rewrite !ln_mult, !ln_Rinv by (try apply Rinv_0_lt_compat; apply Q). ring.
  - rewrite !xlogy_eq. ring.
  - assert (T : 0 < / th) by (apply Rinv_0_lt_compat, Hf). rewrite !xlogy_eq. unfold Rdiv. rewrite !Rmult_1_l.
    rewrite (ln_mult (y + / th)), (ln_mult (y + / th) (/ (m + / th))), !ln_Rinv by (try apply Rinv_0_lt_compat; lra).
    destruct (Req_dec y 0) as [->|N]; [ring|]. rewrite !ln_mult, !ln_Rinv by (try apply Rinv_0_lt_compat; lra). ring.
Qed.

(** ** the merged row stays in the support *)
Lemma avg_between (g : list row) : (forall r, In r g -> 0 <= r_w r) -> 0 < lsumf r_w g ->
  forall lo, (forall r, In r g -> lo <= r_y r) -> lo <= r_y (merged g).
Proof.
  intros Hw W lo Hl. cbn [merged r_y]. apply Rmult_le_reg_r with (lsumf r_w g); [exact W|].
  unfold Rdiv. rewrite Rmult_assoc, Rinv_l, Rmult_1_r by lra. rewrite <- lsumf_scal. apply lsumf_le. intros r Hr.
  pose proof (Hw r Hr). pose proof (Hl r Hr). nra.
Qed.
Lemma avg_below (g : list row) : (forall r, In r g -> 0 <= r_w r) -> 0 < lsumf r_w g ->
  forall hi, (forall r, In r g -> r_y r <= hi) -> r_y (merged g) <= hi.
Proof.
  intros Hw W hi Hl. cbn [merged r_y]. apply Rmult_le_reg_r with (lsumf r_w g); [exact W|].
  unfold Rdiv. rewrite Rmult_assoc, Rinv_l, Rmult_1_r by lra. rewrite <- lsumf_scal. apply lsumf_le. intros r Hr.
  pose proof (Hw r Hr). pose proof (Hl r Hr). nra.
Qed.
Lemma min_pos (g : list row) : (forall r, In r g -> 0 < r_y r) -> exists lo, 0 < lo /\ forall r, In r g -> lo <= r_y r.
Proof.
  induction g as [|a g IH]; intros H; [exists 1; split; [lra|intros r []]|].
  destruct IH as [lo [L H1]]; [intros; apply H; right; assumption|]. pose proof (H a (or_introl eq_refl)).
  exists (Rmin lo (r_y a)). split; [apply Rmin_glb_lt; assumption|]. intros r [<-|Hr]; [apply Rmin_r|].
  pose proof (H1 r Hr). pose proof (Rmin_l lo (r_y a)). lra.
Qed.
Lemma avg_pos g : cell g -> (forall r, In r g -> 0 < r_y r) -> 0 < r_y (merged g).
Proof.
  intros [Hw [W _]] H. destruct (min_pos g H) as [lo [L H1]]. pose proof (avg_between g Hw W lo H1). lra.
Qed.
Lemma support_merged f g : cell g -> (forall r, In r g -> support f (r_y r)) -> support f (r_y (merged g)).
Proof.
  intros Hg H. pose proof Hg as [Hw [W _]].
  destruct f as [p| | | | | | |th]; cbn [support] in *; auto.
  - split; intros Hp; [apply (avg_between g Hw W)|apply avg_pos; [exact Hg|]]; intros r Hr; apply (H r Hr), Hp.
  - apply (avg_between g Hw W). exact H.
  - apply avg_pos; assumption.
  - apply avg_pos; assumption.
  - split; [apply (avg_between g Hw W)|apply (avg_below g Hw W)]; intros r Hr; apply H, Hr.
  - apply (avg_between g Hw W). exact H.
Qed.
Lemma dev_ok_merged f g : cell g -> (forall r, In r g -> dev_ok f (r_y r)) -> dev_ok f (r_y (merged g)).
Proof. intros [Hw [W _]] H N. apply (avg_between g Hw W). intros r Hr. apply (H r Hr N). Qed.

(** ** the weight in the distance between predictions is concave in y *)
Lemma pred_weight_jensen f lk e g : convex_pair f lk -> cell g -> (forall r, In r g -> support f (r_y r)) -> family_ok f ->
  lsumf (fun r => r_w r * pred_weight f (r_y r) (mean_at lk e)) g <= r_w (merged g) * pred_weight f (r_y (merged g)) (mean_at lk e).
Proof.
  intros Hc Hg Hy Hf. set (m := mean_at lk e). pose proof (mean_at_pos f lk e Hc) as Pm. fold m in Pm.
  assert (AFF : forall a b, lsumf (fun r => r_w r * (a + r_y r * b)) g = r_w (merged g) * (a + r_y (merged g) * b)).
  { intros a b. apply (cell_affine g (fun _ _ => a) (fun _ _ => b) Hg). }
  assert (EQ : forall a b, (forall y, pred_weight f y m = a + y * b) ->
     lsumf (fun r => r_w r * pred_weight f (r_y r) m) g <= r_w (merged g) * pred_weight f (r_y (merged g)) m).
  { intros a b H. rewrite (H (r_y (merged g))), <- AFF. apply Req_le, lsumf_ext. intros r _. rewrite H. reflexivity. }
  destruct f as [p| | | | | | |th]; cbn [pred_weight mean_range] in *.
  - destruct (Req_EM_T p 0); [apply (EQ 1 0); intros; ring|]. destruct (Req_EM_T p 1); [apply (EQ 1 0); intros; ring|].
    destruct (Req_EM_T p 2); [apply (EQ 0 (/ m)); intros; unfold Rdiv; ring|].
    assert (0 < m) by (apply Pm; assumption).
    pose proof (AFF 1 0) as A1. pose proof (AFF 0 (/ m)) as A2.
    assert (L1 : lsumf (fun r => r_w r * Rmin 1 (r_y r / m)) g <= lsumf (fun r => r_w r * (1 + r_y r * 0)) g).
    { apply lsumf_le. intros r Hr. apply Rmult_le_compat_l; [apply Hg, Hr|]. rewrite Rmult_0_r, Rplus_0_r. apply Rmin_l. }
    assert (L2 : lsumf (fun r => r_w r * Rmin 1 (r_y r / m)) g <= lsumf (fun r => r_w r * (0 + r_y r * / m)) g).
    { apply lsumf_le. intros r Hr. apply Rmult_le_compat_l; [apply Hg, Hr|]. rewrite Rplus_0_l. apply Rmin_r. }
    rewrite A1 in L1. rewrite A2 in L2. unfold Rmin at 2. destruct (Rle_dec 1 (r_y (merged g) / m)); unfold Rdiv in *; lra.
  - apply (EQ 1 0); intros; ring.
  - apply (EQ 1 0); intros; ring.
  - apply (EQ 0 (/ m)); intros; unfold Rdiv; ring.
  - apply (EQ 1 0); intros; ring.
  - apply (EQ 1 0); intros; ring.
  - apply (EQ 1 0); intros; ring.
  - apply (EQ (/ (1 + th * m)) (th * / (1 + th * m))); intros; unfold Rdiv; ring.
Qed.

Definition eta_row (p : nat) (b0 : R) (b x : nat -> R) (off : R) : R := b0 + rsum p (fun j => x j * b j) + off.
Lemma dev_ravg u rows b0 b :
  deviance (u_fam u) (map (fun i => mkobs (u_y (with_rows u rows) i) (u_w (with_rows u rows) i) (search_mean (u_fam u) (u_link u) (user_eta (with_rows u rows) b0 b i))) (seq 0 (u_n (with_rows u rows))))
  = ravg rows (fun x y off => devrow (u_fam u) y (search_mean (u_fam u) (u_link u) (eta_row (u_p u) b0 b x off))).
Proof. rewrite deviance_rows, lsumf_map, lsumf_seq. apply (sum_rows u rows (fun x y off => devrow (u_fam u) y (search_mean (u_fam u) (u_link u) (eta_row (u_p u) b0 b x off)))). Qed.
Lemma ravg_minus rows G H : ravg rows G - ravg rows H = ravg rows (fun x y off => G x y off - H x y off).
Proof.
  unfold ravg, Rdiv. rewrite <- Rmult_minus_distr_r, <- lsumf_minus. f_equal. apply lsumf_ext. intros. ring.
Qed.
Definition in_range (u : user) (b0 : R) (b : nat -> R) (rows : list row) : Prop :=
  forall r, In r rows -> mean_range (u_fam u) (search_mean (u_fam u) (u_link u) (eta_row (u_p u) b0 b (r_x r) (r_off r))).

Section Objective.
Variable cells : list (list row).
Hypothesis HC : List.Forall cell cells.
Variable u : user.
Notation full := (concat cells).
Notation agg := (map merged cells).
Notation u1 := (with_rows u full).
Notation u2 := (with_rows u agg).
Hypothesis HF : family_ok (u_fam u).
Hypothesis HY : forall r, In r full -> support (u_fam u) (r_y r) /\ dev_ok (u_fam u) (r_y r).

Lemma in_cell g r : In g cells -> In r g -> In r full.
Proof. intros A B. apply in_concat. exists g. split; assumption. Qed.
Lemma agg_y r : In r agg -> support (u_fam u) (r_y r) /\ dev_ok (u_fam u) (r_y r).
Proof.
  intros H. apply in_map_iff in H. destruct H as [g [<- Hg]]. rewrite Forall_forall in HC. pose proof (HC g Hg) as C.
  split; [apply support_merged|apply dev_ok_merged]; try exact C; intros r Hr; apply HY; eapply in_cell; eauto.
Qed.
Lemma agg_range b0 b : in_range u b0 b full -> in_range u b0 b agg.
Proof.
  intros H r Hr. apply in_map_iff in Hr. destruct Hr as [g [<- Hg]]. rewrite Forall_forall in HC. pose proof (HC g Hg) as C.
  apply (H (hd row0 g)). apply (in_cell g); [exact Hg|apply cell_head, C].
Qed.
Lemma dev_kern rows b0 b b0' b' : (forall r, In r rows -> support (u_fam u) (r_y r) /\ dev_ok (u_fam u) (r_y r)) ->
  in_range u b0 b rows -> in_range u b0' b' rows ->
  ravg rows (fun x y off => devrow (u_fam u) y (search_mean (u_fam u) (u_link u) (eta_row (u_p u) b0' b' x off)))
  - ravg rows (fun x y off => devrow (u_fam u) y (search_mean (u_fam u) (u_link u) (eta_row (u_p u) b0 b x off)))
  = ravg rows (fun x y off => kern (u_fam u) y (search_mean (u_fam u) (u_link u) (eta_row (u_p u) b0' b' x off))
                            - kern (u_fam u) y (search_mean (u_fam u) (u_link u) (eta_row (u_p u) b0 b x off))).
Proof.
  intros Y R1 R2. rewrite ravg_minus. unfold ravg. f_equal. apply lsumf_ext. intros r Hr. f_equal. destruct (Y r Hr) as [S D].
  rewrite !devrow_eq; try assumption; try (apply R1, Hr); try (apply R2, Hr).
  apply unit_kern; try assumption; [apply R1, Hr|apply R2, Hr].
Qed.
Lemma agg_col_scale : col_scale u1 = col_scale u2.
Proof. unfold col_scale. rewrite (agg_stds cells HC u). reflexivity. Qed.
Lemma agg_pen_scale : pen_scale u1 = pen_scale u2.
Proof. unfold pen_scale. rewrite agg_col_scale. reflexivity. Qed.
Lemma agg_obj k b0 b b0' b' : in_range u b0 b full -> in_range u b0' b' full ->
  user_obj u1 k b0' b' - user_obj u1 k b0 b = user_obj u2 k b0' b' - user_obj u2 k b0 b.
Proof.
  intros R1 R2. unfold user_obj. change (u_fam u1) with (u_fam u). change (u_fam u2) with (u_fam u).
  change (u_link u1) with (u_link u). change (u_link u2) with (u_link u). rewrite !dev_ravg.
  pose proof (dev_kern full b0 b b0' b' HY R1 R2) as E1.
  pose proof (dev_kern agg b0 b b0' b' agg_y (agg_range b0 b R1) (agg_range b0' b' R2)) as E2.
  set (mm := fun c0 c x off => search_mean (u_fam u) (u_link u) (eta_row (u_p u) c0 c x off)) in *.
  set (K := fun x y off => kern (u_fam u) y (mm b0' b' x off) - kern (u_fam u) y (mm b0 b x off)).
  assert (E3 : ravg full K = ravg agg K).
  { apply (cells_eq cells HC K (fun x off => kern (u_fam u) 0 (mm b0' b' x off) - kern (u_fam u) 0 (mm b0 b x off))
    (fun x off => (kern (u_fam u) 1 (mm b0' b' x off) - kern (u_fam u) 0 (mm b0' b' x off)) - (kern (u_fam u) 1 (mm b0 b x off) - kern (u_fam u) 0 (mm b0 b x off)))).
    intros x y off. unfold K. rewrite (kern_affine (u_fam u) y (mm b0' b' x off)), (kern_affine (u_fam u) y (mm b0 b x off)). ring. }
  unfold K, mm in E3.
  change (u_p u1) with (u_p u). change (u_p u2) with (u_p u). change (u_P2 u1) with (u_P2 u). change (u_P2 u2) with (u_P2 u).
  change (u_P1 u1) with (u_P1 u). change (u_P1 u2) with (u_P1 u). lra.
Qed.

Lemma agg_ok : user_ok u1 -> user_ok u2.
Proof.
  intros (F & Y & W & P). split; [exact F|]. split; [|split; [|exact P]].
  - intros i Hi. apply agg_y. apply nth_In. exact Hi.
  - intros i Hi. cbn [with_rows u_w]. rewrite w_nth. pose proof HC as HC'. rewrite Forall_forall in HC'.
    assert (M : exists g, In g cells /\ nth i agg row0 = merged g).
    { pose proof (nth_In agg row0 Hi) as N. apply in_map_iff in N. destruct N as [g [E N]]. exists g. split; [exact N|symmetry; exact E]. }
    destruct M as [g [Hg ->]]. pose proof (HC' g Hg) as [_ [Wg _]].
    assert (0 < wtot agg). { rewrite <- (cells_wtot cells HC). apply (cells_wpos cells HC). intros E. rewrite E in Hg. destruct Hg. }
    cbn [merged r_w]. left. apply Rmult_lt_0_compat; [exact Wg|apply Rinv_0_lt_compat; assumption].
Qed.

Lemma agg_pred b0 b b0' b' : user_ok u1 -> convex_pair (u_fam u) (u_link u) ->
  pred_dev u1 b0 b b0' b' <= pred_dev u2 b0 b b0' b'.
Proof.
  intros Hok Hc. rewrite (pred_dev_eq u1) by assumption. rewrite (pred_dev_eq u2) by (try apply agg_ok; assumption).
  change (u_fam u1) with (u_fam u). change (u_fam u2) with (u_fam u). change (u_link u1) with (u_link u). change (u_link u2) with (u_link u).
  set (lk := u_link u) in *. set (f := u_fam u) in *.
  set (gap := fun e e' => unit_deviance f (mean_at lk e) (mean_at lk e') - unit_deviance f (mean_at lk e) (mean_at lk e)).
  assert (GP : forall e e', 0 <= gap e e') by (intros e e'; unfold gap; pose proof (unit_min f lk e e' HF Hc); lra).
  set (G := fun x y off => pred_weight f y (mean_at lk (eta_row (u_p u) b0 b x off)) * gap (eta_row (u_p u) b0 b x off) (eta_row (u_p u) b0' b' x off)).
  assert (S1 : forall rows, rsum (u_n (with_rows u rows)) (fun i => u_w (with_rows u rows) i * pred_weight f (u_y (with_rows u rows) i) (mean_at lk (user_eta (with_rows u rows) b0 b i))
     * (unit_deviance f (mean_at lk (user_eta (with_rows u rows) b0 b i)) (mean_at lk (user_eta (with_rows u rows) b0' b' i))
        - unit_deviance f (mean_at lk (user_eta (with_rows u rows) b0 b i)) (mean_at lk (user_eta (with_rows u rows) b0 b i)))) = ravg rows G).
  { intros rows. rewrite <- (sum_rows u rows G). apply rsum_ext. intros i _. rewrite Rmult_assoc. reflexivity. }
  rewrite !S1. unfold ravg. rewrite (cells_wtot cells HC).
  destruct cells as [|g0 l0] eqn:Ec; [apply Rle_refl|]. rewrite <- Ec in *.
  assert (W : 0 < wtot agg) by (rewrite <- (cells_wtot cells HC); apply (cells_wpos cells HC); rewrite Ec; discriminate).
  apply Rmult_le_compat_r; [left; apply Rinv_0_lt_compat, W|]. rewrite lsumf_concat, lsumf_map. apply lsumf_le. intros g Hg.
  pose proof HC as HC'. rewrite Forall_forall in HC'. pose proof (HC' g Hg) as C.
  set (e := eta_row (u_p u) b0 b (r_x (merged g)) (r_off (merged g))). set (e' := eta_row (u_p u) b0' b' (r_x (merged g)) (r_off (merged g))).
  rewrite (lsumf_ext _ _ (fun r => gap e e' * (r_w r * pred_weight f (r_y r) (mean_at lk e)))).
  - rewrite lsumf_scal. unfold G. fold e e'.
    replace (r_w (merged g) * (pred_weight f (r_y (merged g)) (mean_at lk e) * gap e e')) with (gap e e' * (r_w (merged g) * pred_weight f (r_y (merged g)) (mean_at lk e))) by ring.
    apply Rmult_le_compat_l; [apply GP|]. apply pred_weight_jensen; try assumption. intros r Hr. apply HY. apply (in_cell g); assumption.
  - intros r Hr. unfold G. destruct (cell_row g r C Hr) as [-> ->]. fold e e'. ring.
Qed.
Lemma agg_near e sl D b0 b : user_ok u1 -> convex_pair (u_fam u) (u_link u) ->
  near_optimal u2 e sl D b0 b -> near_optimal u1 e sl D b0 b.
Proof.
  intros Hok Hc [A N]. split; [exact A|]. intros b0' b' K HD Hic HK HX.
  assert (RG : forall c0 c, in_range u c0 c full).
  { intros c0 c r _. replace (search_mean (u_fam u) (u_link u) (eta_row (u_p u) c0 c (r_x r) (r_off r))) with (mean_at (u_link u) (eta_row (u_p u) c0 c (r_x r) (r_off r))).
    - apply mean_at_pos, Hc.
    - symmetry. destruct (u_fam u), (u_link u); simpl in Hc; try tauto; cbn; unfold inverse1, raw_inverse; try reflexivity; unfold expit, Rdiv; rewrite ?Rmult_1_l; reflexivity. }
  specialize (N b0' b' K HD Hic HK). rewrite <- agg_pen_scale in N.
  pose proof (agg_obj (pen_scale u1) b0 b b0' b' (RG b0 b) (RG b0' b')) as E. pose proof (agg_pred b0 b b0' b' Hok Hc) as P.
  change (user_l2 u2 (pen_scale u1)) with (user_l2 u1 (pen_scale u1)) in N.
  assert (HX2 : std_close u2 K b0 b b0' b').
  { unfold std_close in *. rewrite <- agg_col_scale, <- (agg_means cells HC u). exact HX. }
  specialize (N HX2). lra.
Qed.
End Objective.

(** ** the same run of irls-cd *)
Definition oval (f : family) (lk : link) (y e : R) : R := snd (eta_mu_deviance f lk 1 (mksrow e 0 y 1 :: nil)).
Lemma oval_affine f lk y e : linear_pair f lk -> oval f lk y e = oval f lk 0 e + y * (oval f lk 1 e - oval f lk 0 e).
Proof.
  intros H. unfold oval, eta_mu_deviance.
  destruct f as [p| | | | | | |th], lk; simpl in H; try tauto;
  unfold poisson_log_emd, gamma_log_emd, tweedie_log_emd, binomial_logit_emd, negative_binomial_log_emd;
  repeat match goal with
   | |- context [Req_EM_T ?a ?b] => destruct (Req_EM_T a b)
   | |- context [Rlt_dec 1 ?b] => destruct (Rlt_dec 1 b)
   | |- context [Rlt_dec ?a 2] => destruct (Rlt_dec a 2)
  end; try (exfalso; lra); cbn [snd]; rewrite !lsumf_cons, !lsumf_nil; unfold new_eta; cbn [s_eta s_xd s_y s_w]; cbv zeta;
  try destruct (Rlt_dec 0 _); unfold Rdiv; ring.
Qed.
Lemma oval_dev f lk y e : family_ok f -> support f y -> oval f lk y e = devrow f y (search_mean f lk e) + emd_k f lk y 1.
Proof.
  intros Hf Hs. unfold oval. rewrite (eta_mu_deviance_spec f lk 1 (mksrow e 0 y 1 :: nil) Hf).
  - cbv zeta. cbn [snd map to_obs combine]. rewrite deviance_rows, !lsumf_cons, !lsumf_nil. cbn [s_eta s_xd s_y s_w ow oy omu fst snd].
    replace (e + 1 * 0) with e by ring. ring.
  - intros s [<-|[]]. exact Hs.
Qed.

Section Run.
Variable cells : list (list row).
Hypothesis HC : List.Forall cell cells.
Variable u : user.
Notation full := (concat cells).
Notation agg := (map merged cells).
Notation u1 := (with_rows u full).
Notation u2 := (with_rows u agg).

Lemma agg_std se : same_pb (std_problem u1 se) (std_problem u2 se).
Proof.
  constructor; try reflexivity; try (cbn; rewrite (agg_stds cells HC u); reflexivity).
  intros G HG. apply (agg_avg cells HC u se G (fun x off => G x 0 off) (fun x off => G x 1 off - G x 0 off)). exact HG.
Qed.
Lemma agg_score se P2 v k : (k < nc (std_problem u1 se))%nat ->
  score_of (std_problem u1 se) P2 v k = score_of (std_problem u2 se) P2 v k.
Proof.
  intros Hk. pose proof (agg_std se) as SP. unfold score_of. pose proof (same_xt_grad _ _ SP v k) as E. rewrite !xt_vec_xr in E.
  rewrite (same_nc _ _ SP). change (pb_ic (std_problem u1 se)) with (pb_ic (std_problem u2 se)). f_equal. exact E.
Qed.
Lemma obj_ravg se rows P2 c : rows_ok u rows -> linear_pair (u_fam u) (u_link u) ->
  train_obj (std_problem (with_rows u rows) se) P2 c + obj_k (std_problem (with_rows u rows) se)
  = / 2 * avg (std_problem (with_rows u rows) se)
      (fun x y off => oval (u_fam u) (u_link u) 0 (er (u_ic u) (u_p u) c x off)
         + y * (oval (u_fam u) (u_link u) 1 (er (u_ic u) (u_p u) c x off) - oval (u_fam u) (u_link u) 0 (er (u_ic u) (u_p u) c x off)))
    + / 2 * l2_form (std_problem (with_rows u rows) se) P2 c + l1_form (std_problem (with_rows u rows) se) c.
Proof.
  intros (Hf & Hy & _) HL. unfold train_obj, smooth_obj, half_deviance, obj_k, fitted. rewrite deviance_rows, lsumf_map, lsumf_seq. cbn [ow oy omu].
  assert (E : forall a b d e g : R, a + b = d -> / 2 * a + / 2 * e + g + / 2 * b = / 2 * d + / 2 * e + g) by (intros; lra).
  apply E. clear E. unfold avg. rewrite <- rsum_plus. apply rsum_ext. intros i Hi. rewrite eta_er.
  change (pb_ic (std_problem (with_rows u rows) se)) with (u_ic u). change (pb_p (std_problem (with_rows u rows) se)) with (u_p u).
  change (pb_fam (std_problem (with_rows u rows) se)) with (u_fam u). change (pb_link (std_problem (with_rows u rows) se)) with (u_link u).
  rewrite emd_k_lin, <- oval_affine by exact HL. rewrite oval_dev; [ring|exact Hf|apply Hy, nth_In; exact Hi].
Qed.
Lemma agg_rows_ok : rows_ok u full -> rows_ok u agg.
Proof.
  intros (Hf & Hy & HP). split; [exact Hf|]. split; [|exact HP]. intros r Hr. apply in_map_iff in Hr. destruct Hr as [g [<- Hg]].
  pose proof HC as HC'. rewrite Forall_forall in HC'. apply support_merged; [apply HC', Hg|]. intros r Hr. apply Hy. apply (in_cell cells g); assumption.
Qed.
Lemma agg_val se : rows_ok u full -> linear_pair (u_fam u) (u_link u) -> same_obj (std_problem u1 se) (std_problem u2 se).
Proof.
  intros Hok HL P2 c. rewrite !obj_ravg by (try apply agg_rows_ok; assumption). pose proof (agg_std se) as SP.
  assert (EL : l1_form (std_problem u1 se) c = l1_form (std_problem u2 se) c).
  { unfold l1_form. rewrite (same_nc _ _ SP), (sp_P1 _ _ SP), (sp_ic _ _ SP). reflexivity. }
  assert (E2 : l2_form (std_problem u1 se) P2 c = l2_form (std_problem u2 se) P2 c).
  { unfold l2_form. rewrite (same_nc _ _ SP), (sp_ic _ _ SP). reflexivity. }
  rewrite EL, E2. f_equal. f_equal. f_equal. apply (sp_avg _ _ SP). intros x y off. ring.
Qed.
Lemma agg_supp (P : (nat -> R) -> R -> Prop) :
  (forall r, In r full -> P (r_x r) (r_off r)) <-> (forall r, In r agg -> P (r_x r) (r_off r)).
Proof.
  pose proof HC as HC'. rewrite Forall_forall in HC'. split; intros H r Hr.
  - apply in_map_iff in Hr. destruct Hr as [g [<- Hg]]. apply (H (hd row0 g)). apply (in_cell cells g); [exact Hg|apply cell_head, HC', Hg].
  - apply in_concat in Hr. destruct Hr as [g [Hg Hr]]. destruct (cell_row g r (HC' g Hg) Hr) as [-> ->]. apply H. apply in_map. exact Hg.
Qed.
Lemma agg_large se : same_large (std_problem u1 se) (std_problem u2 se).
Proof.
  intros c. cbn [std_problem pb_n pb_large].
  set (P := fun (x : nat -> R) (off : R) => mr (u_fam u) (u_link u) (u_ic u) (u_p u) c (fun j => x j * one_over (u_stds u2 j) + - u_means u2 j * one_over (u_stds u2 j)) off < se_large se).
  transitivity (forall r, In r full -> P (r_x r) (r_off r)); [|transitivity (forall r, In r agg -> P (r_x r) (r_off r)); [apply agg_supp|]].
  - rewrite <- (supp_rows full (fun x _ off => P x off)). split; intros H i Hi; specialize (H i Hi).
    + rewrite mean_mr in H. cbn [std_problem pb_fam pb_link pb_ic pb_p pb_X pb_off] in H. rewrite (agg_means cells HC u), (agg_stds cells HC u) in H. exact H.
    + rewrite mean_mr. cbn [std_problem pb_fam pb_link pb_ic pb_p pb_X pb_off]. rewrite (agg_means cells HC u), (agg_stds cells HC u). exact H.
  - rewrite <- (supp_rows agg (fun x _ off => P x off)). split; intros H i Hi; specialize (H i Hi).
    + rewrite mean_mr. exact H.
    + rewrite mean_mr in H. exact H.
Qed.
Lemma agg_all_equal : all_equal (grows u full) = true -> all_equal (grows u agg) = true.
Proof.
  rewrite !all_equal_rows. intros [A [v B]]. pose proof HC as HC'. rewrite Forall_forall in HC'. split.
  - intros E. apply A. apply map_eq_nil in E. rewrite E. reflexivity.
  - exists v. intros r Hr. apply in_map_iff in Hr. destruct Hr as [g [<- Hg]]. pose proof (HC' g Hg) as [_ [W _]].
    cbn [merged r_y]. rewrite (lsumf_ext _ _ (fun r => v * r_w r)), lsumf_scal; [field; lra|].
    intros r Hr. rewrite (B r (in_cell cells g r Hg Hr)). ring.
Qed.
Lemma agg_guess has : u_link u = IdentityL \/ all_equal (grows u agg) = false ->
  guess_intercept (u_fam u) (u_link u) has (grows u full) = guess_intercept (u_fam u) (u_link u) has (grows u agg).
Proof.
  intros H. unfold guess_intercept.
  assert (E : (match u_link u with IdentityL => false | _ => true end && all_equal (grows u full))%bool
            = (match u_link u with IdentityL => false | _ => true end && all_equal (grows u agg))%bool).
  { destruct H as [->|H]; [reflexivity|]. rewrite H. destruct (all_equal (grows u full)) eqn:EF; [|reflexivity].
    apply agg_all_equal in EF. congruence. }
  rewrite E. clear E. match goal with |- (if ?c then _ else _) = _ => destruct c end; [reflexivity|]. f_equal.
  assert (G : forall F A B, (forall y e, F y e = A e + y * B e) ->
     lsumf (fun g => F (g_y g) (g_eta g) * g_w g) (grows u full) = lsumf (fun g => F (g_y g) (g_eta g) * g_w g) (grows u agg)).
  { intros F A B HF. rewrite !grows_sum. apply (cells_eq cells HC _ (fun _ e => A e) (fun _ e => B e)). intros. apply HF. }
  assert (T : lsumf g_w (grows u full) = lsumf g_w (grows u agg)).
  { rewrite !grows_tot. apply (cells_eq cells HC _ (fun _ _ => 1) (fun _ _ => 0)). intros. ring. }
  pose proof (G (fun y _ => y) (fun _ => 0) (fun _ => 1) ltac:(intros; cbv beta; ring)) as G1. cbv beta in G1.
  pose proof (G (fun _ e => e) (fun e => e) (fun _ => 0) ltac:(intros; cbv beta; ring)) as G0. cbv beta in G0.
  assert (Y : gavg g_y (grows u full) = gavg g_y (grows u agg)) by (unfold gavg; rewrite T, G1; reflexivity).
  assert (O : gavg g_eta (grows u full) = gavg g_eta (grows u agg)) by (unfold gavg; rewrite T, G0; reflexivity).
  pose proof (G (fun y e => y * Rpower (exp e) (1 - guess_power (u_fam u))) (fun _ => 0) (fun e => Rpower (exp e) (1 - guess_power (u_fam u))) ltac:(intros; cbv beta; ring)) as G2.
  pose proof (G (fun y e => Rpower (exp e) (2 - guess_power (u_fam u))) (fun e => Rpower (exp e) (2 - guess_power (u_fam u))) (fun _ => 0) ltac:(intros; cbv beta; ring)) as G3. cbv beta in G2, G3.
  rewrite Y, O. cbv zeta. rewrite G1, G2, G3. reflexivity.
Qed.
Lemma agg_fit se seed guess a : rows_ok u full -> linear_pair (u_fam u) (u_link u) -> se_approx se = 0 -> seeds_ok seed ->
  fit_cd u1 se seed guess a = fit_cd u2 se seed guess a.
Proof.
  intros Hok HL HA Hs. apply fit_cd_same'; try assumption; [apply (agg_means cells HC u)|apply (agg_stds cells HC u)|apply agg_std|apply agg_val; assumption|apply agg_large|apply agg_rows_ok; assumption].
Qed.
End Run.
