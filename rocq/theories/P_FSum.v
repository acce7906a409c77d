(** Theorems C83: sums over rows in floating point. *)
From Coq Require Import Reals ZArith Lra Lia List Permutation. Import ListNotations.
From Flocq Require Import Core Relative.
From Verif Require Import Base M_Dist M_Float S_Float L_Float M_FSum S_FSum S_Par L_KKT L_Rows P_FCD.
Local Open Scope R_scope.

Section Sums.
Variables p e0 : Z.
Hypothesis Hp : (1 < p)%Z.
Local Notation r := (rnd p e0).
Local Notation fl := (is_float p e0).
Local Notation u := (powerRZ 2 (- p)).
Lemma u_bpow : u = bpow radix2 (- p).
Proof. rewrite bpow_powerRZ. reflexivity. Qed.
Lemma u_pos : 0 < u.
Proof. rewrite u_bpow. apply bpow_gt_0. Qed.
Lemma growth_nonneg k : 0 <= growth p k.
Proof. unfold growth. pose proof u_pos. assert (1 <= (1 + u) ^ k) by (apply pow_R1_Rle; lra). lra. Qed.
Lemma growth_mono j k : (j <= k)%nat -> growth p j <= growth p k.
Proof. intros H. unfold growth. pose proof u_pos. assert ((1 + u) ^ j <= (1 + u) ^ k) by (apply Rle_pow; [lra|exact H]). lra. Qed.
Lemma growth_S k : growth p (S k) = growth p k + u * (1 + growth p k).
Proof. unfold growth. cbn [pow]. ring. Qed.
Lemma abs_total l : Rabs (lsumf (fun x => x) l) <= lsumf Rabs l.
Proof.
  induction l as [|x l IH]; [rewrite !lsumf_nil, Rabs_R0; lra|]. rewrite !lsumf_cons. eapply Rle_trans; [apply Rabs_triang|]. lra.
Qed.
Lemma abs_nonneg (l : list R) : 0 <= lsumf Rabs l.
Proof. induction l as [|x l IH]; [rewrite lsumf_nil; lra|]. rewrite lsumf_cons. pose proof (Rabs_pos x). lra. Qed.
Lemma tree_float t : (forall x, In x (leaves t) -> fl x) -> fl (f_tree r t).
Proof. destruct t as [x|a b]; intros H; [apply H; left; reflexivity|apply rnd_float, Hp]. Qed.
Lemma lsumf_two {A} (f : A -> R) l1 l2 : lsumf f (l1 ++ l2) = lsumf f l1 + lsumf f l2.
Proof. induction l1 as [|x l1 IH]; cbn [app]; [rewrite lsumf_nil; ring|]. rewrite !lsumf_cons, IH. ring. Qed.

(** However the terms are added up, the result differs from their sum by at most (1 + 2^-p)^depth - 1 times the
    sum of their absolute values. *)
Theorem C83_any_order : forall t, (forall x, In x (leaves t) -> fl x) ->
  Rabs (f_tree r t - lsumf (fun x => x) (leaves t)) <= growth p (depth t) * lsumf Rabs (leaves t).
Proof.
  induction t as [x|a IHa b IHb]; intros H.
  - cbn. rewrite Rplus_0_r, Rminus_diag_eq, Rabs_R0 by reflexivity. unfold growth. cbn. pose proof (Rabs_pos x). lra.
  - assert (Ha : forall x, In x (leaves a) -> fl x) by (intros; apply H, in_or_app; auto).
    assert (Hb : forall x, In x (leaves b) -> fl x) by (intros; apply H, in_or_app; auto).
    specialize (IHa Ha). specialize (IHb Hb). cbn [f_tree leaves depth]. rewrite !lsumf_two.
    set (sa := lsumf (fun x => x) (leaves a)) in *. set (sb := lsumf (fun x => x) (leaves b)) in *.
    pose proof (abs_total (leaves a)) as Ta. pose proof (abs_total (leaves b)) as Tb. fold sa in Ta. fold sb in Tb.
    pose proof (abs_nonneg (leaves a)) as Na. pose proof (abs_nonneg (leaves b)) as Nb.
    set (A := lsumf Rabs (leaves a)) in *. set (B := lsumf Rabs (leaves b)) in *.
    pose proof (growth_mono (depth a) (Nat.max (depth a) (depth b)) ltac:(lia)) as Ga.
    pose proof (growth_mono (depth b) (Nat.max (depth a) (depth b)) ltac:(lia)) as Gb.
    rewrite growth_S. set (g := growth p (Nat.max (depth a) (depth b))) in *.
    pose proof (growth_nonneg (Nat.max (depth a) (depth b))) as G0. fold g in G0.
    pose proof (rnd_add_err p e0 Hp (f_tree r a) (f_tree r b) (tree_float a Ha) (tree_float b Hb)) as E. rewrite <- u_bpow in E.
    set (x := f_tree r a) in *. set (y := f_tree r b) in *.
    assert (Ia : Rabs (x - sa) <= g * A) by nra. assert (Ib : Rabs (y - sb) <= g * B) by nra.
    assert (Sm : Rabs (x + y - (sa + sb)) <= g * (A + B)).
    { replace (x + y - (sa + sb)) with ((x - sa) + (y - sb)) by ring. eapply Rle_trans; [apply Rabs_triang|]. lra. }
    assert (M : Rabs (x + y) <= (1 + g) * (A + B)).
    { replace (x + y) with ((x + y - (sa + sb)) + (sa + sb)) by ring. eapply Rle_trans; [apply Rabs_triang|].
      pose proof (Rabs_triang sa sb). nra. }
    replace (r (x + y) - (sa + sb)) with ((r (x + y) - (x + y)) + (x + y - (sa + sb))) by ring.
    eapply Rle_trans; [apply Rabs_triang|]. pose proof u_pos as U.
    assert (u * Rabs (x + y) <= u * ((1 + g) * (A + B))) by (apply Rmult_le_compat_l; lra). nra.
Qed.

(** the reduction as a tree *)
Definition comb (acc : tree) (l : list tree) : tree := fold_left Node l acc.
Lemma comb_eval l : forall acc, f_tree r (comb acc l) = fold_left (fun s t => r (s + f_tree r t)) l (f_tree r acc).
Proof. induction l as [|t l IH]; intros acc; [reflexivity|]. change (comb acc (t :: l)) with (comb (Node acc t) l). rewrite IH. reflexivity. Qed.
Lemma comb_leaves l : forall acc, leaves (comb acc l) = (leaves acc ++ concat (map leaves l))%list.
Proof. induction l as [|t l IH]; intros acc; cbn; [rewrite app_nil_r; reflexivity|]. unfold comb in IH. rewrite IH. cbn. rewrite app_assoc. reflexivity. Qed.
Lemma comb_depth d l : (forall t, In t l -> (depth t <= d)%nat) -> forall acc, (depth acc <= d)%nat -> (depth (comb acc l) <= d + length l)%nat.
Proof.
  revert d. induction l as [|t l IH]; intros d H acc Ha; cbn; [lia|].
  replace (d + S (length l))%nat with (S d + length l)%nat by lia. apply (IH (S d)).
  - intros t' Ht. specialize (H t' (or_intror Ht)). lia.
  - cbn. specialize (H t (or_introl eq_refl)). lia.
Qed.
Definition thread_tree (t : nat -> R) (rows : list nat) : tree := comb (Leaf 0) (map (fun i => Leaf (t i)) rows).
Definition reduce_tree (t : nat -> R) (chunks : list (list nat)) : tree := comb (Leaf 0) (map (thread_tree t) chunks).
Lemma fold_map {A B C} (f : A -> C -> A) (g : B -> C) l : forall a, fold_left f (map g l) a = fold_left (fun x y => f x (g y)) l a.
Proof. induction l as [|b l IH]; intros a; [reflexivity|]. cbn. apply IH. Qed.
Lemma thread_eval t rows : f_tree r (thread_tree t rows) = f_thread r t rows.
Proof. unfold thread_tree. rewrite comb_eval, fold_map. reflexivity. Qed.
Lemma fold_ext {A B} (f g : A -> B -> A) l : (forall a b, f a b = g a b) -> forall a, fold_left f l a = fold_left g l a.
Proof. intros H. induction l as [|b l IH]; intros a; [reflexivity|]. cbn. rewrite H. apply IH. Qed.
Lemma reduce_eval t chunks : f_tree r (reduce_tree t chunks) = f_reduce r t chunks.
Proof. unfold reduce_tree, f_reduce. rewrite comb_eval, fold_map. apply fold_ext. intros a b. rewrite thread_eval. reflexivity. Qed.
Lemma thread_leaves t rows : leaves (thread_tree t rows) = 0 :: map t rows.
Proof.
  unfold thread_tree. rewrite comb_leaves, map_map. cbn [leaves app]. f_equal. induction rows as [|i rows IH]; [reflexivity|]. cbn. rewrite IH. reflexivity.
Qed.
Lemma reduce_sum (f : R -> R) t chunks : f 0 = 0 -> lsumf f (leaves (reduce_tree t chunks)) = lsumf (fun i => f (t i)) (concat chunks).
Proof.
  intros Z. unfold reduce_tree. rewrite comb_leaves, map_map. cbn [leaves app]. rewrite lsumf_cons, Z, Rplus_0_l.
  induction chunks as [|c chunks IH]; [reflexivity|]. cbn [map concat]. rewrite !lsumf_two, IH, thread_leaves, lsumf_cons, Z, lsumf_map. ring.
Qed.
Lemma longest_in c chunks : In c chunks -> (length c <= longest chunks)%nat.
Proof. induction chunks as [|b l IH]; [contradiction|]. change (longest (b :: l)) with (Nat.max (length b) (longest l)).
  intros [E|H]; [rewrite E; lia|]. specialize (IH H). lia. Qed.
Lemma reduce_depth t chunks : (depth (reduce_tree t chunks) <= longest chunks + length chunks)%nat.
Proof.
  unfold reduce_tree. rewrite <- (map_length (thread_tree t) chunks). apply comb_depth; [|cbn; lia].
  intros x Hx. apply in_map_iff in Hx. destruct Hx as [c [<- Hc]]. pose proof (longest_in c chunks Hc) as L.
  unfold thread_tree. pose proof (comb_depth 0 (map (fun i => Leaf (t i)) c)) as D. rewrite map_length in D.
  eapply Nat.le_trans; [apply D|cbn; lia]; [|cbn; lia].
  intros y Hy. apply in_map_iff in Hy. destruct Hy as [i [<- _]]. cbn. lia.
Qed.
Lemma division_sum (f : nat -> R) n chunks : division n chunks -> lsumf f (concat chunks) = rsum n f.
Proof. intros D. rewrite <- lsumf_seq. apply lsumf_perm. exact D. Qed.

(** A reduction over n rows, for every division of the rows among threads, every order within the threads and
    every order in which OpenMP adds up the accumulators. *)
Theorem C83_reduction : forall t n chunks, division n chunks -> (forall i, (i < n)%nat -> fl (t i)) ->
  Rabs (f_reduce r t chunks - rsum n t) <= growth p (longest chunks + length chunks) * rsum n (fun i => Rabs (t i)).
Proof.
  intros t n chunks D F. rewrite <- reduce_eval.
  assert (L : forall x, In x (leaves (reduce_tree t chunks)) -> fl x).
  { intros x Hx. unfold reduce_tree in Hx. rewrite comb_leaves in Hx. cbn [leaves app] in Hx. destruct Hx as [<-|Hx]; [apply float_0, Hp|].
    apply in_concat in Hx. destruct Hx as [y [Hy Hx]]. apply in_map_iff in Hy. destruct Hy as [tr [<- Hy]]. apply in_map_iff in Hy. destruct Hy as [c [<- Hc]].
    rewrite thread_leaves in Hx. destruct Hx as [<-|Hx]; [apply float_0, Hp|]. apply in_map_iff in Hx. destruct Hx as [i [<- Hi]]. apply F.
    assert (I : In i (seq 0 n)) by (apply (Permutation_in _ D), in_concat; eauto). apply in_seq in I. lia. }
  pose proof (C83_any_order (reduce_tree t chunks) L) as E.
  rewrite !reduce_sum in E by (try reflexivity; apply Rabs_R0). rewrite !(division_sum _ n chunks D) in E.
  eapply Rle_trans; [exact E|]. apply Rmult_le_compat_r; [apply rsum_nonneg; intros; apply Rabs_pos|]. apply growth_mono, reduce_depth.
Qed.
(** hence two runs with different numbers of threads or schedules *)
Theorem C83_threads : forall t n chunks chunks', division n chunks -> division n chunks' -> (forall i, (i < n)%nat -> fl (t i)) ->
  Rabs (f_reduce r t chunks - f_reduce r t chunks') <=
    (growth p (longest chunks + length chunks) + growth p (longest chunks' + length chunks')) * rsum n (fun i => Rabs (t i)).
Proof.
  intros t n c c' D D' F. pose proof (C83_reduction t n c D F) as A. pose proof (C83_reduction t n c' D' F) as B.
  replace (f_reduce r t c - f_reduce r t c') with ((f_reduce r t c - rsum n t) + - (f_reduce r t c' - rsum n t)) by ring.
  eapply Rle_trans; [apply Rabs_triang|]. rewrite Rabs_Ropp. lra.
Qed.

(** The deviance of the normal family: relatively accurate when nothing underflows. *)
Lemma rel_err x : no_underflow p e0 x -> Rabs (r x - x) <= u * Rabs x.
Proof.
  intros [->|H]; [rewrite rnd_0, Rminus_0_r, Rabs_R0; lra|].
  assert (B : powerRZ 2 (e0 + p - 1) = bpow radix2 (e0 + p - 1)) by (rewrite bpow_powerRZ; reflexivity). rewrite B in H.
  pose proof (relative_error_N_FLT radix2 e0 p ltac:(lia) (fun t => negb (Z.even t)) x H) as E.
  assert (B1 : / 2 * bpow radix2 (- p + 1) = bpow radix2 (- p)) by (rewrite bpow_plus; change (bpow radix2 1) with 2; field).
  rewrite B1 in E. rewrite u_bpow. exact E.
Qed.
Lemma between x y d : 0 <= d -> Rabs (x - y) <= d * Rabs y -> exists q, x = y * (1 + q) /\ Rabs q <= d.
Proof.
  intros Hd H. destruct (Req_dec y 0) as [->|N].
  - exists 0. rewrite Rabs_R0, Rmult_0_r in H. pose proof (Rabs_pos (x - 0)) as P. assert (Z : Rabs (x - 0) = 0) by lra.
    destruct (Req_dec (x - 0) 0) as [E|E]; [|apply Rabs_no_R0 in E; lra]. split; [lra|]. rewrite Rabs_R0. exact Hd.
  - exists ((x - y) / y). split; [field; exact N|]. unfold Rdiv. rewrite Rabs_mult, Rabs_inv.
    apply Rmult_le_reg_r with (Rabs y); [apply Rabs_pos_lt, N|]. rewrite Rmult_assoc, Rinv_l by (apply Rabs_no_R0, N). lra.
Qed.
Theorem C83_normal_deviance : forall y w mu n chunks, division n chunks ->
  (forall i, (i < n)%nat -> fl (y i) /\ fl (w i) /\ fl (mu i) /\ 0 <= w i) ->
  (forall i, (i < n)%nat -> let d := r (y i - mu i) in no_underflow p e0 (d * d) /\ no_underflow p e0 (w i * r (d * d))) ->
  let D := deviance NormalF (map (fun i => mkobs (y i) (w i) (mu i)) (seq 0 n)) in
  Rabs (f_normal_deviance r y w mu chunks - D) <= growth p (longest chunks + length chunks + 4) * D.
Proof.
  intros y w mu n chunks Dv F NU D.
  set (T := fun i => w i * (y i - mu i) ^ 2).
  assert (DE : D = rsum n T).
  { unfold D, deviance, normal_deviance. rewrite lsumf_map, lsumf_seq. apply rsum_ext. intros i _. cbn [oy ow omu]. unfold T. ring. }
  assert (T0 : forall i, (i < n)%nat -> 0 <= T i).
  { intros i Hi. destruct (F i Hi) as [_ [_ [_ W]]]. unfold T. apply Rmult_le_pos; [exact W|apply pow2_ge_0]. }
  pose proof u_pos as U.
  assert (TE : forall i, (i < n)%nat -> Rabs (f_normal_term r y w mu i - T i) <= growth p 4 * T i).
  { intros i Hi. destruct (F i Hi) as [Fy [Fw [Fm W]]]. destruct (NU i Hi) as [N1 N2]. unfold f_normal_term. cbv zeta.
    set (d := r (y i - mu i)) in *.
    pose proof (rnd_add_err p e0 Hp (y i) (- mu i) Fy (float_opp _ _ _ Fm)) as E1. fold (y i - mu i) in E1. fold d in E1. rewrite <- u_bpow in E1.
    destruct (between _ _ u (Rlt_le _ _ U) E1) as [q1 [Q1 B1]].
    destruct (between _ _ u (Rlt_le _ _ U) (rel_err _ N1)) as [q2 [Q2 B2]].
    destruct (between _ _ u (Rlt_le _ _ U) (rel_err _ N2)) as [q3 [Q3 B3]].
    rewrite Q3, Q2, Q1. unfold T.
    replace (w i * ((y i - mu i) * (1 + q1) * ((y i - mu i) * (1 + q1)) * (1 + q2)) * (1 + q3) - w i * (y i - mu i) ^ 2)
      with (w i * (y i - mu i) ^ 2 * ((1 + q1) * (1 + q1) * (1 + q2) * (1 + q3) - 1)) by ring.
    fold (T i). rewrite Rabs_mult, (Rabs_right (T i)) by (apply Rle_ge, T0, Hi). rewrite Rmult_comm. apply Rmult_le_compat_r; [apply T0, Hi|].
    apply Rabs_le_inv in B1, B2, B3. unfold growth. cbn [pow]. rewrite Rmult_1_r.
    assert (U1 : u <= / 2). { rewrite u_bpow. change (/ 2) with (bpow radix2 (-1)). apply bpow_le. lia. }
    set (v := u) in *. clearbody v.
    assert (A1 : 0 <= (1 + q1) <= 1 + v) by lra. assert (A2 : 0 <= (1 + q2) <= 1 + v) by lra. assert (A3 : 0 <= (1 + q3) <= 1 + v) by lra.
    assert (L : forall a b c d, 0 <= a <= b -> 0 <= c <= d -> 0 <= a * c <= b * d) by (intros; split; [apply Rmult_le_pos; lra|apply Rmult_le_compat; lra]).
    assert (Lo : forall a b c d, 0 <= b <= a -> 0 <= d <= c -> 0 <= b * d <= a * c) by (intros; split; [apply Rmult_le_pos; lra|apply Rmult_le_compat; lra]).
    pose proof (L _ _ _ _ (L _ _ _ _ (L _ _ _ _ A1 A1) A2) A3) as UP.
    assert (C1 : 0 <= 1 - v <= 1 + q1) by lra. assert (C2 : 0 <= 1 - v <= 1 + q2) by lra. assert (C3 : 0 <= 1 - v <= 1 + q3) by lra.
    pose proof (L _ _ _ _ (L _ _ _ _ (L _ _ _ _ C1 C1) C2) C3) as LO.
    apply Rabs_le. split; [|lra].
    assert (K : (1 - v) * (1 - v) * (1 - v) * (1 - v) + (1 + v) * ((1 + v) * ((1 + v) * (1 + v))) >= 2) by nra. lra. }
  assert (TF : forall i, (i < n)%nat -> fl (f_normal_term r y w mu i)) by (intros; apply rnd_float, Hp).
  pose proof (C83_reduction (f_normal_term r y w mu) n chunks Dv TF) as E.
  unfold f_normal_deviance. rewrite DE. set (k := (longest chunks + length chunks)%nat) in *.
  assert (S1 : Rabs (rsum n (f_normal_term r y w mu) - rsum n T) <= growth p 4 * rsum n T).
  { rewrite <- rsum_minus, <- rsum_scal. eapply Rle_trans; [apply Rabs_rsum_le|]. apply rsum_le. intros i Hi. apply TE, Hi. }
  assert (S2 : rsum n (fun i => Rabs (f_normal_term r y w mu i)) <= (1 + growth p 4) * rsum n T).
  { rewrite <- rsum_scal. apply rsum_le. intros i Hi. specialize (TE i Hi). specialize (T0 i Hi).
    replace (f_normal_term r y w mu i) with ((f_normal_term r y w mu i - T i) + T i) by ring. eapply Rle_trans; [apply Rabs_triang|].
    rewrite (Rabs_right (T i)) by lra. lra. }
  assert (S0 : 0 <= rsum n T) by (apply rsum_nonneg, T0).
  set (fr := f_reduce r (f_normal_term r y w mu) chunks) in *.
  replace (fr - rsum n T) with ((fr - rsum n (f_normal_term r y w mu)) + (rsum n (f_normal_term r y w mu) - rsum n T)) by ring.
  eapply Rle_trans; [apply Rabs_triang|].
  assert (GG : growth p (k + 4) = growth p k * (1 + growth p 4) + growth p 4) by (unfold growth; rewrite pow_add; ring).
  pose proof (growth_nonneg k) as G0.
  assert (growth p k * rsum n (fun i => Rabs (f_normal_term r y w mu i)) <= growth p k * ((1 + growth p 4) * rsum n T)) by (apply Rmult_le_compat_l; assumption).
  rewrite GG. nra.
Qed.
End Sums.

(** Which threads take which rows does change the result: three rows, one thread or two. *)
Definition ex83_c : R := 3 * / IZR 36028797018963968.
Definition ex83_t (i : nat) : R := match i with 0%nat => 1 | _ => ex83_c end.
Lemma ex83_fc : float64 ex83_c /\ float64 (2 * ex83_c).
Proof.
  assert (E : powerRZ 2 (-55) = / IZR 36028797018963968) by (change (powerRZ 2 (-55)) with (/ 2 ^ 55); f_equal; cbn; lra).
  split; [exists 3%Z, (-55)%Z|exists 6%Z, (-55)%Z]; (split; [reflexivity|split; [lia|rewrite E; unfold ex83_c; lra]]).
Qed.
Lemma ex83_one x M : 1 <= x < 2 -> Rabs (x * IZR 4503599627370496 - IZR M) < / 2 -> rnd64 x = IZR M * / IZR 4503599627370496.
Proof.
  intros Hx Hm. rewrite (rnd64_near x M (-52)); [f_equal|lia| |].
  - change (bpow radix2 (-52 + 52)) with 1. change (bpow radix2 (-52 + 53)) with 2. exact Hx.
  - change (bpow radix2 (- -52)) with (IZR 4503599627370496). exact Hm.
Qed.
Lemma ex83_sums : rnd64 (1 + ex83_c) = 1 /\ rnd64 (1 + 2 * ex83_c) = 1 + / 2 ^ 52.
Proof.
  split.
  - rewrite (ex83_one _ 4503599627370496); [lra| |]; unfold ex83_c; [lra|apply Rabs_def1; lra].
  - rewrite (ex83_one _ 4503599627370497); [replace (2 ^ 52) with 4503599627370496 by (cbn; lra); lra| |]; unfold ex83_c; [lra|apply Rabs_def1; lra].
Qed.
Lemma ex83_div1 : division 3 ((0 :: 1 :: 2 :: nil) :: nil)%nat.
Proof. apply Permutation_refl. Qed.
Lemma ex83_div2 : division 3 ((0 :: nil) :: (1 :: 2 :: nil) :: nil)%nat.
Proof. apply Permutation_refl. Qed.
Theorem C83_not_reproducible : exists t chunks chunks', (forall i, float64 (t i)) /\ division 3 chunks /\ division 3 chunks' /\
  f_reduce rnd64 t chunks <> f_reduce rnd64 t chunks'.
Proof.
  exists ex83_t, ((0 :: 1 :: 2 :: nil) :: nil)%nat, ((0 :: nil) :: (1 :: 2 :: nil) :: nil)%nat.
  destruct ex83_fc as [FC FC2]. destruct ex83_sums as [S1 S2].
  assert (F1 : float64 1) by (apply (f64_int 1); reflexivity).
  assert (I : forall x, float64 x -> rnd64 x = x) by (intros x; apply (rnd_id 53 (-1074) P53)).
  split; [intros [|i]; assumption|]. split; [exact ex83_div1|]. split; [exact ex83_div2|].
  unfold f_reduce, f_thread. cbn [fold_left ex83_t]. rewrite !Rplus_0_l, !(I 1 F1), !(I ex83_c FC), S1, S1, (I 1 F1).
  replace (ex83_c + ex83_c) with (2 * ex83_c) by ring. rewrite (I _ FC2), S2.
  intros E. assert (0 < / 2 ^ 52) by (apply Rinv_0_lt_compat, pow_lt; lra). lra.
Qed.
Print Assumptions C83_any_order.
Print Assumptions C83_reduction.
Print Assumptions C83_threads.
Print Assumptions C83_normal_deviance.
Print Assumptions C83_not_reproducible.
(** the hypotheses of C83_normal_deviance (which include those of C83_reduction): two rows, two threads *)
Example C83_nonvacuous :
  let y := fun i : nat => IZR (Z.of_nat i) in let w := fun _ : nat => 1 in let mu := fun _ : nat => 3 in
  division 2 ((1 :: nil) :: (0 :: nil) :: nil)%nat /\
  (forall i, (i < 2)%nat -> float64 (y i) /\ float64 (w i) /\ float64 (mu i) /\ 0 <= w i) /\
  (forall i, (i < 2)%nat -> let d := rnd64 (y i - mu i) in no_underflow 53 (-1074) (d * d) /\ no_underflow 53 (-1074) (w i * rnd64 (d * d))) /\
  deviance NormalF (map (fun i => mkobs (y i) (w i) (mu i)) (seq 0 2)) = 13.
Proof.
  assert (K : forall z, (Z.abs z < 2 ^ 53)%Z -> float64 (IZR z)) by exact f64_int.
  assert (I : forall x, float64 x -> rnd64 x = x) by (intros x; apply (rnd_id 53 (-1074) P53)).
  assert (B : powerRZ 2 (-1074 + 53 - 1) <= 1).
  { change (-1074 + 53 - 1)%Z with (-1022)%Z. change 1 with (bpow radix2 0). replace (powerRZ 2 (-1022)) with (bpow radix2 (-1022)) by (rewrite bpow_powerRZ; reflexivity).
    apply bpow_le. lia. }
  cbv zeta. split; [apply Permutation_sym, perm_swap|]. split; [|split].
  - intros i Hi. assert (Hi' : i = 0%nat \/ i = 1%nat) by lia. destruct Hi' as [ -> | -> ]; cbn [Z.of_nat]; (split; [apply K; reflexivity|split; [apply (K 1%Z); reflexivity|split; [apply (K 3%Z); reflexivity|lra]]]).
  - intros i Hi. assert (Hi' : i = 0%nat \/ i = 1%nat) by lia. destruct Hi' as [ -> | -> ]; cbn [Z.of_nat].
    + replace (0 - 3) with (IZR (-3)) by lra. rewrite (I (IZR (-3))) by (apply K; reflexivity). replace (IZR (-3) * IZR (-3)) with (IZR 9) by lra.
      rewrite (I (IZR 9)) by (apply K; reflexivity). split; right; rewrite Rabs_right; lra.
    + replace (IZR (Z.pos (Pos.of_succ_nat 0)) - 3) with (IZR (-2)) by (cbn; lra). rewrite (I (IZR (-2))) by (apply K; reflexivity). replace (IZR (-2) * IZR (-2)) with (IZR 4) by lra.
      rewrite (I (IZR 4)) by (apply K; reflexivity). split; right; rewrite Rabs_right; lra.
  - unfold deviance, normal_deviance, lsumf. cbn. lra.
Qed.
