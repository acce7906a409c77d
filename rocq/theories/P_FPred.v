(** Theorems C103: rounding error of linear predictors and predictions. *)
From Coq Require Import Reals ZArith Lra Lia List Permutation. Import ListNotations.
From Flocq Require Import Core Relative.
From Verif Require Import Base M_Link L_Link M_Float S_Float L_Float M_FSum S_FSum L_KKT L_Rows P_FCD P_FSum M_FPred S_FPred.
Local Open Scope R_scope.

Lemma clip_near x y lo hi : Rabs (clip x lo hi - clip y lo hi) <= Rabs (x - y).
Proof. unfold clip, Rmin, Rmax. repeat destruct (Rle_dec _ _); unfold Rabs; repeat destruct (Rcase_abs _); lra. Qed.
Lemma expit_lip x y : Rabs (expit x - expit y) <= / 4 * Rabs (x - y).
Proof.
  assert (K : forall a b, a < b -> Rabs (expit b - expit a) <= / 4 * Rabs (b - a)).
  { intros a b H. destruct (mvt expit (fun e => expit e * (1 - expit e)) a b H) as [c [E _]]; [intros; apply expit_deriv|].
    rewrite E, Rabs_mult. apply Rmult_le_compat_r; [apply Rabs_pos|]. pose proof (expit_bounds c) as B. rewrite Rabs_right by nra.
    pose proof (pow2_ge_0 (expit c - / 2)). nra. }
  destruct (Rtotal_order x y) as [H|[ -> |H]]; [rewrite (Rabs_minus_sym (expit x)), (Rabs_minus_sym x); apply K, H| |apply K, H].
  rewrite !Rminus_diag_eq, Rabs_R0 by reflexivity. lra.
Qed.
Section Pred.
Variables p e0 : Z.
Hypothesis Hp : (1 < p)%Z.
Local Notation r := (rnd p e0).
Local Notation fl := (is_float p e0).
Local Notation u := (powerRZ 2 (- p)).
Local Notation tiny := (powerRZ 2 (e0 - 1)).
Lemma tiny_pos : 0 < tiny.
Proof. apply powerRZ_lt; lra. Qed.
Lemma any_err z : Rabs (r z - z) <= u * Rabs z + tiny.
Proof.
  destruct (error_N_FLT radix2 e0 p ltac:(lia) (fun t => negb (Z.even t)) z) as [eps [eta [H1 [H2 [_ H3]]]]].
  unfold rnd. change ZnearestE with (Znearest (fun t => negb (Z.even t))). rewrite H3.
  assert (B1 : / 2 * bpow radix2 (- p + 1) = u) by (rewrite (u_bpow p), bpow_plus; change (bpow radix2 1) with 2; field).
  assert (B2 : / 2 * bpow radix2 e0 = tiny).
  { replace tiny with (bpow radix2 (e0 - 1)) by (rewrite bpow_powerRZ; reflexivity).
    replace e0 with (e0 - 1 + 1)%Z at 1 by ring. rewrite bpow_plus. change (bpow radix2 1) with 2. field. }
  rewrite B1 in H1. rewrite B2 in H2.
  replace (z * (1 + eps) + eta - z) with (z * eps + eta) by ring. eapply Rle_trans; [apply Rabs_triang|].
  rewrite Rabs_mult. pose proof (Rabs_pos z). nra.
Qed.
Lemma dot_float x b d : fl (f_dot r x b d).
Proof. destruct d; cbn [f_dot]; [|apply rnd_float, Hp..]. rewrite <- (rnd_0 p e0). apply rnd_float, Hp. Qed.

Lemma dot_err x b d :
  Rabs (f_dot r x b d - lsumf (fun j => x j * b j) (used d))
  <= growth p (rounds d) * lsumf (fun j => Rabs (x j * b j)) (used d) + (1 + growth p (rounds d)) * INR (length (used d)) * tiny.
Proof.
  pose proof (u_pos p) as U. pose proof tiny_pos as T.
  assert (AN : forall l, 0 <= lsumf (fun j => Rabs (x j * b j)) l).
  { induction l as [|j l IH]; [rewrite lsumf_nil; lra|]. rewrite lsumf_cons. pose proof (Rabs_pos (x j * b j)). lra. }
  assert (AT : forall l, Rabs (lsumf (fun j => x j * b j) l) <= lsumf (fun j => Rabs (x j * b j)) l).
  { induction l as [|j l IH]; [rewrite !lsumf_nil, Rabs_R0; lra|]. rewrite !lsumf_cons. eapply Rle_trans; [apply Rabs_triang|]. lra. }
  induction d as [|j|a IHa c IHc|j a IHa]; cbn [f_dot used rounds].
  - rewrite !lsumf_nil. cbn [length INR]. rewrite Rminus_0_r, Rabs_R0. lra.
  - rewrite !lsumf_cons, !lsumf_nil, !Rplus_0_r. cbn [length INR]. pose proof (any_err (x j * b j)) as E.
    assert (G : growth p 1 = u) by (unfold growth; cbn [pow]; ring). rewrite G. nra.
  - rewrite !lsumf_two, app_length, plus_INR.
    pose proof (AT (used a)) as Ta. pose proof (AT (used c)) as Tc. pose proof (AN (used a)) as Na. pose proof (AN (used c)) as Nc.
    pose proof (rnd_add_err p e0 Hp _ _ (dot_float x b a) (dot_float x b c)) as E. rewrite <- u_bpow in E.
    set (sa := lsumf (fun j => x j * b j) (used a)) in *. set (sc := lsumf (fun j => x j * b j) (used c)) in *.
    set (A := lsumf (fun j => Rabs (x j * b j)) (used a)) in *. set (C := lsumf (fun j => Rabs (x j * b j)) (used c)) in *.
    pose proof (pos_INR (length (used a))) as Ia. pose proof (pos_INR (length (used c))) as Ic.
    set (na := INR (length (used a))) in *. set (nc := INR (length (used c))) in *.
    pose proof (growth_mono p (rounds a) (Nat.max (rounds a) (rounds c)) ltac:(lia)) as Ga.
    pose proof (growth_mono p (rounds c) (Nat.max (rounds a) (rounds c)) ltac:(lia)) as Gc.
    rewrite growth_S. set (g := growth p (Nat.max (rounds a) (rounds c))) in *.
    pose proof (growth_nonneg p (Nat.max (rounds a) (rounds c))) as G0. fold g in G0.
    set (v := f_dot r x b a) in *. set (w := f_dot r x b c) in *.
    assert (Pa : 0 <= na * tiny) by (apply Rmult_le_pos; lra). assert (Pc : 0 <= nc * tiny) by (apply Rmult_le_pos; lra).
    assert (Ea : Rabs (v - sa) <= g * A + (1 + g) * (na * tiny)) by nra.
    assert (Ec : Rabs (w - sc) <= g * C + (1 + g) * (nc * tiny)) by nra.
    set (ta := na * tiny) in *. set (tc := nc * tiny) in *.
    assert (Sm : Rabs (v + w - (sa + sc)) <= g * (A + C) + (1 + g) * (ta + tc)).
    { replace (v + w - (sa + sc)) with ((v - sa) + (w - sc)) by ring. eapply Rle_trans; [apply Rabs_triang|]. lra. }
    assert (M : Rabs (v + w) <= A + C + (g * (A + C) + (1 + g) * (ta + tc))).
    { replace (v + w) with ((v + w - (sa + sc)) + (sa + sc)) by ring. eapply Rle_trans; [apply Rabs_triang|].
      pose proof (Rabs_triang sa sc). lra. }
    replace (r (v + w) - (sa + sc)) with ((r (v + w) - (v + w)) + (v + w - (sa + sc))) by ring.
    eapply Rle_trans; [apply Rabs_triang|].
    apply Rmult_le_compat_l with (r := u) in M; [|lra].
    replace ((1 + (g + u * (1 + g))) * (na + nc) * tiny) with ((1 + (g + u * (1 + g))) * (ta + tc)) by (unfold ta, tc; ring).
    assert (0 <= ta + tc) by lra. set (tt' := ta + tc) in *. set (AC := A + C) in *. lra.
  - rewrite !lsumf_cons. cbn [length]. rewrite S_INR.
    pose proof (AT (used a)) as Ta. pose proof (AN (used a)) as Na.
    set (sa := lsumf (fun j => x j * b j) (used a)) in *. set (A := lsumf (fun j => Rabs (x j * b j)) (used a)) in *.
    pose proof (pos_INR (length (used a))) as Ia. set (na := INR (length (used a))) in *.
    rewrite growth_S. pose proof (growth_nonneg p (rounds a)) as G0. set (g := growth p (rounds a)) in *.
    set (v := f_dot r x b a) in *. set (z := x j * b j). pose proof (any_err (z + v)) as E.
    assert (Pa : 0 <= na * tiny) by (apply Rmult_le_pos; lra).
    assert (M : Rabs (z + v) <= Rabs z + A + (g * A + (1 + g) * na * tiny)).
    { replace (z + v) with (z + (v - sa) + sa) by ring. eapply Rle_trans; [apply Rabs_triang|].
      pose proof (Rabs_triang z (v - sa)). lra. }
    replace (r (z + v) - (z + sa)) with ((r (z + v) - (z + v)) + (v - sa)) by ring.
    eapply Rle_trans; [apply Rabs_triang|]. apply Rmult_le_compat_l with (r := u) in M; [|lra].
    pose proof (Rabs_pos z) as Z0. set (ta := na * tiny) in *.
    replace ((1 + g) * na * tiny) with ((1 + g) * ta) in * by (unfold ta; ring).
    replace ((1 + (g + u * (1 + g))) * (na + 1) * tiny) with ((1 + (g + u * (1 + g))) * (ta + tiny)) by (unfold ta; ring).
    assert (0 <= g * Rabs z) by (apply Rmult_le_pos; lra). assert (0 <= u * g * Rabs z) by (apply Rmult_le_pos; [apply Rmult_le_pos|]; lra).
    assert (0 <= (g + u * (1 + g)) * tiny) by (apply Rmult_le_pos; nra). nra.
Qed.

Lemma nodup_le n l : NoDup l -> (forall j, In j l -> (j < n)%nat) -> (length l <= n)%nat.
Proof. intros N I. rewrite <- (seq_length n 0). apply NoDup_incl_length; [exact N|]. intros j Hj. apply in_seq. specialize (I j Hj). lia. Qed.
Lemma used_sum n (f : nat -> R) l : NoDup l -> (forall j, In j l -> (j < n)%nat) -> (forall j, (j < n)%nat -> f j <> 0 -> In j l) ->
  lsumf f l = rsum n f.
Proof.
  intros N I Cv.
  assert (E : rsum n f = rsum n (fun j => if in_dec Nat.eq_dec j l then f j else 0)).
  { apply rsum_ext. intros j Hj. destruct (in_dec Nat.eq_dec j l) as [Hi|Hi]; [reflexivity|]. destruct (Req_dec (f j) 0) as [Z|Z]; [exact Z|]. elim Hi. apply Cv; assumption. }
  rewrite E. clear E Cv. induction l as [|k l IH].
  - rewrite lsumf_nil. symmetry. apply rsum_zero. intros j _. reflexivity.
  - apply NoDup_cons_iff in N. destruct N as [Nk Nl]. rewrite lsumf_cons, IH; [|exact Nl|intros; apply I; right; assumption].
    assert (Sg : f k = rsum n (fun j => if Nat.eqb j k then f j else 0)).
    { rewrite (rsum_single n k); [rewrite Nat.eqb_refl; reflexivity|apply I; left; reflexivity|].
      intros i _ Hi. destruct (Nat.eqb_spec i k); [contradiction|reflexivity]. }
    rewrite Sg, <- rsum_plus. apply rsum_ext. intros j Hj.
    destruct (Nat.eq_dec j k) as [->|Hn].
    + rewrite Nat.eqb_refl. destruct (in_dec Nat.eq_dec k l) as [Hi|Hi]; [contradiction|].
      destruct (in_dec Nat.eq_dec k (k :: l)) as [H2|H2]; [ring|elim H2; left; reflexivity].
    + destruct (Nat.eqb_spec j k) as [?|_]; [contradiction|].
      destruct (in_dec Nat.eq_dec j l) as [Hi|Hi]; destruct (in_dec Nat.eq_dec j (k :: l)) as [H2|H2]; [ring|elim H2; right; exact Hi|destruct H2 as [H2|H2]; [congruence|contradiction]|ring].
Qed.

(** However the products of a row are added up, the linear predictor the code computes differs from
    offset + intercept + x . coef by at most [pred_err]. *)
Theorem C103_linear_predictor : forall n x b b0 off d,
  evaluates n x b d -> fl b0 -> fl (off_val off) ->
  Rabs (f_linear_predictor r x b b0 off d - exact_predictor n x b b0 off) <= pred_err p e0 n x b b0 off (rounds d + 2).
Proof.
  intros n x b b0 off d [N [I Cv]] F0 Fo. pose proof (dot_err x b d) as E.
  rewrite (used_sum n (fun j => x j * b j) (used d) N I Cv) in E.
  rewrite (used_sum n (fun j => Rabs (x j * b j)) (used d) N I) in E.
  2: { intros j Hj Z. apply Cv; [exact Hj|]. intros Z2. rewrite Z2, Rabs_R0 in Z. apply Z. reflexivity. }
  pose proof (nodup_le n (used d) N I) as L. apply le_INR in L.
  pose proof (u_pos p) as U. pose proof tiny_pos as T. pose proof (growth_nonneg p (rounds d)) as G0.
  assert (A0 : 0 <= rsum n (fun j => Rabs (x j * b j))) by (apply rsum_nonneg; intros; apply Rabs_pos).
  assert (AT : Rabs (rsum n (fun j => x j * b j)) <= rsum n (fun j => Rabs (x j * b j))) by apply Rabs_rsum_le.
  unfold pred_err, exact_predictor, term_size. rewrite Nat.add_succ_r, Nat.add_succ_r, Nat.add_0_r, !growth_S.
  pose proof (dot_float x b d) as Fd. unfold f_linear_predictor.
  set (s := rsum n (fun j => x j * b j)) in *. set (A := rsum n (fun j => Rabs (x j * b j))) in *. set (g := growth p (rounds d)) in *.
  set (v := f_dot r x b d) in *.
  assert (H : (1 + g) * INR (length (used d)) * tiny <= (1 + g) * (INR n * tiny)).
  { rewrite Rmult_assoc. apply Rmult_le_compat_l; [lra|]. apply Rmult_le_compat_r; lra. }
  set (t := INR n * tiny) in *. assert (T0 : 0 <= t) by (apply Rmult_le_pos; [apply pos_INR|lra]).
  assert (E1 : Rabs (v - s) <= g * A + (1 + g) * t) by lra.
  pose proof (rnd_add_err p e0 Hp v b0 Fd F0) as E2. rewrite <- u_bpow in E2.
  set (xb := r (v + b0)) in *.
  assert (M1 : Rabs (v + b0) <= A + Rabs b0 + (g * A + (1 + g) * t)).
  { replace (v + b0) with ((v - s) + s + b0) by ring. eapply Rle_trans; [apply Rabs_triang|]. pose proof (Rabs_triang (v - s) s). lra. }
  apply Rmult_le_compat_l with (r := u) in M1; [|lra].
  set (g1 := g + u * (1 + g)). pose proof (Rabs_pos b0) as B0.
  assert (G1 : g <= g1) by (unfold g1; nra).
  assert (E3 : Rabs (xb - (s + b0)) <= g1 * (A + Rabs b0) + (1 + g1) * t).
  { replace (xb - (s + b0)) with ((xb - (v + b0)) + (v - s)) by ring. eapply Rle_trans; [apply Rabs_triang|].
    assert (0 <= (g + u * g) * Rabs b0) by (apply Rmult_le_pos; nra). unfold g1. nra. }
  replace ((1 + (g1 + u * (1 + g1))) * INR n * tiny) with ((1 + (g1 + u * (1 + g1))) * t) by (unfold t; ring).
  assert (M2 : Rabs (xb) <= A + Rabs b0 + (g1 * (A + Rabs b0) + (1 + g1) * t)).
  { replace xb with ((xb - (s + b0)) + (s + b0)) by ring. eapply Rle_trans; [apply Rabs_triang|]. pose proof (Rabs_triang s b0). lra. }
  destruct off as [o|]; cbn [off_val] in *.
  - pose proof (rnd_add_err p e0 Hp xb o ltac:(apply rnd_float, Hp) Fo) as E4. rewrite <- u_bpow in E4.
    pose proof (Rabs_triang xb o) as M3. pose proof (Rabs_pos o) as O0.
    assert (M4 : u * Rabs (xb + o) <= u * (A + Rabs b0 + (g1 * (A + Rabs b0) + (1 + g1) * t) + Rabs o)) by (apply Rmult_le_compat_l; lra).
    replace (r (xb + o) - (s + b0 + o)) with ((r (xb + o) - (xb + o)) + (xb - (s + b0))) by ring.
    eapply Rle_trans; [apply Rabs_triang|]. assert (0 <= g1 * Rabs o) by (apply Rmult_le_pos; lra).
    assert (0 <= u * g1 * Rabs o) by (apply Rmult_le_pos; [apply Rmult_le_pos|]; lra). nra.
  - rewrite Rplus_0_r, Rabs_R0, Rplus_0_r. eapply Rle_trans; [exact E3|].
    assert (0 <= u * (1 + g1)) by (apply Rmult_le_pos; lra).
    assert (0 <= u * (1 + g1) * (A + Rabs b0)) by (apply Rmult_le_pos; lra).
    assert (0 <= u * (1 + g1) * t) by (apply Rmult_le_pos; lra). nra.
Qed.

(** The same row in two calls (other rows around it, other threads, another storage format). *)
Theorem C103_same_row : forall n x b b0 off d d',
  evaluates n x b d -> evaluates n x b d' -> fl b0 -> fl (off_val off) ->
  Rabs (f_linear_predictor r x b b0 off d - f_linear_predictor r x b b0 off d')
  <= pred_err p e0 n x b b0 off (rounds d + 2) + pred_err p e0 n x b b0 off (rounds d' + 2).
Proof.
  intros n x b b0 off d d' Ev Ev' F0 Fo. pose proof (C103_linear_predictor n x b b0 off d Ev F0 Fo) as H.
  pose proof (C103_linear_predictor n x b b0 off d' Ev' F0 Fo) as H'. rewrite Rabs_minus_sym in H'.
  set (e := exact_predictor n x b b0 off) in *.
  match goal with |- Rabs (?a - ?c) <= _ => replace (a - c) with ((a - e) + (e - c)) by ring end.
  eapply Rle_trans; [apply Rabs_triang|]. lra.
Qed.

(** Whole numbers: when the products are integers and their sizes add up to less than 2^p, nothing is lost,
    whatever the order. *)
Lemma rnd_int z : (e0 <= 0)%Z -> (Z.abs z < 2 ^ p)%Z -> r (IZR z) = IZR z.
Proof. intros He Hz. apply rnd_id; [exact Hp|]. exists z, 0%Z. split; [exact Hz|]. split; [exact He|]. cbn. ring. Qed.
Theorem C103_whole_numbers : forall n (x b : nat -> Z) (b0 o : Z) (has : bool) d,
  let off := if has then Some (IZR o) else None in
  let xr j := IZR (x j) in let br j := IZR (b j) in
  (e0 <= 0)%Z -> evaluates n xr br d -> term_size n xr br (IZR b0) off < IZR (2 ^ p) ->
  f_linear_predictor r xr br (IZR b0) off d = exact_predictor n xr br (IZR b0) off.
Proof.
  intros n x b b0 o has d off xr br He [N [I Cv]] Sz.
  assert (ZL : forall z c, Rabs (IZR z) <= c -> c < IZR (2 ^ p) -> (Z.abs z < 2 ^ p)%Z).
  { intros z c H1 H2. apply lt_IZR. rewrite abs_IZR. lra. }
  assert (AN : forall l, 0 <= lsumf (fun j => Rabs (xr j * br j)) l).
  { induction l as [|j l IH]; [rewrite lsumf_nil; lra|]. rewrite lsumf_cons. pose proof (Rabs_pos (xr j * br j)). lra. }
  assert (D : forall e, lsumf (fun j => Rabs (xr j * br j)) (used e) < IZR (2 ^ p) ->
     f_dot r xr br e = lsumf (fun j => xr j * br j) (used e) /\ (exists z, f_dot r xr br e = IZR z) /\
     Rabs (f_dot r xr br e) <= lsumf (fun j => Rabs (xr j * br j)) (used e)).
  { induction e as [|j|e1 IH1 e2 IH2|j e IH]; cbn [used f_dot]; intros H.
    - rewrite !lsumf_nil. split; [reflexivity|]. split; [exists 0%Z; reflexivity|rewrite Rabs_R0; lra].
    - rewrite !lsumf_cons, !lsumf_nil, !Rplus_0_r in *. unfold xr, br in *. rewrite <- mult_IZR in *.
      rewrite rnd_int; [|exact He|apply (ZL _ (Rabs (IZR (x j * b j)))); lra]. split; [reflexivity|]. split; [eexists; reflexivity|lra].
    - rewrite !lsumf_two in *. pose proof (AN (used e1)). pose proof (AN (used e2)).
      destruct IH1 as [V1 [[z1 Z1] A1]]; [lra|]. destruct IH2 as [V2 [[z2 Z2] A2]]; [lra|].
      assert (B : Rabs (f_dot r xr br e1 + f_dot r xr br e2) <= lsumf (fun j => Rabs (xr j * br j)) (used e1) + lsumf (fun j => Rabs (xr j * br j)) (used e2)).
      { eapply Rle_trans; [apply Rabs_triang|]. lra. }
      rewrite <- V1, <- V2. rewrite Z1, Z2, <- plus_IZR in *. rewrite rnd_int; [|exact He|eapply ZL; [exact B|exact H]].
      split; [reflexivity|]. split; [eexists; reflexivity|exact B].
    - rewrite !lsumf_cons in *. pose proof (AN (used e)). pose proof (Rabs_pos (xr j * br j)).
      destruct IH as [V [[z Z] A]]; [lra|].
      assert (B : Rabs (xr j * br j + f_dot r xr br e) <= Rabs (xr j * br j) + lsumf (fun j => Rabs (xr j * br j)) (used e)).
      { eapply Rle_trans; [apply Rabs_triang|]. lra. }
      rewrite <- V. rewrite Z in *.
      assert (Q : xr j * br j + IZR z = IZR (x j * b j + z)) by (unfold xr, br; rewrite plus_IZR, mult_IZR; reflexivity).
      rewrite Q in *. rewrite rnd_int; [|exact He|eapply ZL; [exact B|exact H]].
      split; [reflexivity|]. split; [eexists; reflexivity|exact B]. }
  unfold term_size in Sz. pose proof (Rabs_pos (IZR b0)) as B0. pose proof (Rabs_pos (off_val off)) as O0.
  assert (AE : lsumf (fun j => Rabs (xr j * br j)) (used d) = rsum n (fun j => Rabs (xr j * br j))).
  { apply used_sum; [exact N|exact I|]. intros j Hj Z. apply Cv; [exact Hj|]. intros Z2. rewrite Z2, Rabs_R0 in Z. apply Z. reflexivity. }
  destruct (D d) as [V [[z Z] A]]; [lra|]. rewrite AE in A.
  unfold f_linear_predictor, exact_predictor. rewrite (used_sum n (fun j => xr j * br j) (used d) N I Cv) in V. rewrite <- V, Z. rewrite Z in A.
  pose proof (Rabs_triang (IZR z) (IZR b0)) as T1.
  rewrite <- plus_IZR in *. rewrite rnd_int; [|exact He|eapply ZL; [exact T1|lra]].
  unfold off in *. destruct has; cbn [off_val] in *; [|lra].
  pose proof (Rabs_triang (IZR (z + b0)) (IZR o)) as T2. rewrite <- plus_IZR in *. apply rnd_int; [exact He|eapply ZL; [exact T2|lra]].
Qed.

(** Predictions. [E] is the error of the linear predictor; the library's exp or expit has relative (absolute)
    accuracy [a]. *)
Theorem C103_identity_mean : forall n x b b0 off d,
  evaluates n x b d -> fl b0 -> fl (off_val off) ->
  Rabs (inverse1 IdentityL (f_linear_predictor r x b b0 off d) - inverse1 IdentityL (exact_predictor n x b b0 off))
  <= pred_err p e0 n x b b0 off (rounds d + 2).
Proof. intros. cbn. apply C103_linear_predictor; assumption. Qed.
Theorem C103_log_mean : forall n x b b0 off d m a,
  evaluates n x b d -> fl b0 -> fl (off_val off) -> 0 <= a ->
  let eta_hat := f_linear_predictor r x b b0 off d in let mu := inverse1 LogL (exact_predictor n x b b0 off) in
  Rabs (m - inverse1 LogL eta_hat) <= a * inverse1 LogL eta_hat ->
  Rabs (m - mu) <= ((1 + a) * exp (pred_err p e0 n x b b0 off (rounds d + 2)) - 1) * mu.
Proof.
  intros n x b b0 off d m a Ev F0 Fo Ha eta_hat mu Hm. pose proof (C103_linear_predictor n x b b0 off d Ev F0 Fo) as H. fold eta_hat in H.
  unfold mu in *. unfold inverse1, raw_inverse in *. set (e := exact_predictor n x b b0 off) in *. set (E := pred_err p e0 n x b b0 off (rounds d + 2)) in *.
  assert (X : exp eta_hat = exp (eta_hat - e) * exp e) by (rewrite <- exp_plus; f_equal; ring). rewrite X in Hm.
  apply Rabs_le_inv in H. pose proof (exp_pos e) as P. pose proof (exp_pos (eta_hat - e)) as Q.
  assert (U1 : exp (eta_hat - e) <= exp E). { destruct (Req_dec (eta_hat - e) E) as [->|?]; [lra|left; apply exp_increasing; lra]. }
  assert (L1 : exp (- E) <= exp (eta_hat - e)). { destruct (Req_dec (eta_hat - e) (- E)) as [->|?]; [lra|left; apply exp_increasing; lra]. }
  assert (S1 : exp E * exp (- E) = 1) by (rewrite <- exp_plus, Rplus_opp_r; apply exp_0).
  pose proof (exp_pos E) as P1. pose proof (exp_pos (- E)) as P2.
  assert (S2 : 2 <= exp E + exp (- E)). { pose proof (pow2_ge_0 (exp E - 1)). apply Rmult_le_reg_r with (exp E); [exact P1|]. nra. }
  set (q := exp (eta_hat - e)) in *. apply Rabs_le_inv in Hm.
  assert (K1 : 1 - (1 + a) * exp E <= q - 1 - a * q) by nra.
  assert (K2 : q - 1 + a * q <= (1 + a) * exp E - 1) by nra.
  apply (Rmult_le_compat_r (exp e)) in K1; [|lra]. apply (Rmult_le_compat_r (exp e)) in K2; [|lra].
  apply Rabs_le. split; lra.
Qed.
Theorem C103_logit_mean : forall n x b b0 off d m a,
  evaluates n x b d -> fl b0 -> fl (off_val off) ->
  Rabs (m - inverse1 LogitL (f_linear_predictor r x b b0 off d)) <= a ->
  Rabs (m - inverse1 LogitL (exact_predictor n x b b0 off)) <= pred_err p e0 n x b b0 off (rounds d + 2) / 4 + a.
Proof.
  intros n x b b0 off d m a Ev F0 Fo Hm. pose proof (C103_linear_predictor n x b b0 off d Ev F0 Fo) as H.
  set (e' := f_linear_predictor r x b b0 off d) in *. set (e := exact_predictor n x b b0 off) in *.
  assert (K : Rabs (inverse1 LogitL e' - inverse1 LogitL e) <= / 4 * Rabs (e' - e)).
  { cbn [inverse1 raw_inverse]. eapply Rle_trans; [apply clip_near|]. apply expit_lip. }
  replace (m - inverse1 LogitL e) with ((m - inverse1 LogitL e') + (inverse1 LogitL e' - inverse1 LogitL e)) by ring.
  eapply Rle_trans; [apply Rabs_triang|]. lra.
Qed.
End Pred.

(** In double precision, and 64-bit floats, two orders of adding the products of one row give different predictions. *)
Definition ex103_x (j : nat) : R := ex83_t j.
Definition ex103_d : dot := DAdd (DAdd (DProd 0) (DProd 1)) (DProd 2).
Definition ex103_d' : dot := DAdd (DProd 0) (DAdd (DProd 1) (DProd 2)).
Definition ex103_f : dot := DFma 0 (DFma 1 (DFma 2 DZero)).
Lemma ex103_ev d : used d = (0 :: 1 :: 2 :: nil)%nat -> forall x b, evaluates 3 x b d.
Proof.
  intros U x b. unfold evaluates. rewrite U. split; [repeat constructor; cbn; intuition lia|]. split.
  - cbn. intuition lia.
  - intros j Hj _. cbn. lia.
Qed.
Lemma ex103_t j : rnd64 (ex103_x j * 1) = ex103_x j.
Proof.
  rewrite Rmult_1_r. apply rnd_id; [lia|]. destruct j as [|j]; cbn; [|apply ex83_fc]. exists 1%Z, 0%Z. cbn. repeat split; lra || lia.
Qed.
Theorem C103_not_reproducible : exists n x b b0 d d',
  (forall j, float64 (x j)) /\ (forall j, float64 (b j)) /\ float64 b0 /\ evaluates n x b d /\ evaluates n x b d' /\
  f_linear_predictor rnd64 x b b0 None d <> f_linear_predictor rnd64 x b b0 None d'.
Proof.
  exists 3%nat, ex103_x, (fun _ => 1), 0, ex103_d, ex103_d'.
  assert (F1 : float64 1) by (exists 1%Z, 0%Z; cbn; repeat split; lra || lia).
  split; [intros [|j]; [exact F1|apply ex83_fc]|]. split; [intros _; exact F1|].
  split; [exists 0%Z, 0%Z; cbn; repeat split; lra || lia|].
  split; [apply ex103_ev; reflexivity|]. split; [apply ex103_ev; reflexivity|].
  assert (I : forall z, float64 z -> rnd64 z = z) by (intros z; apply (rnd_id 53 (-1074) P53)).
  destruct ex83_sums as [S1 S2]. unfold f_linear_predictor, ex103_d, ex103_d'. cbn [f_dot]. rewrite !ex103_t.
  change (ex103_x 0) with 1. change (ex103_x 1) with ex83_c. change (ex103_x 2) with ex83_c.
  rewrite S1, S1. replace (ex83_c + ex83_c) with (2 * ex83_c) by ring. rewrite (I (2 * ex83_c)) by apply ex83_fc. rewrite S2, !Rplus_0_r.
  rewrite <- S2 at 1. rewrite (I 1 F1), (I (rnd64 (1 + 2 * ex83_c))) by (apply (rnd_float 53 (-1074) P53)). rewrite S2.
  assert (0 < / 2 ^ 52) by (apply Rinv_0_lt_compat, pow_lt; lra). lra.
Qed.

(** a fused evaluation of a row of whole numbers, with an offset, meets the hypotheses *)
Example ex103_nonvacuous :
  let x j := IZR (Z.of_nat (S j)) in let b j := IZR (Z.of_nat j - 1) in
  evaluates 3 x b ex103_f /\ rounds ex103_f = 3%nat /\ float64 2 /\ float64 (off_val (Some 5)) /\
  term_size 3 x b 2 (Some 5) < IZR (2 ^ 53) /\ exact_predictor 3 x b 2 (Some 5) = 9 /\
  f_linear_predictor rnd64 x b 2 (Some 5) ex103_f = 9.
Proof.
  intros x b. assert (Ev : evaluates 3 x b ex103_f) by (apply ex103_ev; reflexivity).
  assert (T : term_size 3 x b 2 (Some 5) < IZR (2 ^ 53)).
  { unfold term_size, x, b. cbn -[Z.pow]. unfold Rabs. repeat destruct (Rcase_abs _); rewrite <- ?Ropp_mult_distr_l_reverse; lra. }
  assert (E : exact_predictor 3 x b 2 (Some 5) = 9) by (unfold exact_predictor, x, b; cbn; lra).
  split; [exact Ev|]. split; [reflexivity|]. split; [exists 2%Z, 0%Z; cbn; repeat split; lra || lia|].
  split; [exists 5%Z, 0%Z; cbn; repeat split; lra || lia|]. split; [exact T|]. split; [exact E|]. rewrite <- E.
  exact (C103_whole_numbers 53 (-1074) P53 3 (fun j => Z.of_nat (S j)) (fun j => Z.of_nat j - 1)%Z 2%Z 5%Z true ex103_f ltac:(lia) Ev T).
Qed.
Print Assumptions C103_linear_predictor.
Print Assumptions C103_same_row.
Print Assumptions C103_whole_numbers.
Print Assumptions C103_identity_mean.
Print Assumptions C103_log_mean.
Print Assumptions C103_logit_mean.
Print Assumptions C103_not_reproducible.
Print Assumptions ex103_nonvacuous.
