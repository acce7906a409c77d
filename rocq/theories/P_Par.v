(** Theorems C75: the compiled kernels under any number of threads and any interleaving. *)
From Verif Require Import S_Par L_Par.
From Coq Require Import FunctionalExtensionality Permutation.
Local Open Scope R_scope.

Lemma emd_local f lk factor K : emd_kernel f lk factor = Some K -> forall i, local i (k_loop K i).
Proof.
  assert (H : forall t i b1 b2, local i b1 -> local i b2 -> local i (if Rlt_dec 0 t then b1 else b2)) by (intros; destruct (Rlt_dec 0 t); assumption).
  unfold emd_kernel. destruct f, lk; try discriminate;
    repeat match goal with |- context [Req_EM_T ?a ?b] => destruct (Req_EM_T a b) | |- context [Rlt_dec ?a ?b] => destruct (Rlt_dec a b) end;
    try discriminate; intros E i; injection E as <-; cbn; repeat (first [split; [reflexivity|] | intros ? | apply H]); exact I.
Qed.
Lemma rows_local f lk K : rows_kernel f lk = Some K -> forall i, local i (k_loop K i).
Proof.
  unfold rows_kernel. destruct f, lk; try discriminate;
    repeat match goal with |- context [Req_EM_T ?a ?b] => destruct (Req_EM_T a b) | |- context [Rlt_dec ?a ?b] => destruct (Rlt_dec a b) end;
    try discriminate; intros E i; injection E as <-; cbn; repeat (first [split; [reflexivity|] | intros ?]); exact I.
Qed.
Lemma deviance_local f K : deviance_kernel f = Some K -> forall i, local i (k_loop K i).
Proof.
  assert (H : forall t i b1 b2, local i b1 -> local i b2 -> local i (if Rlt_dec 0 t then b1 else b2)) by (intros; destruct (Rlt_dec 0 t); assumption).
  unfold deviance_kernel. destruct f; try discriminate;
    repeat match goal with |- context [Req_EM_T ?a ?b] => destruct (Req_EM_T a b) end;
    try discriminate; intros E i; injection E as <-; cbn; repeat (first [split; [reflexivity|] | intros ? | apply H]); exact I.
Qed.
Lemma ll_local lg tw f phi K : ll_kernel lg tw f phi = Some K -> forall i, local i (k_loop K i).
Proof.
  assert (H : forall t i b1 b2, local i b1 -> local i b2 -> local i (if Rlt_dec 0 t then b1 else b2)) by (intros; destruct (Rlt_dec 0 t); assumption).
  unfold ll_kernel. destruct f; try discriminate;
    repeat match goal with |- context [Req_EM_T ?a ?b] => destruct (Req_EM_T a b) | |- context [Rlt_dec ?a 2] => destruct (Rlt_dec a 2) end;
    try discriminate; intros E i; injection E as <-; cbn; repeat (first [split; [reflexivity|] | intros ? | apply H]); exact I.
Qed.
Lemma active_local C mx i : local i (k_loop (k_active_rows C mx) i).
Proof. cbn. split; [reflexivity|]. intros x. destruct (Rltb _ _); cbn; auto. Qed.
Lemma glum_local loop : loop_of_glum loop -> forall i, local i (loop i).
Proof.
  intros H. destruct H as [f lk factor K E|f lk K E|f K E|lg tw f phi K E|C mx];
    [eapply emd_local|eapply rows_local|eapply deviance_local|eapply ll_local|apply active_local]; eauto.
Qed.
Lemma division_NoDup n cs : division n cs -> NoDup (concat cs).
Proof. intros H. apply (Permutation_NoDup (Permutation_sym H)), seq_NoDup. Qed.

(** C75: no data race is ever possible, whatever the number of threads, division and interleaving. *)
Theorem C75_no_race : forall loop n chunks sched m, loop_of_glum loop -> division n chunks ->
  ~ race (snd (par_run loop sched (m, threads_of chunks))).
Proof. intros loop n chunks sched m HL HD. apply par_no_race; [apply glum_local, HL|eapply division_NoDup, HD]. Qed.
Print Assumptions C75_no_race.

(** C75: the loop always ends: there is a number N, the same for every division and interleaving, such that
    N effective steps finish the loop, no run makes more, and before that some thread can go on. *)
Lemma list_sum_perm l l' : Permutation l l' -> list_sum l = list_sum l'.
Proof. induction 1; cbn in *; unfold list_sum in *; lia. Qed.
Lemma list_sum_concat (f : nat -> nat) cs : list_sum (map (fun c => list_sum (map f c)) cs) = list_sum (map f (concat cs)).
Proof. induction cs as [|c cs IH]; [reflexivity|]. cbn [concat]. rewrite map_app, list_sum_app, <- IH. reflexivity. Qed.
Theorem C75_ends : forall loop n m, loop_of_glum loop -> exists N, forall chunks sched, division n chunks ->
  effective loop sched (m, threads_of chunks) ->
  (length sched <= N)%nat /\ (length sched = N <-> all_over (snd (par_run loop sched (m, threads_of chunks)))).
Proof.
  intros loop n m HL. exists (list_sum (map (cost loop m) (seq 0 n))). intros chunks sched HD HE.
  pose proof (glum_local _ HL) as Hloc. pose proof (division_NoDup _ _ HD) as ND.
  destruct (effective_length loop m Hloc chunks ND sched _ _ (sinv_init loop m chunks) HE) as (ns & HS & E).
  rewrite list_sum_concat, (list_sum_perm _ _ (Permutation_map (cost loop m) HD)) in E. split; [lia|]. split.
  - intros EL. eapply pos_not_over; [exact HS|lia].
  - intros HO. destruct (Nat.eq_dec (list_sum ns) 0) as [|Z]; [lia|]. exfalso. revert HO. apply (not_over_pos loop m chunks _ ns HS). lia.
Qed.
Print Assumptions C75_ends.

(** ** Results *)
Lemma lsumf_rows {A} (f : nat -> R) (g : A -> R) l : (forall i x, nth_error l i = Some x -> f i = g x) -> lsumf f (seq 0 (length l)) = lsumf g l.
Proof.
  revert f. induction l as [|x l IH]; intros f H; [reflexivity|]. cbn [length seq]. rewrite !lsumf_cons, (H 0%nat x eq_refl). f_equal.
  rewrite <- seq_shift. unfold lsumf. rewrite map_map. apply (IH (fun i => f (S i))). intros i y E. exact (H (S i) y E).
Qed.
Lemma read_rows {A} (m : memory) a (g : A -> R) l : (forall i x, nth_error l i = Some x -> m a i = g x) -> read m a (length l) = map g l.
Proof.
  unfold read. generalize (m a). clear. intros f. revert f. induction l as [|x l IH]; intros f H; [reflexivity|]. cbn [length seq map]. rewrite (H 0%nat x eq_refl). f_equal.
  rewrite <- seq_shift, map_map. apply (IH (fun i => f (S i))). intros i y E. exact (H (S i) y E).
Qed.

(** what a complete run leaves behind, in terms of single rows *)
Lemma par_rows loop n chunks sched m0 m ts ts' : (forall i, local i (loop i)) -> division n chunks ->
  par_run loop sched (m0, threads_of chunks) = (m, ts) -> all_over ts -> Permutation ts ts' ->
  (forall i a, (i < n)%nat -> m a i = fst (run_row (loop i) (view m0 i)) a) /\
  (forall i a, (n <= i)%nat -> m a i = m0 a i) /\
  (forall r, reduced ts' r = lsumf (fun i => snd (run_row (loop i) (view m0 i)) r) (seq 0 n)).
Proof.
  intros HL HD E HO HP. destruct (par_final loop m0 HL chunks (division_NoDup _ _ HD) sched m ts E HO) as (H1 & H2 & H3).
  assert (HI : forall i, In i (concat chunks) <-> (i < n)%nat).
  { intros i. split; intros X; [apply (Permutation_in _ HD), in_seq in X; lia|]. apply (Permutation_in _ (Permutation_sym HD)), in_seq. lia. }
  split; [|split].
  - intros i a Hi. apply HI in Hi. specialize (H1 i Hi). unfold fin in H1. rewrite <- H1. reflexivity.
  - intros i a Hi. change (view m i a = view m0 i a). rewrite H2; [reflexivity|]. rewrite HI. lia.
  - intros r. transitivity (reduced ts r); [unfold reduced; f_equal; apply lsumf_perm, Permutation_sym, HP|]. rewrite H3. apply lsumf_perm, HD.
Qed.

Lemma k_return_ext K acc acc' : (forall r, acc r = acc' r) -> k_return K acc = k_return K acc'.
Proof. intros H. f_equal. apply functional_extensionality, H. Qed.

(** the fused kernel: eta_out, mu_out and the returned deviance are those of the sequential function,
    nothing else is written *)
Theorem C75_eta_mu_deviance : forall f lk factor K l m0 chunks sched m ts ts',
  emd_kernel f lk factor = Some K -> line_search_args m0 l -> division (length l) chunks ->
  par_run (k_loop K) sched (m0, threads_of chunks) = (m, ts) -> all_over ts -> Permutation ts ts' ->
  (read m AEtaOut (length l), read m AMuOut (length l), k_return K (reduced ts')) = eta_mu_deviance f lk factor l /\
  (forall a i, a <> AEtaOut -> a <> AMuOut -> m a i = m0 a i) /\ (forall a i, (length l <= i)%nat -> m a i = m0 a i).
Proof.
  intros f lk factor K l m0 chunks sched m ts ts' EK HA HD E HO HP.
  destruct (par_rows _ _ _ _ _ _ _ _ (emd_local _ _ _ _ EK) HD E HO HP) as (H1 & H2 & H3).
  rewrite (k_return_ext K _ _ H3). clear H3 E HO HP HD.
  assert (H1' : forall i x, nth_error l i = Some x -> forall a, m a i = fst (run_row (k_loop K i) (view m0 i)) a).
  { intros i x Ex a. apply H1, nth_error_Some. congruence. }
  assert (HF : forall a i, a <> AEtaOut -> a <> AMuOut -> fst (run_row (k_loop K i) (view m0 i)) a = m0 a i).
  { clear -EK. unfold emd_kernel in EK. intros a i Ha Hb. unfold setv.
    destruct f, lk; try discriminate;
    repeat match type of EK with context [Req_EM_T ?a ?b] => destruct (Req_EM_T a b) | context [Rlt_dec ?a ?b] => destruct (Rlt_dec a b) end; try discriminate; injection EK as <-;
    cbn; try (destruct (Rlt_dec 0 _)); cbn; unfold setv; destruct a; try congruence; reflexivity. }
  split; [|split; [|auto]].
  2:{ intros a i Ha Hb. destruct (Nat.lt_ge_cases i (length l)) as [Hi|Hi]; [|auto]. rewrite H1 by exact Hi. auto. }
  clear HF H1 H2.
  assert (X : forall g1 g2 (h : R -> R) g3,
    (forall i x, nth_error l i = Some x -> fst (run_row (k_loop K i) (view m0 i)) AEtaOut = g1 x /\ fst (run_row (k_loop K i) (view m0 i)) AMuOut = g2 x /\
        snd (run_row (k_loop K i) (view m0 i)) 0%nat = g3 x) ->
    (forall acc, k_return K acc = h (acc 0%nat)) ->
    (read m AEtaOut (length l), read m AMuOut (length l), k_return K (fun r => lsumf (fun i => snd (run_row (k_loop K i) (view m0 i)) r) (seq 0 (length l)))) = (map g1 l, map g2 l, h (lsumf g3 l))).
  { intros g1 g2 h g3 HX HK. rewrite HK. f_equal; [f_equal|f_equal].
    - apply read_rows. intros i x Ex. rewrite (H1' i x Ex). apply HX, Ex.
    - apply read_rows. intros i x Ex. rewrite (H1' i x Ex). apply HX, Ex.
    - apply lsumf_rows. intros i x Ex. apply HX, Ex. }
  unfold emd_kernel in EK. unfold eta_mu_deviance.
  destruct f, lk; try discriminate;
    repeat match type of EK with context [Req_EM_T ?a ?b] => destruct (Req_EM_T a b) | context [Rlt_dec ?a ?b] => destruct (Rlt_dec a b) end; try discriminate; injection EK as <-;
    match goal with |- _ = ?rhs => match eval unfold normal_identity_emd, poisson_log_emd, gamma_log_emd, inv_gaussian_log_emd, tweedie_log_emd, binomial_logit_emd, negative_binomial_log_emd in rhs with
      | (map ?g1 _, map ?g2 _, ?c * lsumf ?g3 _) => apply (X g1 g2 (fun z => c * z) g3)
      | (map ?g1 _, map ?g2 _, lsumf ?g3 _) => apply (X g1 g2 (fun z => z) g3)
      | (let r := ?rr in (map ?g1 _, map ?g2 _, ?c * lsumf ?g3 _)) => apply (X g1 g2 (fun z => c * z) (let r := rr in g3))
    end end; try reflexivity;
    intros i x Ex; destruct (HA i x Ex) as (A1 & A2 & A3 & A4);
    cbn; unfold setv; cbn; unfold setv; cbn; unfold view; rewrite ?A1, ?A2, ?A3, ?A4; unfold new_eta, binomial_logit_mu;
    try (destruct (Rlt_dec 0 _)); cbn; rewrite ?A1, ?A2, ?A3, ?A4; repeat split; try reflexivity; try ring.
Qed.
Print Assumptions C75_eta_mu_deviance.

(** the rowwise gradient and Hessian *)
Theorem C75_gradient_hessian : forall f lk K l etas m0 chunks sched m ts,
  rows_kernel f lk = Some K -> obs_args m0 l -> division (length l) chunks ->
  par_run (k_loop K) sched (m0, threads_of chunks) = (m, ts) -> all_over ts -> length etas = length l ->
  read m AGradOut (length l) = map (fun eo => gradient_row f lk (oy (snd eo)) (ow (snd eo)) (fst eo) (omu (snd eo))) (combine etas l) /\
  read m AHessOut (length l) = map (fun eo => hessian_row f lk (oy (snd eo)) (ow (snd eo)) (fst eo) (omu (snd eo))) (combine etas l) /\
  (forall a i, a <> AGradOut -> a <> AHessOut -> m a i = m0 a i) /\ (forall a i, (length l <= i)%nat -> m a i = m0 a i).
Proof.
  intros f lk K l etas m0 chunks sched m ts EK HA HD E HO HL.
  destruct (par_rows _ _ _ _ _ _ _ _ (rows_local _ _ _ EK) HD E HO (Permutation_refl ts)) as (H1 & H2 & _). clear E HO HD.
  assert (HF : forall a i, a <> AGradOut -> a <> AHessOut -> fst (run_row (k_loop K i) (view m0 i)) a = m0 a i).
  { clear -EK. unfold rows_kernel in EK. intros a i Ha Hb.
    destruct f, lk; try discriminate;
    repeat match type of EK with context [Req_EM_T ?a ?b] => destruct (Req_EM_T a b) | context [Rlt_dec ?a ?b] => destruct (Rlt_dec a b) end; try discriminate; injection EK as <-;
    cbn; unfold setv; destruct a; try congruence; reflexivity. }
  assert (HG : forall i o eta, nth_error l i = Some o -> fst (run_row (k_loop K i) (view m0 i)) AGradOut = gradient_row f lk (oy o) (ow o) eta (omu o) /\
     fst (run_row (k_loop K i) (view m0 i)) AHessOut = hessian_row f lk (oy o) (ow o) eta (omu o)).
  { intros i o eta Eo. destruct (HA i o Eo) as (A1 & A2 & A3). clear -EK A1 A2 A3. unfold rows_kernel in EK. unfold gradient_row, hessian_row, rowwise.
    destruct f, lk; try discriminate;
    repeat match type of EK with context [Req_EM_T ?a ?b] => destruct (Req_EM_T a b) | context [Rlt_dec ?a ?b] => destruct (Rlt_dec a b) end; try discriminate; injection EK as <-;
    cbn; unfold setv; cbn; unfold view; rewrite ?A1, ?A2, ?A3; split; reflexivity. }
  assert (LC : length (combine etas l) = length l) by (rewrite combine_length; lia).
  assert (HN : forall i eo, nth_error (combine etas l) i = Some eo -> nth_error l i = Some (snd eo)).
  { clear. revert l. induction etas as [|e es IH]; intros [|o l] [|i] eo H; cbn in *; try discriminate; [injection H as <-; reflexivity|auto]. }
  split; [|split; [|split; [|auto]]].
  - rewrite <- LC. apply read_rows. intros i eo Ex. apply HN in Ex. rewrite H1 by (apply nth_error_Some; congruence). apply HG, Ex.
  - rewrite <- LC. apply read_rows. intros i eo Ex. apply HN in Ex. rewrite H1 by (apply nth_error_Some; congruence). apply HG, Ex.
  - intros a i Ha Hb. destruct (Nat.lt_ge_cases i (length l)) as [Hi|Hi]; [|auto]. rewrite H1 by exact Hi. auto.
Qed.
Print Assumptions C75_gradient_hessian.

(** the deviance *)
Theorem C75_deviance : forall f K l m0 chunks sched m ts ts',
  deviance_kernel f = Some K -> obs_args m0 l -> division (length l) chunks ->
  par_run (k_loop K) sched (m0, threads_of chunks) = (m, ts) -> all_over ts -> Permutation ts ts' ->
  k_return K (reduced ts') = deviance f l /\ (forall a i, m a i = m0 a i).
Proof.
  intros f K l m0 chunks sched m ts ts' EK HA HD E HO HP.
  destruct (par_rows _ _ _ _ _ _ _ _ (deviance_local _ _ EK) HD E HO HP) as (H1 & H2 & H3).
  rewrite (k_return_ext K _ _ H3). clear H3 E HO HP HD.
  assert (HF : forall i, fst (run_row (k_loop K i) (view m0 i)) = view m0 i).
  { clear -EK. intros i. unfold deviance_kernel in EK. destruct f; try discriminate;
    repeat match type of EK with context [Req_EM_T ?a ?b] => destruct (Req_EM_T a b) end; try discriminate; injection EK as <-;
    cbn; try (destruct (Rlt_dec 0 _)); reflexivity. }
  split.
  2:{ intros a i. destruct (Nat.lt_ge_cases i (length l)) as [Hi|Hi]; [|auto]. rewrite H1 by exact Hi. rewrite HF. reflexivity. }
  clear HF H1 H2.
  assert (X : forall (h : R -> R) g,
    (forall i x, nth_error l i = Some x -> snd (run_row (k_loop K i) (view m0 i)) 0%nat = g x) -> (forall acc, k_return K acc = h (acc 0%nat)) ->
    k_return K (fun r => lsumf (fun i => snd (run_row (k_loop K i) (view m0 i)) r) (seq 0 (length l))) = h (lsumf g l)).
  { intros h g HX HK. rewrite HK. f_equal. apply lsumf_rows, HX. }
  unfold deviance_kernel in EK. unfold deviance.
  destruct f; try discriminate;
    repeat match type of EK with context [Req_EM_T ?a ?b] => destruct (Req_EM_T a b) end; try discriminate; injection EK as <-;
    match goal with |- _ = ?rhs => match eval cbv beta zeta delta [normal_deviance poisson_deviance gamma_deviance inv_gaussian_deviance tweedie_deviance negative_binomial_deviance] in rhs with
      | ?c * lsumf ?g _ => apply (X (fun z => c * z) g)
      | lsumf ?g _ => apply (X (fun z => z) g)
    end end; try reflexivity;
    intros i x Ex; destruct (HA i x Ex) as (A1 & A2 & A3);
    cbn; unfold view; rewrite ?A1, ?A2, ?A3;
    try (destruct (Rlt_dec 0 _)); cbn; rewrite ?A1, ?A2, ?A3; ring.
Qed.
Print Assumptions C75_deviance.

(** the log-likelihood *)
Theorem C75_log_likelihood : forall lg tw f phi K l m0 chunks sched m ts ts',
  ll_kernel lg tw f phi = Some K -> obs_args m0 l -> division (length l) chunks ->
  par_run (k_loop K) sched (m0, threads_of chunks) = (m, ts) -> all_over ts -> Permutation ts ts' ->
  log_likelihood lg tw f phi l = Some (k_return K (reduced ts')) /\ (forall a i, m a i = m0 a i).
Proof.
  intros lg tw f phi K l m0 chunks sched m ts ts' EK HA HD E HO HP.
  destruct (par_rows _ _ _ _ _ _ _ _ (ll_local _ _ _ _ _ EK) HD E HO HP) as (H1 & H2 & H3).
  rewrite (k_return_ext K _ _ H3). clear H3 E HO HP HD.
  assert (HF : forall i, fst (run_row (k_loop K i) (view m0 i)) = view m0 i).
  { clear -EK. intros i. unfold ll_kernel in EK. destruct f; try discriminate;
    repeat match type of EK with context [Req_EM_T ?a ?b] => destruct (Req_EM_T a b) | context [Rlt_dec ?a 2] => destruct (Rlt_dec a 2) end; try discriminate; injection EK as <-;
    cbn; try (destruct (Rlt_dec 0 _)); reflexivity. }
  split.
  2:{ intros a i. destruct (Nat.lt_ge_cases i (length l)) as [Hi|Hi]; [|auto]. rewrite H1 by exact Hi. rewrite HF. reflexivity. }
  clear HF H1 H2.
  assert (X : forall (h : R -> R -> R) g0 g1,
    (forall i x, nth_error l i = Some x -> snd (run_row (k_loop K i) (view m0 i)) 0%nat = g0 x /\ snd (run_row (k_loop K i) (view m0 i)) 1%nat = g1 x) ->
    (forall acc, k_return K acc = h (acc 0%nat) (acc 1%nat)) ->
    h (lsumf g0 l) (lsumf g1 l) = k_return K (fun r => lsumf (fun i => snd (run_row (k_loop K i) (view m0 i)) r) (seq 0 (length l)))).
  { intros h g0 g1 HX HK. rewrite HK. symmetry. f_equal; apply lsumf_rows; intros i x Ex; apply HX, Ex. }
  unfold ll_kernel in EK. unfold log_likelihood.
  destruct f; try discriminate;
    repeat match type of EK with context [Req_EM_T ?a ?b] => destruct (Req_EM_T a b) | context [Rlt_dec ?a 2] => destruct (Rlt_dec a 2) end; try discriminate; injection EK as <-; f_equal;
    match goal with |- ?lhs = _ => match eval cbv beta zeta delta [normal_ll poisson_ll gamma_ll inv_gaussian_ll tweedie_ll negative_binomial_ll] in lhs with
      | lsumf ?g0 _ / ?d + lsumf ?g1 _ * ?e / 2 => apply (X (fun z0 z1 => z0 / d + z1 * e / 2) g0 g1)
      | lsumf ?g0 _ - ?d * lsumf ?g1 _ => apply (X (fun z0 z1 => z0 - d * z1) g0 g1)
      | lsumf ?g0 _ + lsumf ?g1 _ * ?e / 2 => apply (X (fun z0 z1 => z0 + z1 * e / 2) g0 g1)
      | lsumf ?g0 _ => apply (X (fun z0 z1 => z0) g0 (fun _ => 0))
    end end; try reflexivity;
    intros i x Ex; destruct (HA i x Ex) as (A1 & A2 & A3);
    cbn; unfold view; rewrite ?A1, ?A2, ?A3;
    try (destruct (Rlt_dec 0 _)); cbn; rewrite ?A1, ?A2, ?A3; split; ring.
Qed.
Print Assumptions C75_log_likelihood.

(** identify_active_rows *)
Lemma diff_loop_spec n m : fst (diff_loop n m) = (fun a i => if arr_eq_dec a ADiff then (if Nat.ltb i n then m AHess i - m AOldHess i else m ADiff i) else m a i) /\
  snd (diff_loop n m) = max_abs_diff n (m AHess) (m AOldHess).
Proof.
  induction n as [|n [IH1 IH2]]; cbn [diff_loop max_abs_diff].
  - cbn. split; [|reflexivity]. apply functional_extensionality. intros a. apply functional_extensionality. intros i. destruct (arr_eq_dec a ADiff) as [->|]; reflexivity.
  - destruct (diff_loop n m) as [m1 mx]. cbn [fst snd] in *. subst m1 mx.
    assert (V : forall b i, b <> ADiff -> (if arr_eq_dec b ADiff then if Nat.ltb i n then m AHess i - m AOldHess i else m ADiff i else m b i) = m b i)
      by (intros b i Hb; destruct (arr_eq_dec b ADiff); congruence).
    split.
    + apply functional_extensionality. intros a. apply functional_extensionality. intros i. unfold store.
      destruct (arr_eq_dec a ADiff) as [->|Ha]; [|reflexivity].
      destruct (Nat.eqb_spec i n) as [->|Hi].
      * rewrite (proj2 (Nat.ltb_lt n (S n))) by lia. reflexivity.
      * destruct (Nat.ltb_spec i n); destruct (Nat.ltb_spec i (S n)); try lia; reflexivity.
    + unfold store. cbn. rewrite Nat.eqb_refl. reflexivity.
Qed.
Theorem C75_active_rows : forall n C m0 chunks sched m ts,
  let '(m1, max_diff) := diff_loop n m0 in
  division n chunks ->
  par_run (k_loop (k_active_rows C max_diff)) sched (m1, threads_of chunks) = (m, ts) -> all_over ts ->
  let '(diff, rows, h) := identify_active_rows n (m0 AHess) (m0 AOldHess) C in
  read m ADiff n = map diff (seq 0 n) /\ where_nonzero n m = rows /\ read m AHess n = map h (seq 0 n) /\
  (forall a i, a <> ADiff -> a <> AHess -> m a i = m0 a i).
Proof.
  intros n C m0 chunks sched m ts. destruct (diff_loop_spec n m0) as [D1 D2]. destruct (diff_loop n m0) as [m1 mx]. cbn [fst snd] in D1, D2.
  intros HD E HO. destruct (par_rows _ _ _ _ _ _ _ _ (active_local C mx) HD E HO (Permutation_refl ts)) as (H1 & H2 & _).
  unfold identify_active_rows. rewrite <- D2. clear D2 E HO HD.
  assert (V : forall i, (i < n)%nat -> m1 ADiff i = m0 AHess i - m0 AOldHess i /\ m1 AHess i = m0 AHess i /\ m1 AOldHess i = m0 AOldHess i).
  { intros i Hi. subst m1. cbv beta. rewrite (proj2 (Nat.ltb_lt i n) Hi). split; [|split]; reflexivity. }
  assert (A : forall i, (i < n)%nat -> m ADiff i = (if Rltb (Rabs (m0 AHess i - m0 AOldHess i)) (C * mx) then 0 else m0 AHess i - m0 AOldHess i) /\
     m AHess i = (if Rltb (Rabs (m0 AHess i - m0 AOldHess i)) (C * mx) then m0 AOldHess i else m0 AHess i)).
  { intros i Hi. destruct (V i Hi) as (V1 & V2 & V3). rewrite !H1 by exact Hi. cbn. unfold view. rewrite V1.
    destruct (Rltb _ _); cbn; unfold setv; cbn; rewrite ?V1, ?V2, ?V3; auto. }
  split; [apply map_ext_in; intros i Hi; apply in_seq in Hi; apply A; lia|].
  split; [unfold where_nonzero; apply filter_ext_in; intros i Hi; apply in_seq in Hi; do 2 f_equal; apply A; lia|].
  split; [apply map_ext_in; intros i Hi; apply in_seq in Hi; apply A; lia|].
  intros a i Ha Hb. destruct (Nat.lt_ge_cases i n) as [Hi|Hi].
  - rewrite H1 by exact Hi. cbn. transitivity (m1 a i); [|subst m1; cbn; destruct (arr_eq_dec a ADiff); [congruence|reflexivity]].
    destruct (Rltb _ _); cbn; unfold setv; destruct a; try congruence; reflexivity.
  - rewrite H2 by exact Hi. subst m1. cbn. destruct (arr_eq_dec a ADiff); [congruence|reflexivity].
Qed.
Print Assumptions C75_active_rows.

(** a run with two threads that interleave: three rows of normal data, thread 0 has rows 2 and 0 *)
Definition ex75_mem : memory := fun a i => match a with AWeights => 1 | AY => INR i | AMu => 1 | _ => 0 end.
Definition ex75_sched : list nat := concat (repeat [0; 1; 0]%nat 5).
Example C75_nonvacuous : exists m ts,
  deviance_kernel NormalF = Some k_normal_deviance /\ obs_args ex75_mem [mkobs 0 1 1; mkobs 1 1 1; mkobs 2 1 1] /\
  division 3 [[2; 0]; [1]]%nat /\
  par_run (k_loop k_normal_deviance) ex75_sched (ex75_mem, threads_of [[2; 0]; [1]]%nat) = (m, ts) /\ all_over ts /\
  ~ all_over (snd (par_run (k_loop k_normal_deviance) [0; 1; 0; 1; 0]%nat (ex75_mem, threads_of [[2; 0]; [1]]%nat))).
Proof.
  eexists. eexists. split; [reflexivity|]. split.
  { intros i o E. destruct i as [|[|[|i]]]; cbn in E; [| | |destruct i; discriminate]; injection E as <-; cbn; repeat split; lra. }
  split; [apply Permutation_sym; cbn; apply (perm_trans (l' := [0; 2; 1]%nat)); [repeat constructor|constructor]|].
  split; [apply surjective_pairing|]. split.
  - repeat constructor.
  - intros H. cbn in H. inversion H as [|? ? [X _] _]. discriminate.
Qed.
