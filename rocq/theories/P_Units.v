(** Theorem C65: changes of units. *)
From Coq Require Import FunctionalExtensionality.
From Verif Require Import M_Std S_Std L_Link L_Dist L_Dist2 L_Dist4 L_CD L_KKT L_Hess L_Solver L_Solver2 L_Solver3 L_Obj L_Std L_Fit P_Solver P_Obj P_Std P_Fit L_Score.
From Verif Require Import M_Solver S_Solver S_Fit.
Local Open Scope R_scope.

Section Units.
Variables (u : user) (c t : nat -> R).
Hypothesis HW : rsum (u_n u) (u_w u) = 1.
Hypothesis HC : forall j, (j < u_p u)%nat -> 0 < c j.
Hypothesis HT : u_ic u = false -> forall j, (j < u_p u)%nat -> t j = 0.
Hypothesis HS : forall j, (j < u_p u)%nat -> std_threshold <= u_stds u j /\ std_threshold <= c j * u_stds u j.
Let u' := in_units u c t.

Lemma un_wmean j : (j < u_p u)%nat -> wmean (u_n u) (u_w u) (fun i => u_X u' i j) = c j * wmean (u_n u) (u_w u) (fun i => u_X u i j) + t j.
Proof.
  intros Hj. unfold wmean. cbn [u' in_units u_X]. apply Nat.ltb_lt in Hj. rewrite Hj.
  rewrite (rsum_ext _ _ (fun i => c j * (u_w u i * u_X u i j) + u_w u i * t j)) by (intros; ring).
  rewrite rsum_plus, rsum_scal, rsum_scal_r, HW. ring.
Qed.
Lemma un_means j : u_means u' j = if Nat.ltb j (u_p u) then c j * u_means u j + (if u_ic u then t j else 0) else u_means u j.
Proof.
  unfold u_means, col_means. change (u_ic u') with (u_ic u). change (u_n u') with (u_n u). change (u_w u') with (u_w u).
  destruct (Nat.ltb_spec j (u_p u)) as [L|L].
  - rewrite un_wmean by exact L. destruct (u_ic u); ring.
  - destruct (u_ic u); [|reflexivity]. unfold wmean. cbn [u' in_units u_X]. apply Nat.ltb_ge in L. rewrite L. reflexivity.
Qed.
Lemma un_stds j : u_stds u' j = if Nat.ltb j (u_p u) then c j * u_stds u j else u_stds u j.
Proof.
  unfold u_stds, col_stds. change (u_n u') with (u_n u). change (u_w u') with (u_w u).
  destruct (Nat.ltb_spec j (u_p u)) as [L|L].
  - rewrite un_wmean by exact L. pose proof (HC j L) as P.
    match goal with |- _ = _ * ?S => transitivity (sqrt (Rsqr (c j)) * S); [|rewrite sqrt_Rsqr by lra; reflexivity] end.
    rewrite <- sqrt_mult_alt by apply Rle_0_sqr. f_equal.
    rewrite <- rsum_scal. apply rsum_ext. intros i _. cbn [u' in_units u_X]. apply Nat.ltb_lt in L. rewrite L. unfold Rsqr. ring.
  - f_equal. apply rsum_ext. intros i _. unfold wmean. cbn [u' in_units u_X]. apply Nat.ltb_ge in L. rewrite L. reflexivity.
Qed.
Lemma un_one_over j : (j < u_p u)%nat -> one_over (u_stds u j) = / u_stds u j /\ one_over (u_stds u' j) = / (c j * u_stds u j) /\ 0 < u_stds u j.
Proof.
  intros Hj. destruct (HS j Hj) as [A B]. pose proof (HC j Hj).
  assert (T0 : 0 < std_threshold) by (unfold std_threshold; apply Rdiv_lt_0_compat; [lra|apply pow_lt; lra]).
  rewrite un_stds. apply Nat.ltb_lt in Hj. rewrite Hj. unfold one_over.
  rewrite !Rabs_right by lra. rewrite !(proj2 (Rltb_false _ _)) by assumption. unfold Rdiv. rewrite !Rmult_1_l. repeat split; lra.
Qed.
Lemma un_std_X : std_X (u_X u') (u_means u') (u_stds u') = std_X (u_X u) (u_means u) (u_stds u).
Proof.
  apply functional_extensionality. intros i. apply functional_extensionality. intros j. unfold std_X.
  rewrite un_means. cbn [u' in_units u_X]. fold u'. destruct (Nat.ltb_spec j (u_p u)) as [L|L].
  - destruct (un_one_over j L) as [-> [-> P]]. pose proof (HC j L).
    assert (Q : (if u_ic u then t j else 0) = t j) by (destruct (u_ic u) eqn:E; [reflexivity|rewrite HT by auto; reflexivity]).
    rewrite Q. field. lra.
  - rewrite un_stds. apply Nat.ltb_ge in L. rewrite L. reflexivity.
Qed.
Lemma un_bounds (b : bounds) : std_bounds (fun j => match b j with Some x => Some (if Nat.ltb j (u_p u) then x / c j else x) | None => None end) (u_stds u') = std_bounds b (u_stds u).
Proof.
  apply functional_extensionality. intros j. unfold std_bounds. destruct (b j) as [x|]; [|reflexivity]. f_equal.
  destruct (Nat.ltb_spec j (u_p u)) as [L|L].
  - destruct (un_one_over j L) as [-> [-> P]]. pose proof (HC j L). field. lra.
  - rewrite un_stds. apply Nat.ltb_ge in L. rewrite L. reflexivity.
Qed.
Hypothesis HP : u_scale u = true \/ forall j, (j < u_p u)%nat -> c j = 1.
Lemma un_one_over_eq : (forall j, (j < u_p u)%nat -> c j = 1) -> u_stds u' = u_stds u.
Proof.
  intros H. apply functional_extensionality. intros j. rewrite un_stds. destruct (Nat.ltb_spec j (u_p u)) as [L|L]; [rewrite H by exact L; ring|reflexivity].
Qed.
Lemma un_P1 : std_P1 (u_scale u) (u_P1 u) (u_stds u') = std_P1 (u_scale u) (u_P1 u) (u_stds u).
Proof. unfold std_P1. destruct HP as [-> |H]; [reflexivity|]. rewrite un_one_over_eq by exact H. reflexivity. Qed.
Lemma un_P2 : std_problem_P2 u' = std_problem_P2 u.
Proof. unfold std_problem_P2, std_P2. cbn [u' in_units u_scale u_P2]. fold u'. destruct HP as [-> |H]; [reflexivity|]. rewrite un_one_over_eq by exact H. reflexivity. Qed.
Lemma un_problem se : std_problem u' se = std_problem u se.
Proof.
  unfold std_problem. rewrite un_std_X. cbn [u' in_units u_n u_p u_y u_w u_off u_ic u_fam u_link u_P1 u_lb u_ub u_scale]. fold u'.
  rewrite un_P1, !un_bounds. reflexivity.
Qed.
Lemma un_start guess : (forall j, within (u_lb u j) (u_ub u j) 0) ->
  get_start_coef (u_p u') (u_ic u') (u_means u') (u_stds u') guess (u_lb u') (u_ub u') StartNone
  = get_start_coef (u_p u) (u_ic u) (u_means u) (u_stds u) guess (u_lb u) (u_ub u) StartNone.
Proof.
  intros H0. unfold get_start_coef. cbv zeta. apply functional_extensionality. intros k. unfold clip_start. change (u_ic u') with (u_ic u).
  destruct (Nat.ltb_spec k (ioff (u_ic u))) as [L|L]; [reflexivity|].
  assert (E : pack (u_ic u) guess (fun _ => 0) k = 0) by (unfold pack; destruct (u_ic u); [destruct k; [cbn in L; lia|reflexivity]|reflexivity]).
  rewrite E, !clip_zero; [reflexivity|apply H0|]. set (j := (k - _)%nat). destruct (H0 j) as [A B]. cbn [u' in_units u_lb u_ub].
  split.
  - intros x Hx. destruct (u_lb u j) as [y|] eqn:Ey; [|discriminate]. injection Hx as <-. specialize (A y eq_refl).
    destruct (Nat.ltb_spec j (u_p u)) as [L'|L']; [|exact A]. pose proof (HC j L'). apply Rmult_le_reg_r with (c j); [lra|]. unfold Rdiv. rewrite Rmult_assoc, Rinv_l by lra. lra.
  - intros x Hx. destruct (u_ub u j) as [y|] eqn:Ey; [|discriminate]. injection Hx as <-. specialize (B y eq_refl).
    destruct (Nat.ltb_spec j (u_p u)) as [L'|L']; [|exact B]. pose proof (HC j L'). apply Rmult_le_reg_r with (c j); [lra|]. unfold Rdiv. rewrite Rmult_assoc, Rinv_l by lra. lra.
Qed.
End Units.

(** C65: fitted means do not depend on the units of the columns (with scale_predictors=True), nor, with an
    intercept, on their origin: the fit of the transformed data raises, warns or succeeds exactly as the
    original one, each coefficient is divided by its factor, and every transformed new row gets the linear
    predictor the original row got. *)
Theorem C65_units : forall u c t se seed guess, rsum (u_n u) (u_w u) = 1 ->
  (forall j, (j < u_p u)%nat -> 0 < c j) -> (u_ic u = false -> forall j, (j < u_p u)%nat -> t j = 0) ->
  (u_scale u = true \/ forall j, (j < u_p u)%nat -> c j = 1) ->
  (forall j, (j < u_p u)%nat -> std_threshold <= u_stds u j /\ std_threshold <= c j * u_stds u j) ->
  (forall j, within (u_lb u j) (u_ub u j) 0) ->
  match fit_cd u se seed guess StartNone with
  | None => fit_cd (in_units u c t) se seed guess StartNone = None
  | Some (b0, b, warned) =>
      exists b0' b', fit_cd (in_units u c t) se seed guess StartNone = Some (b0', b', warned) /\
        (forall j, (j < u_p u)%nat -> b' j = b j / c j) /\
        forall x off, b0' + rsum (u_p u) (fun j => (c j * x j + t j) * b' j) + off = b0 + rsum (u_p u) (fun j => x j * b j) + off
  end.
Proof.
  intros u c t se seed guess HW HC HT HP HS H0. unfold fit_cd.
  rewrite (un_problem u c t HW HC HT HS HP), (un_P2 u c t HW HC HP). rewrite (un_start u c t HC HT guess H0).
  destruct (irls_solver _ _ _ _) as [[sf w]|]; [|reflexivity]. set (v := st_coef sf).
  destruct (user_result u v) as [b0 b] eqn:E. destruct (user_result (in_units u c t) v) as [b0' b'] eqn:E'.
  exists b0', b'. split; [reflexivity|].
  assert (B : forall j, b j = v (ioff (u_ic u) + j)%nat * one_over (u_stds u j)) by (intros j; rewrite <- (result_coef u v), E; reflexivity).
  assert (B' : forall j, b' j = v (ioff (u_ic u) + j)%nat * one_over (u_stds (in_units u c t) j)) by (intros j; change (u_ic u) with (u_ic (in_units u c t)); rewrite <- (result_coef (in_units u c t) v), E'; reflexivity).
  assert (K : forall j, (j < u_p u)%nat -> b' j = b j / c j).
  { intros j Hj. rewrite B, B'. destruct (un_one_over u c t HW HC HS j Hj) as [-> [-> P]]. pose proof (HC j Hj). field. lra. }
  split; [exact K|].
  assert (I0 : b0 = (if u_ic u then v 0%nat else 0) - rsum (u_p u) (fun j => u_means u j * b j)).
  { transitivity (fst (user_result u v)); [rewrite E; reflexivity|]. unfold user_result, unpack. 
    destruct (u_ic u) eqn:Hic; cbn [unstandardize fst]; f_equal; apply rsum_ext; intros j _; rewrite B; cbn [ioff Nat.add]; ring. }
  assert (I1 : b0' = (if u_ic u then v 0%nat else 0) - rsum (u_p u) (fun j => u_means (in_units u c t) j * b' j)).
  { transitivity (fst (user_result (in_units u c t) v)); [rewrite E'; reflexivity|]. unfold user_result, unpack. change (u_ic (in_units u c t)) with (u_ic u).
    destruct (u_ic u) eqn:Hic; cbn [unstandardize fst]; f_equal; apply rsum_ext; intros j _; rewrite B'; cbn [ioff Nat.add]; ring. }
  intros x off. f_equal. rewrite I0, I1.
  match goal with |- ?a - ?s1 + ?s2 = ?a - ?s3 + ?s4 => cut (s2 - s1 = s4 - s3); [lra|] end.
  rewrite <- !rsum_minus. apply rsum_ext. intros j Hj. rewrite (un_means u c t HW HT). rewrite (proj2 (Nat.ltb_lt _ _) Hj), K by exact Hj.
  assert (Q : (if u_ic u then t j else 0) = t j) by (destruct (u_ic u) eqn:Hic; [reflexivity|rewrite HT by auto; reflexivity]).
  rewrite Q. pose proof (HC j Hj). field. lra.
Qed.
Print Assumptions C65_units.

(** a price in cents instead of euros, and an origin moved by 7 *)
Definition ex65_u : user :=
  mkUser 2 1 (fun i _ => match i with O => 1 | _ => 3 end) (fun i => match i with O => 1 | _ => 2 end)
         (fun _ => / 2) (fun _ => 0) true PoissonF LogL (fun _ => 1) (P2diag (fun _ => 1)) (fun _ => Some 0) (fun _ => None) true.
Example C65_nonvacuous : rsum (u_n ex65_u) (u_w ex65_u) = 1 /\ (forall j, (j < u_p ex65_u)%nat -> std_threshold <= u_stds ex65_u j /\ std_threshold <= 100 * u_stds ex65_u j)
  /\ (forall j, within (u_lb ex65_u j) (u_ub ex65_u j) 0).
Proof.
  split; [cbn; lra|]. split.
  - intros j _. assert (E : u_stds ex65_u j = 1).
    { unfold u_stds, col_stds, wmean. cbn. match goal with |- sqrt ?x = _ => replace x with 1 by field end. apply sqrt_1. }
    rewrite E. assert (std_threshold <= 1); [|lra]. unfold std_threshold. apply Rmult_le_reg_r with (2 ^ 26); [apply pow_lt; lra|].
    unfold Rdiv. rewrite Rmult_assoc, Rinv_l by (apply pow_nonzero; lra). cbn. lra.
  - intros j. split; intros x Hx; [injection Hx as <-; lra|discriminate].
Qed.
