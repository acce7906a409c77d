(** Theorems C111: standard errors, tests and tables do not depend on how the columns are written. *)
From Verif Require Import M_Cov S_Cov S_Basis L_Lin L_CV L_Cov L_Wald.
From Coq Require Import FunctionalExtensionality String List.
Import ListNotations.
From Verif Require Import M_Solver S_Solver.
Local Open Scope R_scope.

(** the matrix that is inverted, the one in the middle, and whether the preconditions hold *)
Definition bread (c : cov_in) (robust expected : bool) (cl : option (list Z)) : mat :=
  match cl with Some _ => information c expected | None => if robust then information c expected else fisher_information c (ci_dispersion c) end.
Definition filling (c : cov_in) (robust : bool) (cl : option (list Z)) : option mat :=
  match cl with
  | Some groups => match group_sum groups (ci_n c) (row_score c) with
      | None => None
      | Some gg => let g := INR (n_groups groups) in
          if Nat.eqb (n_groups groups) 1 then None
          else Some (fun a b => g / (g - 1) * ((total_weight c - 1) / dof c) * gram (n_groups groups) gg a b)
      end
  | None => Some (if robust then fun a b => total_weight c / dof c * gram (ci_n c) (row_score c) a b
                  else fun a b => total_weight c / dof c * fisher_information c (ci_dispersion c) a b)
  end.
Lemma fisher_sym c phi k : sym k (fisher_information c phi).
Proof. apply sandwich_is_sym. Qed.
Lemma cov_core c rb e cl V : covariance_matrix c rb e cl = Some V ->
  nonsingular (ci_k c) (bread c rb e cl) /\
  exists M, filling c rb cl = Some M /\ prod3_is (ci_k c) (bread c rb e cl) V (bread c rb e cl) M.
Proof.
  intros E. unfold covariance_matrix in E. destruct (ci_ill c); [discriminate|]. destruct (Reqb _ 0) eqn:ED; [discriminate|].
  fold (total_weight c) in E. fold (dof c) in E. fold (row_score c) in E.
  change (if e then fisher_information c (ci_dispersion c) else observed_information c (ci_dispersion c)) with (information c e) in E.
  destruct cl as [groups|]; cbn [bread filling].
  - destruct (group_sum groups (ci_n c) (row_score c)) as [gg|] eqn:EG; [|discriminate].
    destruct (Nat.eqb_spec (n_groups groups) 1) as [|Hg]; [discriminate|].
    destruct (gsolve_mat (ci_k c) (information c e) (gram _ gg)) as [Y|] eqn:EY; [|discriminate].
    destruct (gsolve_mat _ _ (transpose Y)) as [W|] eqn:EW; [|discriminate]. injection E as <-.
    destruct (sandwich_full _ _ _ _ _ (INR (n_groups groups) / (INR (n_groups groups) - 1) * ((total_weight c - 1) / dof c)) (information_sym c e _) (gram_sym _ _ _) EY EW) as [A [B _]].
    split; [apply invertible_nonsingular, A|]. eexists; split; [reflexivity | exact B].
  - destruct rb.
    + destruct (gsolve_mat (ci_k c) (information c e) (gram _ _)) as [Y|] eqn:EY; [|discriminate].
      destruct (gsolve_mat _ _ (transpose Y)) as [W|] eqn:EW; [|discriminate]. injection E as <-.
      destruct (sandwich_full _ _ _ _ _ (total_weight c / dof c) (information_sym c e _) (gram_sym _ _ _) EY EW) as [A [B _]].
      split; [apply invertible_nonsingular, A|]. eexists; split; [reflexivity | exact B].
    + unfold ginv in E. destruct (gsolve_mat _ _ _) as [Y|] eqn:EY; [|discriminate]. injection E as <-.
      apply gsolve_mat_sound in EY as [NS EY]. split; [exact NS|]. eexists; split; [reflexivity|].
      set (F := fisher_information c (ci_dispersion c)) in *. set (k := ci_k c) in *.
      apply prod3_is_mulm. intros i j Hi Hj. rewrite mulm_assoc. unfold mulm at 1.
      rewrite (rsum_ext k _ (fun l => (if Nat.eqb l i then 1 else 0) * (total_weight c / dof c * F l j))).
      2:{ intros l Hl. replace (mulm k F (fun i0 j0 => Y i0 j0 * (total_weight c / dof c)) i l) with (mulm k F Y i l * (total_weight c / dof c)).
          2:{ unfold mulm. rewrite <- rsum_scal_r. apply rsum_ext; intros; ring. }
          rewrite EY by exact Hi. unfold unit_vec. destruct (Nat.eqb_spec l i) as [->|N]; [rewrite Nat.eqb_refl; ring|].
          destruct (Nat.eqb_spec i l); [congruence | ring]. }
      rewrite (rsum_single k i); [rewrite Nat.eqb_refl; ring|exact Hi|]. intros l Hl N. destruct (Nat.eqb_spec l i); [contradiction | ring].
Qed.
Lemma cov_defined c rb e cl : (exists V, covariance_matrix c rb e cl = Some V) <->
  ci_ill c = false /\ dof c <> 0 /\ filling c rb cl <> None /\ nonsingular (ci_k c) (bread c rb e cl).
Proof.
  split.
  - intros [V E]. destruct (cov_core _ _ _ _ _ E) as [NS [M [F _]]]. unfold covariance_matrix in E. destruct (ci_ill c); [discriminate|].
    destruct (Reqb _ 0) eqn:ED; [discriminate|]. apply Reqb_false in ED.
    split; [reflexivity | split; [exact ED | split; [rewrite F; discriminate | exact NS]]].
  - intros (I & D & F & NS). unfold covariance_matrix. rewrite I. fold (total_weight c). fold (dof c).
    destruct (Reqb (dof c) 0) eqn:ED; [apply Reqb_true in ED; contradiction|]. fold (row_score c).
    change (if e then fisher_information c (ci_dispersion c) else observed_information c (ci_dispersion c)) with (information c e).
    destruct cl as [groups|]; cbn [bread filling] in *.
    + destruct (group_sum groups (ci_n c) (row_score c)) as [gg|]; [|contradiction]. destruct (Nat.eqb _ 1); [contradiction|].
      destruct (sandwich_defined _ _ (gram (n_groups groups) gg) (nonsingular_invertible _ _ NS)) as [Y [V [EY EV]]]. rewrite EY, EV. eauto.
    + destruct rb.
      * destruct (sandwich_defined _ _ (gram (ci_n c) (row_score c)) (nonsingular_invertible _ _ NS)) as [Y [V [EY EV]]]. rewrite EY, EV. eauto.
      * unfold ginv. destruct (gsolve_mat_complete _ _ (fun i k => unit_vec k i) NS) as [Y ->]. eauto.
Qed.

Section Change.
Variables (T : mat) (c c' : cov_in).
Hypothesis HR : reparametrised T c c'.
Hypothesis HT : invertible (ci_k c) T.
Let k := ci_k c.
Lemma same_n : ci_n c' = ci_n c. Proof. apply HR. Qed.
Lemma same_k : ci_k c' = ci_k c. Proof. apply HR. Qed.
Lemma same_weight : total_weight c' = total_weight c.
Proof. destruct HR as (En & _ & _ & _ & _ & Ei & _). unfold total_weight; rewrite En; apply rsum_ext; intros i _; apply Ei. Qed.
Lemma same_dof : dof c' = dof c.
Proof. unfold dof; rewrite same_weight, same_k; reflexivity. Qed.
Lemma same_dispersion : ci_dispersion c' = ci_dispersion c.
Proof.
  destruct HR as (En & Ek & Ef & _ & Ep & Ei & _). unfold ci_dispersion; rewrite Ep, Ef, Ek.
  replace (ci_obs c') with (ci_obs c); [reflexivity|]. unfold ci_obs. rewrite En. apply map_ext. intros i. destruct (Ei i) as [-> [-> ->]]. reflexivity.
Qed.
Lemma new_score i b : (b < k)%nat -> row_score c' i b = rsum k (fun l => row_score c i l * T l b).
Proof.
  intros Hb. destruct HR as (En & Ek & Ef & El & Ep & Ei & Ex). unfold row_score, score_matrix. rewrite same_dispersion, Ef, El.
  destruct (Ei i) as [-> [-> ->]]. rewrite Ex by exact Hb. rewrite <- rsum_scal. apply rsum_ext. intros; ring.
Qed.
(** T' A T *)
Definition conj (A : mat) : mat := mulm k (transpose T) (mulm k A T).
Lemma conj_sum n (f : nat -> nat -> R) (g : nat -> nat -> R) (a b : nat) :
  (a < k)%nat -> (b < k)%nat -> rsum n (fun i => rsum k (fun l => f i l * T l a) * rsum k (fun l => g i l * T l b))
  = conj (fun l m => rsum n (fun i => f i l * g i m)) a b.
Proof.
  intros Ha Hb. unfold conj, mulm, transpose.
  rewrite (rsum_ext n _ (fun i => rsum k (fun l => rsum k (fun m => T l a * (f i l * g i m) * T m b)))).
  2:{ intros i _. rewrite <- rsum_scal_r. apply rsum_ext. intros l _. rewrite <- !rsum_scal. apply rsum_ext. intros; ring. }
  rewrite rsum_swap. apply rsum_ext. intros l _. rewrite rsum_swap. rewrite <- rsum_scal. apply rsum_ext. intros m _.
  rewrite <- rsum_scal_r, <- rsum_scal. apply rsum_ext. intros; ring.
Qed.
Lemma conj_ext A B a b : (forall l m, (l < k)%nat -> (m < k)%nat -> A l m = B l m) -> conj A a b = conj B a b.
Proof. intros H. unfold conj, mulm. apply rsum_ext; intros l Hl. f_equal. apply rsum_ext; intros m Hm. now rewrite H. Qed.
Lemma conj_scal z A a b : z * conj A a b = conj (fun l m => z * A l m) a b.
Proof. unfold conj, mulm. rewrite <- rsum_scal. apply rsum_ext; intros l _. rewrite <- !rsum_scal. apply rsum_ext; intros; ring. Qed.
Lemma new_sandwich d a b : (a < k)%nat -> (b < k)%nat -> info_sandwich c' d a b = conj (info_sandwich c d) a b.
Proof.
  intros Ha Hb. pose proof HR as (En & Ek & Ef & El & Ep & Ei & Ex). unfold info_sandwich at 1. rewrite En.
  rewrite (rsum_ext (ci_n c) _ (fun i => rsum k (fun l => (d i * ci_x c i l) * T l a) * rsum k (fun l => ci_x c i l * T l b))).
  2:{ intros i _. rewrite !Ex by assumption. f_equal. fold k. rewrite <- rsum_scal. apply rsum_ext; intros; ring. }
  rewrite conj_sum by assumption. reflexivity.
Qed.
Lemma info_sandwich_ext d d' : (forall i, (i < ci_n c)%nat -> d i = d' i) -> info_sandwich c d = info_sandwich c d'.
Proof. intros H. apply functional_extensionality; intro a; apply functional_extensionality; intro b. unfold info_sandwich; apply rsum_ext; intros i Hi; now rewrite H. Qed.
Lemma new_fisher a b : (a < k)%nat -> (b < k)%nat -> fisher_information c' (ci_dispersion c') a b = conj (fisher_information c (ci_dispersion c)) a b.
Proof.
  intros Ha Hb. unfold fisher_information. rewrite new_sandwich by assumption. rewrite same_dispersion.
  pose proof HR as (En & Ek & Ef & El & Ep & Ei & Ex). rewrite Ef, El. f_equal. apply info_sandwich_ext. intros i _. destruct (Ei i) as [-> [-> ->]]. reflexivity.
Qed.
Lemma new_information e a b : (a < k)%nat -> (b < k)%nat -> information c' e a b = conj (information c e) a b.
Proof.
  intros Ha Hb. unfold information. destruct e; [now apply new_fisher|]. unfold observed_information. rewrite new_sandwich by assumption. rewrite same_dispersion.
  pose proof HR as (En & Ek & Ef & El & Ep & Ei & Ex). rewrite Ef, El. f_equal. apply info_sandwich_ext. intros i _. destruct (Ei i) as [-> [-> ->]]. reflexivity.
Qed.
Lemma new_bread rb e cl a b : (a < k)%nat -> (b < k)%nat -> bread c' rb e cl a b = conj (bread c rb e cl) a b.
Proof. intros Ha Hb. unfold bread. destruct cl; [now apply new_information|]. destruct rb; [now apply new_information | now apply new_fisher]. Qed.
Lemma new_filling rb cl : match filling c rb cl, filling c' rb cl with
  | Some M, Some M' => forall a b, (a < k)%nat -> (b < k)%nat -> M' a b = conj M a b
  | None, None => True | _, _ => False end.
Proof.
  unfold filling. rewrite same_dof, same_weight, same_n. destruct cl as [groups|].
  - unfold group_sum. destruct (negb _); [exact I|]. destruct (all_opt _) as [cols|]; [|exact I]. destruct (Nat.eqb _ 1); [exact I|].
    intros a b Ha Hb. rewrite <- conj_scal. f_equal. unfold gram.
    rewrite <- conj_sum by assumption. apply rsum_ext; intros g _. f_equal.
    + rewrite (rsum_ext (ci_n c) _ (fun i => rsum k (fun l => (if Nat.eqb (nth i cols O) g then 1 else 0) * row_score c i l * T l a))).
      2:{ intros i _. rewrite new_score by exact Ha. rewrite <- rsum_scal. apply rsum_ext; intros; ring. }
      rewrite rsum_swap. apply rsum_ext; intros l _. now rewrite rsum_scal_r.
    + rewrite (rsum_ext (ci_n c) _ (fun i => rsum k (fun l => (if Nat.eqb (nth i cols O) g then 1 else 0) * row_score c i l * T l b))).
      2:{ intros i _. rewrite new_score by exact Hb. rewrite <- rsum_scal. apply rsum_ext; intros; ring. }
      rewrite rsum_swap. apply rsum_ext; intros l _. now rewrite rsum_scal_r.
  - destruct rb; intros a b Ha Hb; rewrite <- conj_scal; f_equal.
    + unfold gram. rewrite <- conj_sum by assumption. apply rsum_ext; intros i _. now rewrite !new_score.
    + now apply new_fisher.
Qed.
Lemma AS (A B C : mat) : mulm k (mulm k A B) C = mulm k A (mulm k B C).
Proof. apply functional_extensionality; intros p; apply functional_extensionality; intros q; symmetry; apply mulm_assoc. Qed.
Lemma conj_nonsingular A A' : (forall a b, (a < k)%nat -> (b < k)%nat -> A' a b = conj A a b) -> (nonsingular k A' <-> nonsingular k A).
Proof.
  intros E. pose proof (invertible_nonsingular _ _ HT) as NT. fold k in NT. pose proof (nonsingular_transpose _ _ NT) as NTt.
  assert (EV : forall x i, (i < k)%nat -> mulv k A' x i = mulv k (transpose T) (mulv k A (mulv k T x)) i).
  { intros x i Hi. rewrite <- !mulv_mulm. unfold mulv at 1. rewrite (rsum_ext k _ (fun j => conj A i j * x j)) by (intros j Hj; now rewrite E).
    change (mulv k (conj A) x i = mulv k (mulm k (mulm k (transpose T) A) T) x i). unfold conj. now rewrite AS. }
  split; intros NS x H j Hj.
  - (* T z = x has a solution *)
    destruct (gsolve_complete k T x NT) as [z Ez]. pose proof (gsolve_sound _ _ _ _ Ez) as Sz.
    assert (Zz : forall j, (j < k)%nat -> z j = 0).
    { apply NS. intros i Hi. rewrite EV by exact Hi. unfold mulv at 1. apply rsum_zero; intros l Hl.
      rewrite (mulv_ext k A _ x l) by exact Sz. rewrite H by exact Hl. ring. }
    rewrite <- Sz by exact Hj. unfold mulv. apply rsum_zero; intros l Hl. rewrite Zz by exact Hl. ring.
  - revert j Hj. apply NT. apply NS. apply NTt. intros i Hi. rewrite <- EV by exact Hi. now apply H.
Qed.
(** C111: with an invertible change of columns a matrix is returned for both or for neither (X'X well conditioned in both), of whichever kind, and
    T V' T' = V. *)
Theorem C111_covariance rb e cl : ci_ill c' = ci_ill c ->
  match covariance_matrix c rb e cl, covariance_matrix c' rb e cl with
  | Some V, Some V' => prod3_is (ci_k c) T V' (transpose T) V
  | None, None => True
  | _, _ => False
  end.
Proof.
  intros IL. pose proof (invertible_nonsingular _ _ HT) as NT. fold k in NT. pose proof (nonsingular_transpose _ _ NT) as NTt.
  pose proof (conj_nonsingular (bread c rb e cl) (bread c' rb e cl) (new_bread rb e cl)) as NB.
  pose proof (cov_defined c rb e cl) as D. pose proof (cov_defined c' rb e cl) as D'. rewrite IL, same_dof, same_k in D'.
  pose proof (new_filling rb cl) as NF.
  assert (DD : (exists V, covariance_matrix c rb e cl = Some V) <-> (exists V, covariance_matrix c' rb e cl = Some V)).
  { rewrite D, D'. fold k. rewrite NB. destruct (filling c rb cl), (filling c' rb cl); try contradiction; intuition congruence. }
  destruct (covariance_matrix c rb e cl) as [V|] eqn:E; destruct (covariance_matrix c' rb e cl) as [V'|] eqn:E'; [| | |exact I].
  2:{ destruct DD as [DD _]. destruct (DD (ex_intro _ _ eq_refl)); discriminate. }
  2:{ destruct DD as [_ DD]. destruct (DD (ex_intro _ _ eq_refl)); discriminate. }
  destruct (cov_core _ _ _ _ _ E) as [NH [M [EM P]]]. destruct (cov_core _ _ _ _ _ E') as [NH' [M' [EM' P']]]. rewrite same_k in *.
  rewrite EM, EM' in NF. fold k in P, P', NH, NH' |- *. set (H := bread c rb e cl) in *. rewrite prod3_is_mulm in *.
  set (Z := mulm k T (mulm k V' (transpose T))). change (forall i j, (i < k)%nat -> (j < k)%nat -> Z i j = V i j).
  assert (Q : forall a b, (a < k)%nat -> (b < k)%nat ->
     mulm k (transpose T) (mulm k (mulm k H (mulm k Z H)) T) a b = mulm k (transpose T) (mulm k (mulm k H (mulm k V H)) T) a b).
  { intros a b Ha Hb. transitivity (mulm k (bread c' rb e cl) (mulm k V' (bread c' rb e cl)) a b).
    - transitivity (mulm k (conj H) (mulm k V' (conj H)) a b).
      + unfold Z, conj. rewrite !AS. reflexivity.
      + apply mulm_ext; intros l Hl; [symmetry; apply new_bread; assumption|]. apply mulm_ext; intros m Hm; [reflexivity|]. symmetry. apply new_bread; assumption.
    - rewrite P' by assumption. rewrite NF by assumption. symmetry. apply conj_ext. intros l m Hl Hm. now apply P. }
  apply (cancel_right k H Z V NH). apply (cancel_left k H _ _ NH). apply (cancel_right k T _ _ NT). apply (cancel_left k (transpose T) _ _ NTt). exact Q.
Qed.
End Change.

(** R V R' and R b in the two bases *)
Lemma form_change k T V V' (x z : vect) : prod3_is k T V' (transpose T) V ->
  rsum k (fun l => rsum k (fun j => x j * V j l) * z l) = rsum k (fun b => rsum k (fun a => new_row k T x a * V' a b) * new_row k T z b).
Proof.
  intros P. unfold new_row.
  transitivity (rsum k (fun l => rsum k (fun j => rsum k (fun a => rsum k (fun b => x j * T j a * V' a b * T l b * z l))))).
  { apply rsum_ext; intros l Hl. rewrite <- rsum_scal_r. apply rsum_ext; intros j Hj. rewrite <- (P j l Hj Hl). unfold transpose.
    rewrite <- rsum_scal, <- rsum_scal_r. apply rsum_ext; intros a _. rewrite <- rsum_scal, <- rsum_scal_r. apply rsum_ext; intros; ring. }
  transitivity (rsum k (fun b => rsum k (fun a => rsum k (fun j => rsum k (fun l => x j * T j a * V' a b * T l b * z l))))).
  { rewrite (rsum_ext k _ (fun l => rsum k (fun b => rsum k (fun a => rsum k (fun j => x j * T j a * V' a b * T l b * z l))))).
    2:{ intros l _. rewrite (rsum_ext k _ (fun j => rsum k (fun b => rsum k (fun a => x j * T j a * V' a b * T l b * z l)))) by (intros j _; apply rsum_swap).
        rewrite rsum_swap. apply rsum_ext; intros b _. apply rsum_swap. }
    rewrite rsum_swap. apply rsum_ext; intros b _. rewrite rsum_swap. apply rsum_ext; intros a _. apply rsum_swap. }
  apply rsum_ext; intros b _. rewrite <- rsum_scal_r. apply rsum_ext; intros a _. rewrite <- rsum_scal_r, <- rsum_scal_r. apply rsum_ext; intros j _.
  rewrite <- rsum_scal. apply rsum_ext; intros; ring.
Qed.
(** C111: a Wald test of R b = r gives the same result (statistic and degrees of freedom, or failure) in either parametrisation. *)
Theorem C111_wald k T V V' ic ic' beta' fn tn fn' tn' R0 r : prod3_is k T V' (transpose T) V ->
  wald_test k ic V (back k T beta') fn tn (by_matrix R0) (Some r) =
  wald_test k ic' V' beta' fn' tn' (by_matrix (rewritten k T R0)) (Some r).
Proof.
  intros P. cbn. unfold wald_matrix. cbn [rewritten rq rcols].
  destruct (negb (Nat.eqb (rq R0) _)); [reflexivity|]. destruct (negb (Nat.eqb (rcols R0) k)); [reflexivity|].
  assert (DE : forall q, rsum k (fun j => rR (rewritten k T R0) q j * beta' j) = rsum k (fun j => rR R0 q j * back k T beta' j)).
  { intro q. unfold back, rewritten; cbn [rR]. symmetry.
    rewrite (rsum_ext k _ (fun j => rsum k (fun m => rR R0 q j * T j m * beta' m))) by (intros j _; rewrite <- rsum_scal; apply rsum_ext; intros; ring).
    rewrite rsum_swap. apply rsum_ext; intros m _. now rewrite rsum_scal_r. }
  replace (fun q => rsum k (fun j => rR (rewritten k T R0) q j * beta' j) - aval (arr_of r) q)
    with (fun q => rsum k (fun j => rR R0 q j * back k T beta' j) - aval (arr_of r) q)
    by (apply functional_extensionality; intro q; now rewrite DE).
  replace (fun q s => rsum k (fun l => rsum k (fun j => rR (rewritten k T R0) q j * V' j l) * rR (rewritten k T R0) s l))
    with (fun q s => rsum k (fun l => rsum k (fun j => rR R0 q j * V j l) * rR R0 s l)).
  2:{ apply functional_extensionality; intro q; apply functional_extensionality; intro s. exact (form_change k T V V' (rR R0 q) (rR R0 s) P). }
  destruct (gsolve _ _ _) as [x|]; [|reflexivity]. apply f_equal. apply f_equal2; [|reflexivity]. apply rsum_ext; intros q _. now rewrite DE.
Qed.
(** C111: the variance of the linear predictor of any row is the same. *)
Theorem C111_predictor k T V V' x : prod3_is k T V' (transpose T) V ->
  predictor_variance k V x = predictor_variance k V' (new_row k T x).
Proof.
  intros P. unfold predictor_variance. pose proof (form_change k T V V' x x P) as E. unfold quad.
  rewrite rsum_swap. rewrite (rsum_ext k _ (fun l => rsum k (fun j => x j * V j l) * x l)) by (intros l _; rewrite <- rsum_scal_r; apply rsum_ext; intros; ring).
  rewrite E. rewrite (rsum_swap k k). apply rsum_ext; intros l _. rewrite <- rsum_scal_r. apply rsum_ext; intros; ring.
Qed.

Lemma pick k i (f : nat -> R) : (i < k)%nat -> rsum k (fun l => (if Nat.eqb i l then 1 else 0) * f l) = f i.
Proof.
  intros Hi. rewrite (rsum_single k i); [rewrite Nat.eqb_refl; ring | exact Hi|]. intros l _ N. destruct (Nat.eqb_spec i l); [congruence | ring].
Qed.
Lemma units_invertible k s : (forall j, (j < k)%nat -> s j <> 0) -> invertible k (units s).
Proof.
  intros H. exists (units (fun j => / s j)). intros i j Hi Hj. unfold units, identity.
  rewrite (rsum_single k i); [|exact Hi|].
  - rewrite Nat.eqb_refl. destruct (Nat.eqb_spec i j) as [->|]; [field; auto | ring].
  - intros l _ N. destruct (Nat.eqb_spec i l); [congruence | ring].
Qed.
Lemma units_entry k s V V' : prod3_is k (units s) V' (transpose (units s)) V -> forall i j, (i < k)%nat -> (j < k)%nat -> V i j = s i * V' i j * s j.
Proof.
  intros P i j Hi Hj. rewrite <- (P i j Hi Hj). unfold units, transpose.
  rewrite (rsum_single k i); [|exact Hi|].
  - rewrite (rsum_single k j); [rewrite !Nat.eqb_refl; ring | exact Hj|]. intros m _ N. destruct (Nat.eqb_spec j m); [congruence | ring].
  - intros l _ N. apply rsum_zero. intros m _. destruct (Nat.eqb_spec i l); [congruence | ring].
Qed.
Lemma ppf_odd cdf ppf q : normal_like_cdf cdf ppf -> 0 < q < 1 -> ppf (1 - q) = - ppf q.
Proof.
  intros (R1 & INC & SYM & INV) Hq. assert (INJ : forall x y, cdf x = cdf y -> x = y).
  { intros x y E. destruct (Rtotal_order x y) as [L | [L | L]]; [apply INC in L; lra | exact L | apply INC in L; lra]. }
  apply INJ. rewrite SYM, !INV; lra.
Qed.
(** C111, units: column j measured in units 1/s_j.  Coefficient and standard error are divided by s_j and |s_j|, the p-value stays, the interval is
    the old one divided by s_j. *)
Theorem C111_units c c' s rb e cl V beta cdf ppf conf : reparametrised (units s) c c' -> (forall j, (j < ci_k c)%nat -> s j <> 0) -> ci_ill c' = ci_ill c ->
  covariance_matrix c rb e cl = Some V -> normal_like_cdf cdf ppf -> 0 < conf < 1 ->
  exists V', covariance_matrix c' rb e cl = Some V' /\
  forall j, (j < ci_k c)%nat -> 0 < V j j ->
    let o := coef_table cdf ppf conf beta V j in
    let n := coef_table cdf ppf conf (fun j => beta j / s j) V' j in
    ct_coef n = ct_coef o / s j /\ ct_se n = ct_se o / Rabs (s j) /\ ct_p n = ct_p o /\
    (0 < s j -> ct_lo n = ct_lo o / s j /\ ct_hi n = ct_hi o / s j) /\ (s j < 0 -> ct_lo n = ct_hi o / s j /\ ct_hi n = ct_lo o / s j).
Proof.
  intros HR HS IL E HN HC. pose proof (C111_covariance _ _ _ HR (units_invertible _ _ HS) rb e cl IL) as Q. rewrite E in Q.
  destruct (covariance_matrix c' rb e cl) as [V'|]; [|contradiction]. exists V'; split; [reflexivity|].
  intros j Hj HV. pose proof (units_entry _ _ _ _ Q j j Hj Hj) as EV. specialize (HS j Hj).
  assert (EV' : V' j j = V j j / (s j * s j)) by (rewrite EV; field; exact HS).
  assert (HA : 0 < Rabs (s j)) by (apply Rabs_pos_lt; exact HS).
  assert (SE : sqrt (V' j j) = sqrt (V j j) / Rabs (s j)).
  { rewrite EV'. rewrite sqrt_div_alt by (nra). f_equal. rewrite <- (sqrt_Rsqr_abs (s j)). reflexivity. }
  assert (SP : 0 < sqrt (V j j)) by (apply sqrt_lt_R0; exact HV).
  cbn zeta. unfold coef_table; cbn [ct_coef ct_se ct_p ct_lo ct_hi]. rewrite SE.
  assert (ABS : Rabs (beta j / s j / (sqrt (V j j) / Rabs (s j))) = Rabs (beta j / sqrt (V j j))).
  { unfold Rdiv. rewrite !Rabs_mult. rewrite !Rabs_inv, Rabs_mult, Rabs_inv, Rabs_Rabsolu. field. split; [apply Rgt_not_eq; apply Rabs_pos_lt; lra | lra]. }
  rewrite ABS.
  assert (ODD : ppf (1 - (1 - conf) / 2) = - ppf ((1 - conf) / 2)) by (apply (ppf_odd cdf); [exact HN | lra]).
  split; [reflexivity | split; [reflexivity | split; [reflexivity | split; intro L]]].
  - rewrite (Rabs_right (s j)) by lra. split; field; lra.
  - rewrite ODD. rewrite (Rabs_left (s j)) by lra. split; field; lra.
Qed.
Lemma order_invertible k pi rho : (forall j, (j < k)%nat -> (pi j < k)%nat /\ (rho j < k)%nat /\ pi (rho j) = j /\ rho (pi j) = j) -> invertible k (order pi).
Proof.
  intros H. exists (transpose (order pi)). intros i j Hi Hj. unfold order, transpose, identity. destruct (H i Hi) as (_ & Ri & Ei & _).
  rewrite (rsum_single k (rho i)); [|exact Ri|].
  - rewrite Ei, Nat.eqb_refl. destruct (Nat.eqb_spec j i), (Nat.eqb_spec i j); try congruence; ring.
  - intros l Hl N. destruct (Nat.eqb_spec i (pi l)) as [->|]; [|ring]. destruct (H l Hl) as (_ & _ & _ & El). congruence.
Qed.
(** C111, order: the covariance of coefficients i and j of the reordered model is that of the columns they stand for. *)
Theorem C111_order c c' pi rho rb e cl V : reparametrised (order pi) c c' ->
  (forall j, (j < ci_k c)%nat -> (pi j < ci_k c)%nat /\ (rho j < ci_k c)%nat /\ pi (rho j) = j /\ rho (pi j) = j) -> ci_ill c' = ci_ill c ->
  covariance_matrix c rb e cl = Some V ->
  exists V', covariance_matrix c' rb e cl = Some V' /\ forall i j, (i < ci_k c)%nat -> (j < ci_k c)%nat -> V' i j = V (pi i) (pi j).
Proof.
  intros HR HS IL E. pose proof (C111_covariance _ _ _ HR (order_invertible _ _ _ HS) rb e cl IL) as Q. rewrite E in Q.
  destruct (covariance_matrix c' rb e cl) as [V'|]; [|contradiction]. exists V'; split; [reflexivity|].
  intros i j Hi Hj. set (k := ci_k c) in *.
  rewrite <- (Q (pi i) (pi j)) by (apply HS; assumption). unfold order, transpose.
  rewrite (rsum_single k i); [|exact Hi|].
  - rewrite (rsum_single k j); [rewrite !Nat.eqb_refl; ring | exact Hj|]. intros m Hm N. destruct (Nat.eqb_spec (pi j) (pi m)) as [C|]; [|ring].
    destruct (HS j Hj) as (_ & _ & _ & A), (HS m Hm) as (_ & _ & _ & B). congruence.
  - intros l Hl N. apply rsum_zero. intros m _. destruct (Nat.eqb_spec (pi i) (pi l)) as [C|]; [|ring].
    destruct (HS i Hi) as (_ & _ & _ & A), (HS l Hl) as (_ & _ & _ & B). congruence.
Qed.
Lemma origin_entry t l j : origin t l j = (if Nat.eqb l j then 1 else 0) + (if Nat.eqb l 0 then if Nat.eqb j 0 then 0 else t j else 0). Proof. reflexivity. Qed.
Lemma origin_row t l j : l <> O -> origin t l j = if Nat.eqb l j then 1 else 0.
Proof. intros N. unfold origin. destruct (Nat.eqb_spec l 0); [contradiction | ring]. Qed.
Lemma origin_invertible k t : invertible k (origin t).
Proof.
  exists (origin (fun j => - t j)). intros i j Hi Hj. unfold identity.
  destruct (Nat.eq_dec i 0) as [->|N].
  - rewrite (rsum_ext k _ (fun l => (if Nat.eqb 0 l then 1 else 0) * origin (fun j => - t j) l j + (if Nat.eqb j l then 1 else 0) * (if Nat.eqb j 0 then 0 else t j))).
    + rewrite rsum_plus. rewrite (pick k 0 (fun l => origin (fun j => - t j) l j)) by exact Hi. rewrite (pick k j (fun _ => if Nat.eqb j 0 then 0 else t j)) by exact Hj.
      unfold origin. cbn [Nat.eqb]. destruct j; cbn [Nat.eqb]; ring.
    + intros l _. unfold origin. destruct l as [|l]; destruct j as [|j]; cbn [Nat.eqb]; try ring. destruct (Nat.eqb_spec l j) as [->|]; [rewrite Nat.eqb_refl; ring|].
      destruct (Nat.eqb_spec j l); [congruence | ring].
  - rewrite (rsum_ext k _ (fun l => (if Nat.eqb i l then 1 else 0) * origin (fun j => - t j) l j)) by (intros l _; now rewrite origin_row).
    rewrite pick by exact Hi. now rewrite origin_row.
Qed.
(** C111, origin: constants added to the columns of a model with intercept leave the covariances of the slopes alone. *)
Theorem C111_origin c c' t rb e cl V : reparametrised (origin t) c c' -> ci_ill c' = ci_ill c ->
  covariance_matrix c rb e cl = Some V ->
  exists V', covariance_matrix c' rb e cl = Some V' /\ forall i j, (0 < i < ci_k c)%nat -> (0 < j < ci_k c)%nat -> V' i j = V i j.
Proof.
  intros HR IL E. pose proof (C111_covariance _ _ _ HR (origin_invertible _ _) rb e cl IL) as Q. rewrite E in Q.
  destruct (covariance_matrix c' rb e cl) as [V'|]; [|contradiction]. exists V'; split; [reflexivity|].
  intros i j Hi Hj. set (k := ci_k c) in *. rewrite <- (Q i j) by lia. unfold transpose.
  rewrite (rsum_ext k _ (fun l => (if Nat.eqb i l then 1 else 0) * rsum k (fun m => (if Nat.eqb j m then 1 else 0) * V' l m))).
  - rewrite (pick k i (fun l => rsum k (fun m => (if Nat.eqb j m then 1 else 0) * V' l m))) by lia. rewrite pick by lia. reflexivity.
  - intros l _. rewrite <- rsum_scal. apply rsum_ext; intros m _. rewrite !origin_row by lia. ring.
Qed.

(** ** Non-vacuity: four rows, one column, intercept, least squares; the column in other units with the sign turned, and moved *)
Definition ex111 (a b : R) : cov_in :=
  mkCI 4 1 true NormalF IdentityL (fun i _ => a * (if Nat.ltb i 2 then 0 else 1) + b) (fun i => INR i) (fun _ => 1) (fun i => if Nat.ltb i 2 then 1/2 else 5/2) (Some 1) false.
Lemma ex111_units : reparametrised (units (fun j => if Nat.eqb j 0 then 1 else -3)) (ex111 1 0) (ex111 (-3) 0).
Proof.
  unfold reparametrised. repeat split. cbn [ci_k ci_ic ci_p ioff ex111]. intros i j Hj. unfold ci_x; cbn [ci_ic ci_X ex111 rsum].
  destruct j as [|[|j]]; [cbn; ring | cbn; destruct (Nat.ltb i 2); ring | cbn in Hj; lia].
Qed.
Lemma ex111_origin : reparametrised (origin (fun _ => 7)) (ex111 1 0) (ex111 1 7).
Proof.
  unfold reparametrised. repeat split. cbn [ci_k ci_ic ci_p ioff ex111]. intros i j Hj. change (rsum (ci_k (ex111 1 0))) with (rsum 2). unfold ci_x, origin; cbn [ci_ic ci_X ex111 rsum].
  destruct j as [|[|j]]; [cbn; ring | cbn; destruct (Nat.ltb i 2); ring | cbn in Hj; lia].
Qed.
Lemma ex111_fisher : forall a b, fisher_information (ex111 1 0) (ci_dispersion (ex111 1 0)) a b = rsum 4 (fun i => 1 * ci_x (ex111 1 0) i a * ci_x (ex111 1 0) i b).
Proof.
  intros a b. unfold fisher_information, info_sandwich. cbn [ci_n ex111]. apply rsum_ext. intros i _. f_equal. f_equal.
  unfold fisher_W, one_over_variance. cbn. field.
Qed.
Example ex111_defined : exists V, covariance_matrix (ex111 1 0) false false None = Some V.
Proof.
  apply cov_defined. split; [reflexivity|]. split; [unfold dof, total_weight; cbn; lra|]. split; [discriminate|].
  cbn [bread]. change (ci_k (ex111 1 0)) with 2%nat. intros z H j Hj.
  assert (A := H 0%nat ltac:(cbn; lia)). assert (B := H 1%nat ltac:(cbn; lia)).
  unfold mulv in A, B. cbn [rsum] in A, B. rewrite !ex111_fisher in A, B. unfold ci_x in A, B; cbn in A, B.
  destruct j as [|[|j]]; [lra | lra | cbn in Hj; lia].
Qed.

Print Assumptions C111_covariance.
Print Assumptions C111_wald.
Print Assumptions C111_predictor.
Print Assumptions C111_units.
Print Assumptions C111_order.
Print Assumptions C111_origin.
