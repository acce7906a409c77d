(** Specification vocabulary for covariance matrices, Wald tests and the coefficient table. *)
From Verif Require Export M_Cov S_Path.
From Coq Require Import String List Sorted.
Import ListNotations.
Local Open Scope R_scope.

(** matrices of order k *)
Definition sym (k : nat) (A : mat) : Prop := forall i j, (i < k)%nat -> (j < k)%nat -> A i j = A j i.
Definition quad (k : nat) (A : mat) (z : vect) : R := rsum k (fun i => rsum k (fun j => z i * A i j * z j)).
Definition psd (k : nat) (A : mat) : Prop := forall z, 0 <= quad k A z.
(** A B = C, A B D = C on the leading k x k block *)
Definition prod_is (k : nat) (A B C : mat) : Prop :=
  forall i j, (i < k)%nat -> (j < k)%nat -> rsum k (fun l => A i l * B l j) = C i j.
Definition prod3_is (k : nat) (A B D C : mat) : Prop :=
  forall i j, (i < k)%nat -> (j < k)%nat -> rsum k (fun l => rsum k (fun m => A i l * B l m * D m j)) = C i j.
Definition identity : mat := fun i j => if Nat.eqb i j then 1 else 0.
Definition invertible (k : nat) (A : mat) : Prop := exists B, prod_is k A B identity.

(** linear predictor of row i for the coefficient vector b (intercept first, if there is one) *)
Definition linpred (ic : bool) (p : nat) (X : nat -> nat -> R) (off : nat -> R) (b : vect) (i : nat) : R :=
  off i + (if ic then b O else 0) + rsum p (fun j => X i j * b (if ic then S j else j)).
(** b with t added to its k-th entry *)
Definition moved (b : vect) (k : nat) (t : R) : vect := fun j => if Nat.eqb j k then b j + t else b j.
(** the data of [c] with dispersion phi and the means predicted by b *)
Definition at_coef (c : cov_in) (off : nat -> R) (phi : R) (b : vect) : cov_in :=
  mkCI (ci_n c) (ci_p c) (ci_ic c) (ci_fam c) (ci_link c) (ci_X c) (ci_y c) (ci_w c)
    (fun i => raw_inverse (ci_link c) (linpred (ci_ic c) (ci_p c) (ci_X c) off b i)) (Some phi) (ci_ill c).
(** the data of [c] with the observations replaced by their means *)
Definition at_means (c : cov_in) : cov_in :=
  mkCI (ci_n c) (ci_p c) (ci_ic c) (ci_fam c) (ci_link c) (ci_X c) (ci_mu c) (ci_w c) (ci_mu c) (Some (ci_dispersion c)) (ci_ill c).
(** every row is differentiable at b *)
Definition rows_regular (c : cov_in) (off : nat -> R) (b : vect) : Prop :=
  family_ok (ci_fam c) /\
  forall i, (i < ci_n c)%nat ->
    let eta := linpred (ci_ic c) (ci_p c) (ci_X c) off b i in
    support (ci_fam c) (ci_y c i) /\ lin_domain (ci_link c) eta /\ mean_range (ci_fam c) (raw_inverse (ci_link c) eta).

(** the information matrix in use: expected or observed *)
Definition information (c : cov_in) (expected : bool) : mat :=
  if expected then fisher_information c (ci_dispersion c) else observed_information c (ci_dispersion c).
(** score contribution of row i to coefficient k *)
Definition row_score (c : cov_in) : mat := score_matrix c (ci_dispersion c).
(** number of observations counted by weights, degrees of freedom left *)
Definition total_weight (c : cov_in) : R := rsum (ci_n c) (ci_w c).
Definition dof (c : cov_in) : R := total_weight c - INR (ci_k c).

(** "same cluster" for rows i and i' *)
Definition together (groups : list Z) (i i' : nat) : R := if Z.eqb (nth i groups 0%Z) (nth i' groups 0%Z) then 1 else 0.
(** labels are the codes 0..G-1 of G clusters, one per row *)
Definition codes (groups : list Z) (n : nat) : Prop :=
  length groups = n /\ forall z, In z groups -> (0 <= z < Z.of_nat (n_groups groups))%Z.

(** admissible rows: constructible family, mean in range and in the link's domain, non-negative weight,
    positive dispersion *)
Definition cov_ok (c : cov_in) : Prop :=
  family_ok (ci_fam c) /\ 0 < ci_dispersion c /\
  forall i, (i < ci_n c)%nat -> 0 <= ci_w c i /\ mean_range (ci_fam c) (ci_mu c i).

(** the same data with another value of the dispersion *)
Definition with_phi (c : cov_in) (phi : R) : cov_in :=
  mkCI (ci_n c) (ci_p c) (ci_ic c) (ci_fam c) (ci_link c) (ci_X c) (ci_y c) (ci_w c) (ci_mu c) (Some phi) (ci_ill c).
(** [c'] is [c] with the design matrix multiplied by T on the right (a change of basis for the
    coefficients); everything else, the predictions in particular, unchanged *)
Definition reparametrised (T : mat) (c c' : cov_in) : Prop :=
  ci_n c' = ci_n c /\ ci_k c' = ci_k c /\ ci_fam c' = ci_fam c /\ ci_link c' = ci_link c /\ ci_phi c' = ci_phi c /\
  (forall i, ci_y c' i = ci_y c i /\ ci_w c' i = ci_w c i /\ ci_mu c' i = ci_mu c i) /\
  forall i j, (j < ci_k c)%nat -> ci_x c' i j = rsum (ci_k c) (fun l => ci_x c i l * T l j).

(** The restriction R b = r: residual and the covariance of R b. *)
Definition resid (nb : nat) (R0 : restr) (r : vect) (beta : vect) (q : nat) : R := rsum nb (fun j => rR R0 q j * beta j) - r q.
Definition restr_cov (nb : nat) (R0 : restr) (V : mat) : mat :=
  fun q s => rsum nb (fun j => rsum nb (fun l => rR R0 q j * V j l * rR R0 s l)).
(** d' A^-1 d for an invertible A, as a predicate *)
Definition inv_form (q : nat) (A : mat) (d : vect) (v : R) : Prop :=
  exists B, prod_is q A B identity /\ prod_is q B A identity /\ v = quad q B d.
(** (M R, M r) *)
Definition left_mul (M : mat) (R0 : restr) : restr := mkRestr (rq R0) (rcols R0) (fun q j => rsum (rq R0) (fun s => M q s * rR R0 s j)).
Definition left_mul_rhs (M : mat) (r : list R) : list R :=
  map (fun q => rsum (length r) (fun s => M q s * nth s r 0)) (seq 0 (length r)).
(** the ways to state a hypothesis *)
Definition by_matrix (R0 : restr) : wald_args := mkWald (Some R0) None None None.
Definition by_features (fs : list string) : wald_args := mkWald None (Some fs) None None.
Definition by_terms (ts : list string) : wald_args := mkWald None None (Some ts) None.
Definition by_formula (R0 : restr) (r0 : arr) : wald_args := mkWald None None None (Some (R0, r0)).
(** j is the first position of s in l; js lists all positions of s in l, in increasing order *)
Definition first_position (s : string) (l : list string) (j : nat) : Prop :=
  nth_error l j = Some s /\ forall i, (i < j)%nat -> nth_error l i <> Some s.
Definition all_positions (l : list string) (s : string) (js : list nat) : Prop :=
  Sorted.StronglySorted lt js /\ forall j, In j js <-> nth_error l j = Some s.
(** right-hand side: given values, or zero *)
Definition rhs_of (r : option (list R)) : vect := fun i => match r with Some l => nth i l 0 | None => 0 end.
Definition rhs_fits (r : option (list R)) (n : nat) : Prop := forall l, r = Some l -> length l = n.
(** one value per term, repeated for each of its coefficients *)
Definition repeat_rhs (jss : list (list nat)) (r : option (list R)) : option (list R) :=
  option_map (fun l => concat (map (fun jv => repeat (snd jv) (length (fst jv))) (combine jss l))) r.
(** sub-matrix and sub-vector at the positions js *)
Definition sub_mat (V : mat) (js : list nat) : mat := fun i s => V (nth i js O) (nth s js O).
Definition sub_diff (beta : vect) (js : list nat) (r : vect) : vect := fun i => beta (nth i js O) - r i.

(** A symmetric continuous distribution function and its quantile function. *)
Definition normal_like_cdf (cdf ppf : R -> R) : Prop :=
  (forall x, 0 < cdf x < 1) /\ (forall x y, x < y -> cdf x < cdf y) /\ (forall x, cdf (- x) = 1 - cdf x) /\
  forall q, 0 < q < 1 -> cdf (ppf q) = q.
