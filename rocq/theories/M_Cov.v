(** Model of inference: information matrices, covariance matrices, Wald tests, coefficient table.
    src/glum/_glm.py 996-1373, 1448-1733, 3335-3342; src/glum/_distribution.py 410-500. *)
From Verif Require Export M_Lin M_Path.
From Coq Require Import String List.
Import ListNotations.
Local Open Scope R_scope.

(** what covariance_matrix works on, after validation: raw (not normalised) sample weights, predicted
    means; [ci_phi = None] is dispersion=None; [ci_ill] is the verdict of the conditioning check on X'X
    (1665-1671, external) *)
Record cov_in := mkCI {
  ci_n : nat; ci_p : nat; ci_ic : bool; ci_fam : family; ci_link : link;
  ci_X : nat -> nat -> R; ci_y : nat -> R; ci_w : nat -> R; ci_mu : nat -> R; ci_phi : option R; ci_ill : bool }.
(** number of coefficients with intercept; design matrix with a leading column of ones *)
Definition ci_k (c : cov_in) : nat := (ioff (ci_ic c) + ci_p c)%nat.
Definition ci_x (c : cov_in) (i k : nat) : R :=
  if ci_ic c then match k with O => 1 | S j => ci_X c i j end else ci_X c i k.
Definition ci_obs (c : cov_in) : list obs := map (fun i => mkobs (ci_y c i) (ci_w c i) (ci_mu c i)) (seq 0 (ci_n c)).
(** 1654-1663 *)
Definition ci_dispersion (c : cov_in) : R :=
  match ci_phi c with
  | Some phi => phi
  | None => dispersion (ci_fam c) Pearson true (INR (ci_k c)) (ci_obs c)
  end.

(** _linalg.py 68-95, _safe_sandwich_dot(X, d, intercept=...): X' diag(d) X including the intercept *)
Definition info_sandwich (c : cov_in) (d : nat -> R) : mat :=
  fun k l => rsum (ci_n c) (fun i => d i * ci_x c i k * ci_x c i l).
(** _distribution.py 410-436, 438-469, 471-500 *)
Definition fisher_information (c : cov_in) (phi : R) : mat :=
  info_sandwich c (fun i => fisher_W (ci_fam c) (ci_link c) (ci_y c i) (ci_mu c i) (ci_w c i) phi).
Definition observed_information (c : cov_in) (phi : R) : mat :=
  info_sandwich c (fun i => observed_W (ci_fam c) (ci_link c) (ci_y c i) (ci_mu c i) (ci_w c i) phi).
Definition score_matrix (c : cov_in) (phi : R) : mat :=
  fun i k => score_W (ci_fam c) (ci_link c) (ci_y c i) (ci_mu c i) (ci_w c i) phi * ci_x c i k.

(** len(np.unique(groups)) *)
Definition n_groups (groups : list Z) : nat := length (nodup Z.eq_dec groups).
(** _glm.py 3335-3342, [_group_sum]: eye(ngroups)[:, groups] @ data.  The labels are used as column
    indices: negative ones count from the end, too large ones raise IndexError ([None]), and a length
    different from the number of rows raises. *)
Definition group_sum (groups : list Z) (n : nat) (G : mat) : option mat :=
  let ng := n_groups groups in
  if negb (Nat.eqb (length groups) n) then None
  else match all_opt (map (py_index ng) groups) with
       | None => None
       | Some cols => Some (fun g k => rsum n (fun i => (if Nat.eqb (nth i cols O) g then 1 else 0) * G i k))
       end.
(** A' A for a matrix with m rows *)
Definition gram (m : nat) (A : mat) : mat := fun k l => rsum m (fun i => A i k * A i l).

(** _glm.py 1673-1728: [robust || clusters is not None], [expected] = expected_information.
    sum(w) = number of coefficients (division by zero) and LinAlgError are [None]. *)
Definition covariance_matrix (c : cov_in) (robust expected : bool) (clusters : option (list Z)) : option mat :=
  let phi := ci_dispersion c in
  let sw := rsum (ci_n c) (ci_w c) in
  let k := ci_k c in
  if ci_ill c then None
  else if Reqb (sw - INR k) 0 then None
  else
    let finish (inner : mat) (correction : R) :=
      let oim := if expected then fisher_information c phi else observed_information c phi in
      match gsolve_mat k oim inner with
      | None => None
      | Some Y => match gsolve_mat k oim (transpose Y) with
                  | None => None
                  | Some V => Some (fun i j => V i j * correction)
                  end
      end in
    match clusters with
    | Some groups =>
        match group_sum groups (ci_n c) (score_matrix c phi) with
        | None => None
        | Some gg =>
            let ng := n_groups groups in
            if Nat.eqb ng 1 then None   (* ZeroDivisionError *)
            else finish (gram ng gg) (INR ng / (INR ng - 1) * ((sw - 1) / (sw - INR k)))
        end
    | None =>
        if robust then finish (gram (ci_n c) (score_matrix c phi)) (sw / (sw - INR k))
        else match ginv k (fisher_information c phi) with
             | None => None
             | Some V => Some (fun i j => V i j * (sw / (sw - INR k)))
             end
    end.

(** ** Wald tests *)

(** restriction matrix: rows, columns, entries *)
Record restr := mkRestr { rq : nat; rcols : nat; rR : mat }.
(** a 1-d array *)
Record arr := mkArr { alen : nat; aval : vect }.
Definition arr_of (l : list R) : arr := mkArr (length l) (fun i => nth i l 0).
(** test statistic and degrees of freedom *)
Definition wald_result := (R * nat)%type.
(** _glm.py 1229-1269, [_wald_test_matrix]; the p-value is 1 - chi2.cdf(stat, Q) *)
Definition wald_matrix (nb : nat) (V : mat) (beta : vect) (R0 : restr) (r : option arr) : option wald_result :=
  let r' := match r with Some a => a | None => mkArr (rq R0) (fun _ => 0) end in
  if negb (Nat.eqb (rq R0) (alen r')) then None
  else if negb (Nat.eqb (rcols R0) nb) then None
  else
    let d q := rsum nb (fun j => rR R0 q j * beta j) - aval r' q in
    let RV q l := rsum nb (fun j => rR R0 q j * V j l) in
    let RVR q s := rsum nb (fun l => RV q l * rR R0 s l) in
    match gsolve (rq R0) RVR d with
    | None => None
    | Some x => Some (rsum (rq R0) (fun q => d q * x q), rq R0)
    end.

Fixpoint index_of (s : string) (l : list string) : option nat :=
  match l with
  | [] => None
  | t :: r => if String.eqb s t then Some O else option_map S (index_of s r)
  end.
(** 1289-1305: names with the intercept first *)
Definition coef_names (ic : bool) (names : list string) : list string :=
  if ic then "intercept"%string :: names else names.
(** _glm.py 1271-1307, [_wald_test_feature_names] *)
Definition wald_features (nb : nat) (V : mat) (beta : vect) (names features : list string) (r : option (list R)) : option wald_result :=
  if match r with Some l => negb (Nat.eqb (length features) (length l)) | None => false end then None
  else match all_opt (map (fun f => index_of f names) features) with
       | None => None
       | Some js => wald_matrix nb V beta
           (mkRestr (length features) nb (fun i j => if Nat.eqb j (nth i js O) then 1 else 0)) (option_map arr_of r)
       end.
(** positions of a term: np.where(names == term) *)
Definition positions (s : string) (l : list string) : list nat :=
  filter (fun i => String.eqb (nth i l EmptyString) s) (seq 0 (length l)).
(** _glm.py 1325-1373, [_wald_test_term_names] *)
Definition wald_terms (nb : nat) (V : mat) (beta : vect) (names terms : list string) (r : option (list R)) : option wald_result :=
  if match r with Some l => negb (Nat.eqb (length terms) (length l)) | None => false end then None
  else
    let pos := map (fun t => positions t names) terms in
    if existsb (fun l => Nat.eqb (length l) 0) pos then None
    else match pos with
         | [] => None   (* np.vstack of nothing *)
         | _ =>
             let js := concat pos in
             let rr := match r with
                       | None => None
                       | Some l => Some (arr_of (concat (map (fun lv => repeat (snd lv) (length (fst lv))) (combine pos l))))
                       end in
             wald_matrix nb V beta (mkRestr (length js) nb (fun i j => if Nat.eqb j (nth i js O) then 1 else 0)) rr
         end.

(** left-hand side of a hypothesis; a formula is what formulaic's LinearConstraintParser (external)
    makes of it *)
Record wald_args := mkWald {
  wa_R : option restr; wa_features : option (list string); wa_terms : option (list string);
  wa_formula : option (restr * arr) }.
Definition is_some {A} (o : option A) : bool := match o with Some _ => true | None => false end.
(** _glm.py 1189-1227, [wald_test]; [fnames], [tnames] = feature_names_, term_names_.
    np.asarray(None) is a 0-d array, whose shape[0] raises IndexError. *)
Definition wald_test (nb : nat) (ic : bool) (V : mat) (beta : vect) (fnames tnames : list string) (a : wald_args) (r : option (list R)) : option wald_result :=
  let specs := length (filter (fun b : bool => b) [is_some (wa_R a); is_some (wa_features a); is_some (wa_terms a); is_some (wa_formula a)]) in
  if negb (Nat.eqb specs 1) then None
  else match wa_R a with
  | Some R0 => match r with Some l => wald_matrix nb V beta R0 (Some (arr_of l)) | None => None end
  | None =>
  match wa_features a with
  | Some fs => wald_features nb V beta (coef_names ic fnames) fs r
  | None =>
  match wa_terms a with
  | Some ts => wald_terms nb V beta (coef_names ic tnames) ts r
  | None =>
  match wa_formula a with
  | Some (R0, r0) => match r with None => wald_matrix nb V beta R0 (Some r0) | Some _ => None end
  | None => None
  end end end end.

(** ** Coefficient table *)

(** _glm.py 1058-1098, one row of [coef_table]; [cdf], [ppf] are scipy.stats.norm.cdf and ppf *)
Record coef_row := mkCR { ct_coef : R; ct_se : R; ct_t : R; ct_p : R; ct_lo : R; ct_hi : R }.
Definition coef_table (cdf ppf : R -> R) (confidence : R) (beta : vect) (V : mat) (j : nat) : coef_row :=
  let level := 1 - confidence in
  let se := sqrt (V j j) in
  let t := beta j / se in
  mkCR (beta j) se t (2 * (1 - cdf (Rabs t))) (beta j + ppf (level / 2) * se) (beta j + ppf (1 - level / 2) * se).
