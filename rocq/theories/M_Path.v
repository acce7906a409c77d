(** Model of regularisation paths: the automatic grid, the warm-started chain of solves, the lookup of
    an entry, prediction.  src/glum/_glm.py.  dtype is float64, arithmetic is over R. *)
From Verif Require Export M_Std.
Local Open Scope R_scope.

(** ** The automatic grid *)

(** numpy.linspace(a, b, n) (external, function_base.py): arange(n) * step + start, and the last entry
    is set to stop when n > 1 *)
Definition linspace (a b : R) (n : nat) : list R :=
  map (fun k => if (Nat.ltb 1 n && Nat.eqb k (n - 1))%bool then b
                else INR k * ((b - a) / INR (n - 1)) + a) (seq 0 n).
(** numpy.logspace(a, b, n, base=e) = e ** linspace(a, b, n) *)
Definition logspace (a b : R) (n : nat) : list R := map exp (linspace a b n).

(** _glm.py 455-480, [_make_grid]; [n], [p] = X.shape; [None] = ValueError. *)
Definition make_grid (min_alpha min_alpha_ratio : option R) (n_alphas n p : nat) (max_alpha : R) : option (list R) :=
  let grid m := Some (logspace (ln max_alpha) (ln m) n_alphas) in
  match min_alpha with
  | None => match min_alpha_ratio with
            | None => grid (max_alpha * (if Nat.leb p n then 1 / 10 ^ 6 else 1 / 10 ^ 2))
            | Some r => grid (max_alpha * r)
            end
  | Some m => if Rleb max_alpha m then None else grid m
  end.

(** numpy.max of a non-empty list, [None] (ValueError) on an empty one *)
Definition np_max (l : list R) : option R :=
  match l with [] => None | x :: r => Some (fold_left Rmax r x) end.

(** rows handed to guess_intercept: eta is not passed in [_get_alpha_path] *)
Definition grows_of (pb : problem) : list grow :=
  map (fun i => mkgrow (pb_y pb i) (pb_w pb i) 0) (seq 0 (pb_n pb)).
(** _glm.py 482-494: the null model. *)
Definition null_coef (pb : problem) : option (nat -> R) :=
  if pb_ic pb then
    match guess_intercept (pb_fam pb) (pb_link pb) false (grows_of pb) with
    | Some g => Some (pack true g (fun _ => 0))
    | None => None
    end
  else Some (fun _ => 0).
(** _distribution.py [_mu_deviance_derivative]: derivative of the deviance *)
Definition deviance_der (pb : problem) (c : nat -> R) (k : nat) : R :=
  let lin i := lin_pred pb c i + pb_off pb i in
  let mu i := inverse1 (pb_link pb) (lin i) in
  let d1 i := inverse_derivative (pb_link pb) (lin i) in
  let temp i := d1 i * (pb_w pb i * unit_deviance_derivative (pb_fam pb) (pb_y pb i) (mu i)) in
  xt_vec pb temp k.
(** _glm.py 505: feature_gradient *)
Definition feature_gradient (pb : problem) (c : nat -> R) (j : nat) : R :=
  Rabs (- (1 / 2) * deviance_der pb c (ioff (pb_ic pb) + j)%nat).
(** _glm.py 507-517: alpha_max; [pb_P1 pb] is P1_no_alpha on the standardized problem *)
Definition alpha_max (pb : problem) : option R :=
  match null_coef pb with
  | None => None
  | Some c =>
      let js := seq 0 (pb_p pb) in
      let m := if forallb (fun j => Reqb (pb_P1 pb j) 0) js
               then match np_max (map (feature_gradient pb c) js) with
                    | Some x => Some (x / (1 / 10 ^ 3)) | None => None end
               else np_max (map (fun j => feature_gradient pb c j / pb_P1 pb j)
                                (filter (fun j => Rltb 0 (pb_P1 pb j)) js)) in
      match m with
      | None => None
      | Some x => Some (if Reqb x 0 then 10 else x)
      end
  end.
(** _glm.py 432-517, [_get_alpha_path] *)
Definition get_alpha_path (pb : problem) (min_alpha min_alpha_ratio : option R) (n_alphas : nat) : option (list R) :=
  match alpha_max pb with
  | None => None
  | Some a => make_grid min_alpha min_alpha_ratio n_alphas (pb_n pb) (pb_p pb) a
  end.

(** ** The chain of solves *)

(** what _solve returns and stores: coefficients, n_iter_, convergence warning *)
Record sol := mkSol { so_coef : nat -> R; so_iter : Z; so_warn : bool }.
(** a solver on a problem (L1 penalties included) with an L2 penalty and a start; [None] = exception *)
Definition path_solver := problem -> P2t -> (nat -> R) -> option sol.

Definition set_P1 (pb : problem) (P1 : nat -> R) : problem :=
  mkPb (pb_n pb) (pb_p pb) (pb_X pb) (pb_y pb) (pb_w pb) (pb_off pb) (pb_ic pb) (pb_fam pb) (pb_link pb) P1
       (pb_max_iter pb) (pb_max_inner pb) (pb_gtol pb) (pb_stol pb) (pb_approx pb) (pb_fixed_tol pb) (pb_random pb)
       (pb_lb pb) (pb_ub pb) (pb_has_bounds pb) (pb_large pb) (pb_eps pb).
(** _glm.py 684-698: one pass of the loop body *)
Definition solve_alpha (solve : path_solver) (pb : problem) (P2 : P2t) (alpha : R) (c : nat -> R) : option sol :=
  solve (set_P1 pb (p1_scale alpha (pb_P1 pb))) (p2_scale alpha P2) c.
(** _glm.py 669-715, [_solve_regularization_path]; the list of the solves, in the order of the loop *)
Fixpoint solve_path (solve : path_solver) (pb : problem) (P2 : P2t) (alphas : list R) (c : nat -> R) : option (list sol) :=
  match alphas with
  | [] => Some []
  | a :: r => match solve_alpha solve pb P2 a c with
              | None => None
              | Some s => match solve_path solve pb P2 r (so_coef s) with
                          | None => None
                          | Some l => Some (s :: l)
                          end
              end
  end.

(** irls-cd as a path solver, _glm.py 588-628.  [seed] is the stream of seeds drawn from random_state
    (an integer or None gives every solve its own copy of the same stream). *)
Definition cd_path_solver (seed : Z -> N) : path_solver := fun pb P2 c =>
  match irls_solver pb (cd_solver pb seed) P2 c with
  | Some (s, warned) => Some (mkSol (st_coef s) (st_niter s) warned)
  | None => None
  end.

(** A fitted path: what fit stores with alpha_search, _glm.py 2838-2886.
    The loop's coef_path_ is replaced by its unstandardized version. *)
Record fitted_path := mkFP {
  fp_alphas : list R;                  (* _alphas *)
  fp_path : list (R * (nat -> R));     (* intercept_path_, coef_path_ *)
  fp_coef : R * (nat -> R);            (* intercept_, coef_ *)
  fp_iter : Z; fp_warn : list bool }.
(** the record u carries P1_no_alpha and P2_no_alpha; [-1] on an empty path raises IndexError *)
Definition fit_path (solve : path_solver) (u : user) (se : settings) (alphas : list R) (start : nat -> R) : option fitted_path :=
  match solve_path solve (std_problem u se) (std_problem_P2 u) alphas start with
  | None => None
  | Some sols =>
      match rev sols with
      | [] => None
      | s :: _ =>
          let path := map (fun s => user_result u (so_coef s)) sols in
          Some (mkFP alphas path (user_result u (so_coef s)) (so_iter s) (map so_warn sols))
      end
  end.
(** _glm.py 2820-2828 and 2838-2851: start and alphas of a search with irls-cd *)
Definition path_start (u : user) (guess : R) (a : start_arg) : nat -> R :=
  get_start_coef (u_p u) (u_ic u) (u_means u) (u_stds u) guess (u_lb u) (u_ub u) a.
Definition path_alphas (u : user) (se : settings) (alpha : option (list R)) (min_alpha ratio : option R) (n_alphas : nat) : option (list R) :=
  match alpha with
  | Some l => Some l
  | None => get_alpha_path (std_problem u se) min_alpha ratio n_alphas
  end.

(** ** Lookup *)

(** scalar, sequence or nothing *)
Inductive sel (A : Type) := SelNone | SelOne (a : A) | SelMany (l : list A).
Arguments SelNone {A}. Arguments SelOne {A} a. Arguments SelMany {A} l.

(** numpy.argmin: first position of the minimum; [best] is the minimum of the entries before [k] *)
Fixpoint argmin_from (l : list R) (k : nat) (besti : nat) (best : R) : nat :=
  match l with
  | [] => besti
  | x :: r => if Rltb x best then argmin_from r (S k) k x else argmin_from r (S k) besti best
  end.
Definition argmin (l : list R) : option nat :=
  match l with [] => None | x :: r => Some (argmin_from r 1 0 x) end.

(** numpy.isclose(a, b, rtol=1e-5, atol=0): |a - b| <= rtol * |b| *)
Definition isclose_rel (a b : R) : bool := Rleb (Rabs (a - b)) (1 / 10 ^ 5 * Rabs b).
(** _glm.py 790-797, [_find_alpha_index] *)
Definition find_alpha_index (alphas : list R) (a : R) : option nat :=
  match argmin (map (fun x => Rabs (x - a)) alphas) with
  | None => None
  | Some i => if isclose_rel (nth i alphas 0) a then Some i else None
  end.
Fixpoint find_all (alphas : list R) (l : list R) : option (list nat) :=
  match l with
  | [] => Some []
  | a :: r => match find_alpha_index alphas a, find_all alphas r with
              | Some i, Some is => Some (i :: is) | _, _ => None end
  end.
(** _glm.py 799-811, [_resolve_alpha_index]; indices are Python ints (possibly negative) *)
Definition resolve_alpha_index (alphas : list R) (idx : sel Z) (alpha : sel R) : option (sel Z) :=
  match alpha, idx with
  | SelNone, _ => Some idx
  | SelOne a, SelNone => option_map (fun i => SelOne (Z.of_nat i)) (find_alpha_index alphas a)
  | SelMany l, SelNone => option_map (fun is => SelMany (map Z.of_nat is)) (find_all alphas l)
  | _, _ => None
  end.
(** Python indexing of a sequence of length n; [None] = IndexError *)
Definition py_index (n : nat) (z : Z) : option nat :=
  if ((0 <=? z) && (z <? Z.of_nat n))%Z%bool then Some (Z.to_nat z)
  else if ((- Z.of_nat n <=? z) && (z <? 0))%Z%bool then Some (Z.to_nat (z + Z.of_nat n))
  else None.
Definition py_nth {A} (l : list A) (d : A) (z : Z) : option A :=
  option_map (fun i => nth i l d) (py_index (length l) z).

(** ** Prediction *)

(** new data: one list entry per row; [X] has the width it was checked for *)
Inductive offset_arg := ONone | OScalar (c : R) | OVector (l : list R).
(** a result of shape (n,) or (n, k) (row-major) *)
Inductive pred := PVec (l : list R) | PMat (l : list (list R)).
(** X @ coef + intercept, for one coefficient pair *)
Definition row_eta (p : nat) (b : R * (nat -> R)) (x : nat -> R) : R := rsum p (fun j => x j * snd b j) + fst b.
(** numpy in-place addition of the offset to a vector: scalar, same length or length one *)
Definition add_offset (xb : list R) (o : offset_arg) : option (list R) :=
  match o with
  | ONone => Some xb
  | OScalar c => Some (map (fun x => x + c) xb)
  | OVector l => if Nat.eqb (length l) (length xb) then Some (map (fun ab => fst ab + snd ab) (combine xb l))
                 else match l with [c] => Some (map (fun x => x + c) xb) | _ => None end
  end.
(** and to a matrix, via offset[:, np.newaxis]; a scalar cannot be indexed that way *)
Definition add_offset_mat (xb : list (list R)) (o : offset_arg) : option (list (list R)) :=
  match o with
  | ONone => Some xb
  | OScalar _ => None
  | OVector l => if Nat.eqb (length l) (length xb)
                 then Some (map (fun ab => map (fun x => x + snd ab) (fst ab)) (combine xb l))
                 else match l with [c] => Some (map (map (fun x => x + c)) xb) | _ => None end
  end.
Fixpoint all_opt {A} (l : list (option A)) : option (list A) :=
  match l with
  | [] => Some []
  | Some a :: r => option_map (cons a) (all_opt r)
  | None :: _ => None
  end.
(** _glm.py 882-926, [_compute_linear_predictor] on a checked design matrix with rows [X];
    [w] = X.shape[1].  [path] is coef_path/intercept_path, [cur] is coef_/intercept_. *)
Definition compute_linear_predictor (p w : nat) (X : list (nat -> R)) (o : offset_arg)
    (cur : R * (nat -> R)) (path : list (R * (nat -> R))) (idx : sel Z) : option pred :=
  let d := (0, fun _ : nat => 0) in
  if negb (Nat.eqb w p) then None
  else match idx with
  | SelNone => option_map PVec (add_offset (map (row_eta p cur) X) o)
  | SelOne z => match py_nth path d z with
                | None => None
                | Some b => option_map PVec (add_offset (map (row_eta p b) X) o)
                end
  | SelMany zs => match all_opt (map (py_nth path d) zs) with
                  | None => None
                  | Some [] => None   (* np.stack of nothing *)
                  | Some bs => option_map PMat (add_offset_mat (map (fun x => map (fun b => row_eta p b x) bs) X) o)
                  end
  end.

(** A fitted estimator: [m_search] = alpha_search for GeneralizedLinearRegressor; for the CV class
    [m_search] is irrelevant ([m_cv = true]) and the path is the refit path. *)
Record fitted_model := mkFM {
  m_p : nat; m_link : link; m_cv : bool; m_search : bool;
  m_alphas : list R; m_path : list (R * (nat -> R)); m_cur : R * (nat -> R) }.
(** _glm.py 813-880 and _glm_cv.py 426-490, [linear_predictor] *)
Definition linear_predictor (m : fitted_model) (w : nat) (X : list (nat -> R)) (o : offset_arg)
    (idx : sel Z) (alpha : sel R) : option pred :=
  let given := match idx, alpha with SelNone, SelNone => false | _, _ => true end in
  if (given && negb (m_search m) && negb (m_cv m))%bool then None
  else match resolve_alpha_index (m_alphas m) idx alpha with
       | None => None
       | Some i => compute_linear_predictor (m_p m) w X o (m_cur m) (m_path m) i
       end.

(** numpy's mu * sample_weight: (n,) times (n,), or (n,k) times (n,) with the weights aligned to the
    LAST axis: k = n multiplies column j by w_j; k = 1 yields an (n,n) array; n = 1 scales. *)
Definition times_weights (mu : pred) (ws : list R) : option pred :=
  match mu with
  | PVec l => Some (PVec (map (fun ab => fst ab * snd ab) (combine l ws)))
  | PMat rows =>
      let k := match rows with [] => length ws | r :: _ => length r end in
      if Nat.eqb k (length ws) then Some (PMat (map (fun r => map (fun ab => fst ab * snd ab) (combine r ws)) rows))
      else if Nat.eqb k 1 then Some (PMat (map (fun r => map (fun w => nth 0 r 0 * w) ws) rows))
      else match ws with [w] => Some (PMat (map (map (fun x => x * w)) rows)) | _ => None end
  end.
(** link.inverse on an array (element-wise form, M_Link) *)
Definition pred_map (g : R -> R) (x : pred) : pred :=
  match x with PVec l => PVec (map g l) | PMat rows => PMat (map (map g) rows) end.
(** _glm.py 928-994, [predict]; [sw = WNone] is sample_weight=None *)
Definition predict (m : fitted_model) (w : nat) (X : list (nat -> R)) (o : offset_arg) (sw : weight_arg)
    (idx : sel Z) (alpha : sel R) : option pred :=
  match linear_predictor m w X o idx alpha with
  | None => None
  | Some eta =>
      let mu := pred_map (inverse1 (m_link m)) eta in
      match sw with
      | WNone => Some mu
      | _ => match check_weights sw (length X) with
             | None => None
             | Some ws => times_weights mu ws
             end
      end
  end.
