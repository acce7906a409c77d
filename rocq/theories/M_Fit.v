(** Model of [_solve] (src/glum/_glm.py 519-667), i.e. the dispatch to the six solvers, and of the scipy
    solvers of _solvers.py 874-985.  scipy itself is a parameter. *)
From Coq Require Import String List. Import ListNotations.
From Verif Require Import Base M_Std M_Valid.
From Verif Require Import M_Solver.
Local Open Scope R_scope.

(** Why scipy's fmin_l_bfgs_b stopped: projected gradient <= pgtol, relative reduction of the objective
    <= factr * epsmch, iteration/evaluation limit, anything else. *)
Inductive lb_task := LbGradient | LbReduction | LbLimit | LbAbnormal.
Record lb_out := mkLb { lb_x : nat -> R; lb_why : lb_task }.
(** info["warnflag"] as documented by scipy *)
Definition lb_warnflag (t : lb_task) : nat :=
  match t with LbGradient | LbReduction => 0 | LbLimit => 1 | LbAbnormal => 2 end.
(** scipy.optimize.fmin_l_bfgs_b(func, x0, fprime=None, pgtol, maxiter, factr=1e2) on vectors of length n *)
Definition lbfgs_t := nat -> ((nat -> R) -> R * (nat -> R)) -> (nat -> R) -> R -> Z -> lb_out.

(** res["status"] of minimize(method="trust-constr"); success is status 1 or 2 *)
Inductive tr_status := TrLimit | TrGradient | TrRadius | TrOther.
Record tr_out := mkTr { tr_x : nat -> R; tr_why : tr_status }.
Definition tr_success (t : tr_status) : bool := match t with TrGradient | TrRadius => true | _ => false end.
(** minimize(fun, x0, jac=True, method="trust-constr", constraints = A x <= ub or none, gtol, maxiter) *)
Definition trust_t := nat -> ((nat -> R) -> R * (nat -> R)) -> (nat -> R) -> option ineq -> R -> Z -> tr_out.

(** the external routines a fit may call: rng, scipy.linalg.solve(assume_a="pos") of the IRLS step,
    linalg.solve / linalg.lstsq of the closed form, and the two optimisers *)
Record libs := mkLibs {
  lib_seed : Z -> N; lib_pos : linear_solver; lib_solve : bool -> linear_solver;
  lib_lstsq : nat -> (nat -> nat -> R) -> (nat -> R) -> (nat -> R);
  lib_lbfgs : lbfgs_t; lib_trust : trust_t }.

(** _solvers.py 874-916, [_lbfgs_solver]: coefficients, ConvergenceWarning, other warning *)
Definition lbfgs_solver (pb : problem) (P2 : P2t) (lb : lbfgs_t) (c : nat -> R) : (nat -> R) * bool * bool :=
  let r := lb (nc pb) (get_obj_and_derivative pb P2) c (pb_gtol pb) (pb_max_iter pb) in
  (lb_x r, Nat.eqb (lb_warnflag (lb_why r)) 1, Nat.eqb (lb_warnflag (lb_why r)) 2).

(** _solvers.py 946-962: a column of zeros in front of A_ineq when there is an intercept *)
Definition trust_ineq (ic : bool) (q : ineq) : ineq :=
  if ic then mkIneq (iq_m q) (fun r k => match k with O => 0 | S j => iq_A q r j end) (iq_b q) else q.
(** _solvers.py 919-985, [_trust_constr_solver]; xtol is scipy's 1e-8 *)
Definition trust_constr_solver (pb : problem) (P2 : P2t) (tr : trust_t) (q : option ineq) (c : nat -> R)
    : (nat -> R) * bool * bool :=
  let r := tr (nc pb) (get_obj_and_derivative pb P2) c (option_map (trust_ineq (pb_ic pb)) q)
              (pb_gtol pb) (pb_max_iter pb) in
  (tr_x r, negb (tr_success (tr_why r)), false).

Definition normal_identity (u : user) : bool :=
  match u_fam u, u_link u with NormalF, IdentityL => true | _, _ => false end.
(** _glm.py 567-582: for irls-ls and irls-cd on a Gaussian identity model max_iter is 1 and the inner
    tolerance is gradient_tol *)
Definition solve_settings (s : solver) (u : user) (se : settings) : settings :=
  let one := (normal_identity u && match s with SLs | SCd => true | _ => false end)%bool in
  mkSettings (if one then 1%Z else se_max_iter se) (se_max_inner se) (se_gtol se) (se_stol se) (se_approx se)
             (if one then Some (se_gtol se) else None) (se_random se) (se_has_bounds se) (se_large se) (se_eps se).

(** _glm.py 519-667, [_solve], on the standardized problem: the solver's vector, whether a
    ConvergenceWarning and whether another warning was issued; [None] = an exception.
    [se_has_bounds]: lower_bounds or upper_bounds is not None. *)
Definition solve (s : solver) (u : user) (se : settings) (q : option ineq) (l : libs) (start : nat -> R)
    : option ((nat -> R) * bool * bool) :=
  let pb := std_problem u (solve_settings s u se) in
  let P2 := std_problem_P2 u in
  let q' := option_map (fun q => std_ineq q (u_stds u)) q in
  let irls inner := match irls_solver pb inner P2 start with
                    | Some (st, w) => Some (st_coef st, w, Nat.ltb 0 (st_lswarn st))
                    | None => None
                    end in
  match s with
  | SClosed =>
      if (normal_identity u && forallb (fun j => Reqb (pb_P1 pb j) 0) (seq 0 (u_p u))
          && negb (se_has_bounds se) && match q with None => true | Some _ => false end)%bool
      then Some (tikhonov_solver pb P2 (lib_solve l) (lib_lstsq l), false, false) else None
  | SMono =>
      match q' with
      | None => None
      | Some q' =>
          match monotonic_irls_solver pb (ls_solver pb (lib_pos l)) q' P2 100000 1000000000 100 start with
          | Some (m, w1, w2) => Some (st_coef (ms_st m), (w1 || w2)%bool, Nat.ltb 0 (st_lswarn (ms_st m)))
          | None => None
          end
      end
  | SLs => irls (ls_solver pb (lib_pos l))
  | SCd => irls (cd_solver pb (lib_seed l))
  | SLbfgs => Some (lbfgs_solver pb P2 (lib_lbfgs l) start)
  | STrust => Some (trust_constr_solver pb P2 (lib_trust l) q' start)
  | SAuto => None
  end.

(** _glm.py 2737-2906 for a single alpha: starting values, [_solve], and the way back to the user's units.
    Result: intercept_, coef_, ConvergenceWarning, other warning. *)
Definition fit_with (s : solver) (u : user) (se : settings) (q : option ineq) (l : libs) (guess : R) (a : start_arg)
    : option (R * (nat -> R) * bool * bool) :=
  let start := get_start_coef (u_p u) (u_ic u) (u_means u) (u_stds u) guess (u_lb u) (u_ub u) a in
  match solve s u se q l start with
  | Some (v, w1, w2) => Some (user_result u v, w1, w2)
  | None => None
  end.
