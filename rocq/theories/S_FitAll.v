(** Specification side of C70-C72: near-optimality in the user's units and the contracts of the external
    optimisers. *)
From Coq Require Import String List. Import ListNotations.
From Verif Require Import Base M_Std S_Std S_Fit M_Valid M_Fit.
From Verif Require Import M_Solver S_Solver.
Local Open Scope R_scope.

(** (b0, b) is at most e * D + s worse than any competitor in F at distance at most D (in standardized
    units); the L2 penalty of the difference and the distance of the predictions come on top. *)
Definition near_optimal (u : user) (e s : R) (F : (nat -> R) -> Prop) (b0 : R) (b : nat -> R) : Prop :=
  (u_ic u = false -> b0 = 0) /\
  forall b0' b' D, F b' -> (u_ic u = false -> b0' = 0) -> 0 <= D -> std_close u D b0 b b0' b' ->
    user_obj u (pen_scale u) b0 b + / 2 * user_l2 u (pen_scale u) (fun j => b' j - b j) + / 2 * pred_dev u b0 b b0' b'
    <= user_obj u (pen_scale u) b0' b' + e * D + s.

Definition no_l1 (u : user) : Prop := forall j, (j < u_p u)%nat -> u_P1 u j = 0.
Definition no_bounds (u : user) : Prop := forall j, (j < u_p u)%nat -> u_lb u j = None /\ u_ub u j = None.
(** No fitted probability of a logit model is clipped to [eps, 1 - eps]. *)
Definition unclipped (u : user) (b0 : R) (b : nat -> R) : Prop :=
  u_link u = LogitL -> forall i, (i < u_n u)%nat -> eps50 < mean_at LogitL (user_eta u b0 b i) < 1 - eps50.

(** What scipy documents for the two optimisers. *)
Definition lbfgs_sound (lb : lbfgs_t) : Prop := forall n f x0 tol it,
  let r := lb n f x0 tol it in lb_why r = LbGradient -> forall k, (k < n)%nat -> Rabs (snd (f (lb_x r)) k) <= tol.
Definition lbfgs_no_early_stop (lb : lbfgs_t) : Prop := forall n f x0 tol it, lb_why (lb n f x0 tol it) <> LbReduction.

(** First-order conditions at x for min f subject to A x <= b, up to tol; complementarity up to sl. *)
Definition approx_kkt (n : nat) (grad x : nat -> R) (q : ineq) (tol sl : R) : Prop :=
  let val r := rsum n (fun k => iq_A q r k * x k) in
  (forall r, (r < iq_m q)%nat -> val r <= iq_b q r + tol) /\
  exists lam, (forall r, (r < iq_m q)%nat -> 0 <= lam r) /\
    (forall k, (k < n)%nat -> Rabs (grad k + rsum (iq_m q) (fun r => lam r * iq_A q r k)) <= tol) /\
    rsum (iq_m q) (fun r => lam r * (iq_b q r - val r)) <= sl.
Definition no_ineq : ineq := mkIneq 0 (fun _ _ => 0) (fun _ => 0).
Definition trust_sound (sl : R) (tr : trust_t) : Prop := forall n f x0 q tol it,
  let r := tr n f x0 q tol it in tr_why r = TrGradient ->
  approx_kkt n (snd (f (tr_x r))) (tr_x r) (match q with Some q => q | None => no_ineq end) tol sl.
Definition trust_no_early_stop (tr : trust_t) : Prop := forall n f x0 q tol it, tr_why (tr n f x0 q tol it) <> TrRadius.

Definition libs_sound (sl : R) (l : libs) : Prop :=
  seeds_ok (lib_seed l) /\ solve_sound (lib_pos l) /\ (forall pos, solve_sound (lib_solve l pos)) /\ lstsq_sound (lib_lstsq l) /\
  lbfgs_sound (lib_lbfgs l) /\ lbfgs_no_early_stop (lib_lbfgs l) /\
  trust_sound sl (lib_trust l) /\ trust_no_early_stop (lib_trust l).

(** The number of coefficients, the intercept included. *)
Definition ncoef (u : user) : R := INR (u_p u + if u_ic u then 1 else 0).
(** Guaranteed first-order tolerance of a silent fit. *)
Definition fit_tol (s : solver) (u : user) (se : settings) : R :=
  match s with
  | SClosed => 0
  | SLbfgs | STrust => se_gtol se * ncoef u
  | _ => se_gtol se
  end.

(** What the competitors of a fit have to satisfy. *)
Definition admissible (u : user) (q : option ineq) (b : nat -> R) : Prop :=
  user_feasible u b /\ match q with Some q => user_ineq u q b | None => True end.
(** The arguments a solver accepts: bounds and L1 penalties need irls-cd, inequalities need trust-constr. *)
Definition accepts (s : solver) (u : user) (q : option ineq) : Prop :=
  (s <> SCd -> no_l1 u /\ no_bounds u) /\ (q <> None -> s = STrust).

