(** Specification vocabulary for the solvers: design matrix with intercept, exact Hessian,
    training objective, reachable states. *)
From Verif Require Export M_Solver S_Link S_Dist S_CD.

(** Entry (i,k) of the design matrix, with a leading column of ones when there is an intercept. *)
Definition xt (pb : problem) (i k : nat) : R :=
  match pb_ic pb, k with true, O => 1 | true, S j => pb_X pb i j | false, j => pb_X pb i j end.

(** L2 penalty matrix on the coefficient vector; the intercept is not penalised. *)
Definition p2_full (ic : bool) (P2 : P2t) (k l : nat) : R :=
  match ic, k, l with
  | true, S i, S j => p2_entry P2 i j
  | true, _, _ => 0
  | false, i, j => p2_entry P2 i j
  end.

(** X' diag(h) X + P2 *)
Definition exact_hessian (pb : problem) (h : nat -> R) (P2 : P2t) (k l : nat) : R :=
  rsum (pb_n pb) (fun i => h i * xt pb i k * xt pb i l) + p2_full (pb_ic pb) P2 k l.

(** linear predictor of row i *)
Definition eta_of (pb : problem) (c : nat -> R) (i : nat) : R :=
  rsum (nc pb) (fun k => xt pb i k * c k) + pb_off pb i.

(** smooth part of the training objective: half the weighted deviance plus half the L2 form *)
Definition l2_form (pb : problem) (P2 : P2t) (c : nat -> R) : R :=
  rsum (nc pb) (fun k => rsum (nc pb) (fun l => c k * p2_full (pb_ic pb) P2 k l * c l)).
Definition fitted (pb : problem) (c : nat -> R) : list obs :=
  map (fun i => mkobs (pb_y pb i) (pb_w pb i) (search_mean (pb_fam pb) (pb_link pb) (eta_of pb c i)))
      (seq 0 (pb_n pb)).
Definition half_deviance (pb : problem) (c : nat -> R) : R := / 2 * deviance (pb_fam pb) (fitted pb c).
Definition smooth_obj (pb : problem) (P2 : P2t) (c : nat -> R) : R :=
  half_deviance pb c + / 2 * l2_form pb P2 c.
Definition l1_form (pb : problem) (c : nat -> R) : R :=
  rsum (nc pb) (fun k => pen_of (pb_ic pb) (pb_P1 pb) k * Rabs (c k)).
Definition train_obj (pb : problem) (P2 : P2t) (c : nat -> R) : R := smooth_obj pb P2 c + l1_form pb c.

(** Admissible problems: a constructible family, responses in its support, non-negative P1. *)
Definition pb_ok (pb : problem) : Prop :=
  family_ok (pb_fam pb) /\ (forall i, (i < pb_n pb)%nat -> support (pb_fam pb) (pb_y pb i)) /\
  (forall j, 0 <= pb_P1 pb j).

(** fitted mean of row i *)
Definition mean_of (pb : problem) (c : nat -> R) (i : nat) : R :=
  search_mean (pb_fam pb) (pb_link pb) (eta_of pb c i).

(** the score X' g - c' P2 (minus the gradient of the smooth objective, theorem C54) and the
    Hessian row weights at a coefficient vector *)
Definition score_of (pb : problem) (P2 : P2t) (c : nat -> R) (k : nat) : R :=
  rsum (pb_n pb) (fun i => gradient_row (pb_fam pb) (pb_link pb) (pb_y pb i) (pb_w pb i) (eta_of pb c i) (mean_of pb c i)
                           * xt pb i k)
  - rsum (nc pb) (fun l => c l * p2_full (pb_ic pb) P2 l k).
Definition hrow_of (pb : problem) (c : nat -> R) (i : nat) : R :=
  hessian_row (pb_fam pb) (pb_link pb) (pb_y pb i) (pb_w pb i) (eta_of pb c i) (mean_of pb c i).

(** States at the head of the while loop. *)
Inductive reach (pb : problem) (inner : inner_solver) (P2 : P2t) (c : nat -> R) : state -> Prop :=
| reach_init : reach pb inner P2 c (init_state pb P2 false c)
| reach_step s s' : reach pb inner P2 c s -> irls_step pb inner s = Some s' -> reach pb inner P2 c s'.

Inductive mreach (pb : problem) (inner : inner_solver) (q : ineq) (P2b : P2t) (lf lm ls : R) (c : nat -> R)
  : mstate -> Prop :=
| mreach_init P2 base ch : update_constraint_penalty pb q P2b false c ls = (P2, base, ch) ->
    mreach pb inner q P2b lf lm ls c (mkMs (init_state pb P2 true c) ls base)
| mreach_step m m' : mreach pb inner q P2b lf lm ls c m ->
    mono_step pb inner q P2b lf lm m = Some m' -> mreach pb inner q P2b lf lm ls c m'.

(** The coefficient vector satisfies the user's box. *)
Definition in_box (pb : problem) (c : nat -> R) : Prop :=
  forall k, (k < nc pb)%nat -> within (bnd_of (pb_ic pb) (pb_lb pb) k) (bnd_of (pb_ic pb) (pb_ub pb) k) (c k).

(** Symmetric and positive semi-definite L2 penalty. *)
Definition p2_sym (p : nat) (P2 : P2t) : Prop :=
  forall i j, (i < p)%nat -> (j < p)%nat -> p2_entry P2 i j = p2_entry P2 j i.
Definition p2_psd (p : nat) (P2 : P2t) : Prop :=
  forall v : nat -> R, 0 <= rsum p (fun i => rsum p (fun j => v i * p2_entry P2 i j * v j)).

(** Pairs whose (line-search) mean lies in the family's range for every linear predictor. *)
Definition safe_pair (f : family) (lk : link) : Prop :=
  match f with
  | NormalF | GHSF => True
  | TweedieF p => p = 0 \/ lk = LogL \/ lk = LogitL \/ lk = CloglogL
  | PoissonF | GammaF | InvGaussF | NegBinF _ => lk = LogL \/ lk = LogitL \/ lk = CloglogL
  | BinomialF => lk = LogitL \/ lk = CloglogL
  end.

(** Seeds handed to the coordinate sampler: 32-bit. *)
Definition seeds_ok (seed : Z -> N) : Prop := forall z, (seed z < 2 ^ 32)%N.

(** The run of the solver: a history of states, from the initial one to the returned one,
    each obtained from the previous one by one iteration. *)
Definition run_history (pb : problem) (inner : inner_solver) (P2 : P2t) (c : nat -> R)
    (n : nat) (hist : nat -> state) : Prop :=
  hist 0%nat = init_state pb P2 false c /\
  forall k, (k < n)%nat -> irls_step pb inner (hist k) = Some (hist (S k)).

(** The documented stopping test: the minimum-norm subgradient is below gradient_tol or the
    last step is shorter than step_size_tol (if given). *)
Definition stop_test (pb : problem) (s : state) : Prop :=
  fst (norm_min_subgrad (seq 0 (nc pb)) (st_coef s) (fun k => - st_score s k)
         (pb_P1 pb) (pb_ic pb) (pb_lb pb) (pb_ub pb)) < pb_gtol pb \/
  exists t, pb_stol pb = Some t /\ sqrt (rsum (nc pb) (fun k => st_step s k * st_step s k)) < t.

(** A linear predictor at which the mean function [g] (the inverse link, possibly clipped) is
    locally the true inverse link and lands in the family's range; responses for which the
    family's deviance is the sum of its unit deviances (C08). *)
Definition regular (f : family) (lk : link) (g : R -> R) (eta : R) : Prop :=
  lin_domain lk eta /\ mean_range f (raw_inverse lk eta) /\ locally eta (fun e => g e = raw_inverse lk e).
Definition dev_ok (f : family) (y : R) : Prop := neg_power f -> 0 <= y.

(** Family/link pairs for which minus the log-likelihood is convex in the linear predictor on the whole
    real line: those of C11 whose Hessian rows are exact, and the negative binomial with log link (whose
    Hessian rows are the expected ones). *)
Definition convex_pair (f : family) (lk : link) : Prop :=
  match f, lk with
  | NormalF, IdentityL | PoissonF, LogL | GammaF, LogL | BinomialF, LogitL | NegBinF _, LogL => True
  | TweedieF p, IdentityL => p = 0
  | TweedieF p, LogL => 1 <= p <= 2
  | _, _ => False
  end.

(** Half the weighted deviance plus half the L2 form, for an arbitrary mean function. *)
Definition smooth_obj_with (pb : problem) (g : R -> R) (P2 : P2t) (c : nat -> R) : R :=
  / 2 * deviance (pb_fam pb) (map (fun i => mkobs (pb_y pb i) (pb_w pb i) (g (eta_of pb c i))) (seq 0 (pb_n pb)))
  + / 2 * l2_form pb P2 c.

(** Contracts of scipy.linalg.solve (symmetric systems) and scipy.linalg.lstsq. *)
Definition solve_sound (solve : linear_solver) : Prop := forall n A b x, symmetric n A ->
  solve n A b = Some x -> forall i, (i < n)%nat -> rsum n (fun j => A i j * x j) = b i.
Definition residual_sq (n : nat) (A : nat -> nat -> R) (b x : nat -> R) : R :=
  rsum n (fun i => (rsum n (fun j => A i j * x j) - b i) ^ 2).
Definition lstsq_sound (lstsq : nat -> (nat -> nat -> R) -> (nat -> R) -> (nat -> R)) : Prop :=
  forall n A b v, residual_sq n A b (lstsq n A b) <= residual_sq n A b v.

(** Weighted ridge regression with unpenalised intercept. *)
Definition ridge_obj (pb : problem) (P2 : P2t) (c : nat -> R) : R :=
  / 2 * rsum (pb_n pb) (fun i => pb_w pb i * (pb_y pb i - eta_of pb c i) ^ 2) + / 2 * l2_form pb P2 c.

(** Row r of the inequality constraints A w <= b, at the coefficients without intercept. *)
Definition row_dot (pb : problem) (q : ineq) (r : nat) (c : nat -> R) : R :=
  rsum (pb_p pb) (fun j => iq_A q r j * c (ioff (pb_ic pb) + j)%nat).
Definition feasible (pb : problem) (q : ineq) (c : nat -> R) : Prop :=
  forall r, (r < iq_m q)%nat -> row_dot pb q r c <= iq_b q r.
(** The rows violated at a coefficient vector. *)
Definition violated (pb : problem) (q : ineq) (c : nat -> R) : list nat :=
  filter (fun r => Rltb (iq_b q r) (row_dot pb q r c)) (seq 0 (iq_m q)).
