(** Specification side of C104 and C105: the same data with other responses or other weights. *)
From Coq Require Import List Arith.
From Verif Require Import Base M_Std S_Std S_Fit M_Valid M_Fit S_FitAll.
From Verif Require Import M_Solver S_Solver.
Local Open Scope R_scope.

Definition with_y (u : user) (y : nat -> R) : user :=
  mkUser (u_n u) (u_p u) (u_X u) y (u_w u) (u_off u) (u_ic u) (u_fam u) (u_link u) (u_P1 u) (u_P2 u) (u_lb u) (u_ub u) (u_scale u).
(** The natural parameter of the exponential family at a linear predictor, an increasing function of it. *)
Definition natural (f : family) (lk : link) (e : R) : R :=
  match f, lk with
  | GammaF, LogL => - exp (- e)
  | TweedieF p, LogL => if Req_EM_T p 1 then e else exp ((1 - p) * e) / (1 - p)
  | NegBinF th, LogL => ln (exp e / (exp e + / th))
  | _, _ => e
  end.
(** A fit by solver s, from any start, that raised no warning and was not clipped. *)
Definition silent (s : solver) (u : user) (se : settings) (b0 : R) (b : nat -> R) : Prop :=
  exists l guess a sl, 0 <= se_approx se /\ se_stol se = None /\ 0 <= se_gtol se /\ libs_sound sl l /\ start_ok u a /\
    accepts s u None /\ s <> SMono /\ unclipped u b0 b /\ fit_with s u se None l guess a = Some (b0, b, false, false).
(** half the deviance of one row *)
Definition row_half_dev (u : user) (b0 : R) (b : nat -> R) (i : nat) : R :=
  / 2 * unit_deviance (u_fam u) (u_y u i) (mean_at (u_link u) (user_eta u b0 b i)).
(** A row of a table: more weight for it, half its deviance, and the weighted mean of that over a table. *)
Definition heavier (r : row) (t : R) : row := mkRow (r_x r) (r_y r) (r_w r + t) (r_off r).
Definition half_dev_of (u : user) (b0 : R) (b : nat -> R) (r : row) : R :=
  / 2 * unit_deviance (u_fam u) (r_y r) (mean_at (u_link u) (row_eta (u_p u) b0 b r)).
Definition mean_half_dev (u : user) (b0 : R) (b : nat -> R) (rows : list row) : R :=
  lsumf (fun r => r_w r * half_dev_of u b0 b r) rows / lsumf r_w rows.
