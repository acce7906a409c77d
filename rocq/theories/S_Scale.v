(** Specification side of C68, C69: exposures and units of the response. *)
From Verif Require Import Base M_Std S_Std S_Fit.
From Verif Require Import M_Solver S_Solver.
Local Open Scope R_scope.

(** Variance power of a family with variance function mu^p. *)
Definition variance_power (f : family) (p : R) : Prop :=
  match f with
  | TweedieF q => p = q
  | NormalF => p = 0 | PoissonF => p = 1 | GammaF => p = 2 | InvGaussF => p = 3
  | _ => False
  end.
(** Observations with an exposure: totals with the log exposure as offset ... *)
Definition by_offset (er : R * row) : row :=
  let (e, r) := er in mkRow (r_x r) (r_y r) (r_w r) (r_off r + ln e).
(** ... or rates weighted by exposure^(2-p). *)
Definition by_rate (p : R) (er : R * row) : row :=
  let (e, r) := er in mkRow (r_x r) (r_y r / e) (r_w r * Rpower e (2 - p)) (r_off r).
(** Responses in other units. *)
Definition rescale_y (s : R) (r : row) : row := mkRow (r_x r) (s * r_y r) (r_w r) (r_off r).
Definition rescale_y_off (s : R) (r : row) : row := mkRow (r_x r) (s * r_y r) (r_w r) (s * r_off r).
(** The same model with the L1 weights multiplied. *)
Definition scale_l1 (u : user) (s : R) : user :=
  mkUser (u_n u) (u_p u) (u_X u) (u_y u) (u_w u) (u_off u) (u_ic u) (u_fam u) (u_link u)
    (fun j => s * u_P1 u j) (u_P2 u) (u_lb u) (u_ub u) (u_scale u).
Definition weight_total (rows : list row) : R := lsum (map r_w rows).
