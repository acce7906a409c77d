(** Specification side of C109: least squares fits as a linear smoother of the responses. *)
From Coq Require Import List Arith.
From Verif Require Import Base M_Std S_Std S_Fit M_Valid M_Fit S_FitAll S_Separation S_Optimum.
From Verif Require Import M_Solver S_Solver.
Local Open Scope R_scope.

(** Least squares with at most an L2 penalty. *)
Definition ridge_model (u : user) : Prop := u_fam u = NormalF /\ u_link u = IdentityL /\ no_l1 u /\ no_bounds u.
(** The same design, weights and penalty with other responses and offsets. *)
Definition with_y_off (u : user) (y off : nat -> R) : user :=
  mkUser (u_n u) (u_p u) (u_X u) y (u_w u) off (u_ic u) (u_fam u) (u_link u) (u_P1 u) (u_P2 u) (u_lb u) (u_ub u) (u_scale u).
(** The L2 penalty as a bilinear form. *)
Definition l2_product (u : user) (b h : nat -> R) : R :=
  rsum (u_p u) (fun i => rsum (u_p u) (fun j => (pen_scale u i * b i) * p2_entry (u_P2 u) i j * (pen_scale u j * h j))).
(** The normal equations: residuals orthogonal to every direction, up to the penalty. *)
Definition normal_equations (u : user) (b0 : R) (b : nat -> R) : Prop :=
  (u_ic u = false -> b0 = 0) /\
  forall h0 h, (u_ic u = false -> h0 = 0) ->
    rsum (u_n u) (fun i => u_w u i * (u_y u i - user_eta u b0 b i) * tilt u h0 h i) = l2_product u b h.
