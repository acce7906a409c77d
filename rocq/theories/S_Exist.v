(** Specification side of C112: when the objective has a minimum. *)
From Verif Require Import Base M_Link M_Dist M_Std S_Dist S_Std S_Fit S_Response S_Separation S_Optimum.
From Verif Require Import M_Solver S_Solver.
Local Open Scope R_scope.

(** A direction in which intercept and coefficients can move for ever and nothing speaks against it: not the bounds, not the
    penalty, not any row of positive weight. *)
Definition drift (u : user) (c0 : R) (c : nat -> R) : Prop :=
  (u_ic u = false -> c0 = 0) /\
  (forall j, (j < u_p u)%nat -> (u_lb u j <> None -> 0 <= c j) /\ (u_ub u j <> None -> c j <= 0)) /\
  user_l2 u (pen_scale u) c = 0 /\
  (forall j, (j < u_p u)%nat -> u_P1 u j * Rabs (pen_scale u j * c j) = 0) /\
  (forall i, (i < u_n u)%nat -> 0 < u_w u i ->
     if match u_link u with IdentityL => true | _ => false end then tilt u c0 c i = 0 else unopposed (u_fam u) (u_y u i) (tilt u c0 c i)).
Definition null (u : user) (c0 : R) (c : nat -> R) : Prop := c0 = 0 /\ forall j, (j < u_p u)%nat -> c j = 0.
(** No two different coefficient vectors with the same L2 penalty along their difference and the same linear predictors: without
    an L2 penalty, columns of full rank (with the intercept) on the rows of positive weight. *)
Definition determined (u : user) : Prop := forall c0 c, (u_ic u = false -> c0 = 0) -> user_l2 u (pen_scale u) c = 0 ->
  (forall i, (i < u_n u)%nat -> 0 < u_w u i -> tilt u c0 c i = 0) -> null u c0 c.
(** the weighted responses are neither all at the lower end of the range nor (binomial) all at the upper end *)
Definition mixed (u : user) : Prop :=
  (exists i, (i < u_n u)%nat /\ 0 < u_w u i /\ ~ unopposed (u_fam u) (u_y u i) (- 1)) /\
  (exists i, (i < u_n u)%nat /\ 0 < u_w u i /\ ~ unopposed (u_fam u) (u_y u i) 1).
(** the penalty stops every direction of the slopes: a positive definite L2 part, or L1 weights on every coefficient, or both *)
Definition all_penalised (u : user) : Prop := forall c, user_l2 u (pen_scale u) c = 0 ->
  (forall j, (j < u_p u)%nat -> u_P1 u j * Rabs (pen_scale u j * c j) = 0) -> forall j, (j < u_p u)%nat -> c j = 0.
