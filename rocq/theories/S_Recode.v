(** Specification side of C81: the same model with its columns written differently. *)
From Verif Require Import Base M_Std S_Std S_Fit.
From Verif Require Import M_Solver S_Solver.
Local Open Scope R_scope.

(** every column of u' is an affine function of the columns of u (linear without an intercept) *)
Definition columns_from (u u' : user) (A : nat -> nat -> R) (t : nat -> R) : Prop :=
  forall i k, (i < u_n u)%nat -> (k < u_p u')%nat ->
    u_X u' i k = (if u_ic u then t k else 0) + rsum (u_p u) (fun j => A j k * u_X u i j).
(** same rows, family, link, intercept option *)
Definition rows_agree (u u' : user) : Prop :=
  u_n u = u_n u' /\ u_fam u = u_fam u' /\ u_link u = u_link u' /\ u_ic u = u_ic u' /\
  forall i, (i < u_n u)%nat -> u_y u i = u_y u' i /\ u_w u i = u_w u' i /\ u_off u i = u_off u' i.
Definition unpenalised (u : user) : Prop :=
  (forall j, (j < u_p u)%nat -> u_P1 u j = 0) /\ (forall i j, (i < u_p u)%nat -> (j < u_p u)%nat -> p2_entry (u_P2 u) i j = 0).
(** the coefficients for u that give the linear predictor of (b0', b') for u' *)
Definition back_intercept (u u' : user) (t : nat -> R) (b0' : R) (b' : nat -> R) : R :=
  b0' + (if u_ic u then rsum (u_p u') (fun k => t k * b' k) else 0).
Definition back_coef (u' : user) (A : nat -> nat -> R) (b' : nat -> R) : nat -> R :=
  fun j => rsum (u_p u') (fun k => A j k * b' k).
