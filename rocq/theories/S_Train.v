(** Specification side of C80: the training data with the predictions of given coefficients. *)
From Verif Require Import Base M_Std S_Std.
From Verif Require Import M_Solver S_Solver.
Local Open Scope R_scope.

(** (response, weight, predict(X, offset)) for every row of the training data *)
Definition train_obs (u : user) (b0 : R) (b : nat -> R) : list obs :=
  map (fun i => mkobs (u_y u i) (u_w u i) (inverse1 (u_link u) (user_eta u b0 b i))) (seq 0 (u_n u)).
(** weighted mean of the training responses, and the deviance of predicting it for every row *)
Definition train_mean (u : user) : R := rsum (u_n u) (fun i => u_w u i * u_y u i) / rsum (u_n u) (u_w u).
Definition null_deviance (u : user) : R :=
  deviance (u_fam u) (map (fun i => mkobs (u_y u i) (u_w u i) (train_mean u)) (seq 0 (u_n u))).
