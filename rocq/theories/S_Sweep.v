(** Specification side of C113: coordinate descent run for ever, and how far it is from stationary. *)
From Verif Require Import Base M_CD S_CD.
Local Open Scope R_scope.

(** Coefficients and gradients after n full sweeps in cyclic order (no stopping test). *)
Definition one_sweep (a : cd_args) (v : (nat -> R) * (nat -> R)) : (nat -> R) * (nat -> R) :=
  let s := snd (cd_sweep a (length (cd_act a)) 0 0%N (mkCS (fst v) (snd v) 0 0)) in (cs_w s, cs_q s).
Fixpoint sweeps (a : cd_args) (n : nat) (w q : nat -> R) : (nat -> R) * (nat -> R) :=
  match n with O => (w, q) | S n' => one_sweep a (sweeps a n' w q) end.
(** The 1-norm of the minimum-norm subgradient the stopping test looks at. *)
Definition kkt_norm (a : cd_args) (v : (nat -> R) * (nat -> R)) : R :=
  fst (norm_min_subgrad (cd_act a) (fst v) (snd v) (cd_P1 a) (cd_ic a) (cd_lb a) (cd_ub a)).
(** The penalised quadratic model the call minimises, and its bounds. *)
Definition cd_model (a : cd_args) (w0 q0 w : nat -> R) : R :=
  quad_model (cd_act a) (cd_Q a) q0 (pen_of (cd_ic a) (cd_P1 a)) w0 w.
Definition cd_feasible (a : cd_args) (w : nat -> R) : Prop :=
  forall i, In i (cd_act a) -> within (bnd_of (cd_ic a) (cd_lb a) i) (bnd_of (cd_ic a) (cd_ub a) i) (w i).
(** Cyclic order, distinct coordinates, symmetric matrix with entries at most B and diagonal at least mu (above the value below
    which a coordinate is skipped), nonnegative weights. *)
Definition cyclic (a : cd_args) (mu B : R) : Prop :=
  cd_random a = false /\ NoDup (cd_act a) /\ symmetric (length (cd_act a)) (cd_Q a) /\ (forall j, 0 <= cd_P1 a j) /\
  0 <= cd_eps a < mu /\ (forall k, (k < length (cd_act a))%nat -> mu <= cd_Q a k k) /\
  (forall k l, (k < length (cd_act a))%nat -> (l < length (cd_act a))%nat -> Rabs (cd_Q a k l) <= B).
(** the same call with another limit on the number of sweeps *)
Definition with_limit (a : cd_args) (n : nat) : cd_args :=
  mkCD (cd_act a) (cd_P1 a) (cd_Q a) n (cd_tol a) (cd_ic a) (cd_random a) (cd_lb a) (cd_ub a) (cd_eps a).
(** Q is positive definite with modulus m; w minimises the model within its bounds. *)
Definition definite (a : cd_args) (m : R) : Prop :=
  0 < m /\ forall d : nat -> R, m * rsum (length (cd_act a)) (fun k => d k ^ 2)
     <= rsum (length (cd_act a)) (fun k => rsum (length (cd_act a)) (fun l => d k * cd_Q a k l * d l)).
Definition cd_minimiser (a : cd_args) (w0 q0 w : nat -> R) : Prop :=
  cd_feasible a w /\ forall v, cd_feasible a v -> cd_model a w0 q0 w <= cd_model a w0 q0 v.
