(** Specification side of C84, stopping: coordinate descent in floating point, sweep by sweep. *)
From Coq Require Import Reals ZArith Lra Lia List. Import ListNotations.
From Verif Require Import Base M_CD M_FCD.
Local Open Scope R_scope.

(** Seed of the generator, coefficients and gradients after n sweeps, the stopping test ignored. *)
Definition f_one (r : R -> R) (a : cd_args) (v : N * ((nat -> R) * (nat -> R))) : N * ((nat -> R) * (nat -> R)) :=
  let c := f_sweep r a (length (cd_act a)) 0 (fst v) (mkCS (fst (snd v)) (snd (snd v)) 0 0) in (fst c, (cs_w (snd c), cs_q (snd c))).
Fixpoint f_after (r : R -> R) (a : cd_args) (n : nat) (seed : N) (w q : nat -> R) : N * ((nat -> R) * (nat -> R)) :=
  match n with O => (seed, (w, q)) | S n' => f_one r a (f_after r a n' seed w q) end.
Definition f_coefs r a n seed w q : nat -> R := fst (snd (f_after r a n seed w q)).
Definition f_grads r a n seed w q : nat -> R := snd (snd (f_after r a n seed w q)).
(** Component i of the minimum-norm subgradient, computed exactly from coefficients w and gradients q. *)
Definition exact_term (a : cd_args) (w q : nat -> R) (i : nat) : R :=
  if (cd_ic a && Nat.eqb i 0)%bool then q 0%nat
  else subgrad_term (w i) (q i) (cd_P1 a (i - ioff (cd_ic a))%nat) (cd_lb a (i - ioff (cd_ic a))%nat) (cd_ub a (i - ioff (cd_ic a))%nat).
(** Columns in increasing order. *)
Fixpoint increasing (l : list nat) : Prop := match l with [] => True | x :: l' => (forall y, In y l' -> (x < y)%nat) /\ increasing l' end.
