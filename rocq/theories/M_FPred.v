(** The linear predictor of one row in floating point: every operation is followed by the rounding [r]. *)
From Coq Require Import Reals ZArith List. Import ListNotations.
From Verif Require Import Base M_Float.
Local Open Scope R_scope.

(** How a library (BLAS, tabmat's sparse and categorical kernels) adds up the products of one row: any bracketing,
    any order, products rounded on their own or fused into the addition. *)
Inductive dot := DZero | DProd (j : nat) | DAdd (a b : dot) | DFma (j : nat) (a : dot).

Section Rounded.
Variable r : R -> R.
(** _glm.py 910, 914, 920, X @ coef: one row of the product, evaluated in the order [d] *)
Fixpoint f_dot (x b : nat -> R) (d : dot) : R :=
  match d with
  | DZero => 0
  | DProd j => r (x j * b j)
  | DAdd a c => r (f_dot x b a + f_dot x b c)
  | DFma j a => r (x j * b j + f_dot x b a)
  end.
(** _glm.py 909-925: + intercept, then += offset when there is one *)
Definition f_linear_predictor (x b : nat -> R) (b0 : R) (off : option R) (d : dot) : R :=
  let xb := r (f_dot x b d + b0) in
  match off with None => xb | Some o => r (xb + o) end.
End Rounded.
