(** Specification side of C111: inference for a model whose columns are written differently. *)
From Verif Require Export M_Cov S_Cov.
Import ListNotations.
Local Open Scope R_scope.

(** the coefficients for the old columns that give the same linear predictor *)
Definition back (k : nat) (T : mat) (beta' : vect) : vect := fun l => rsum k (fun j => T l j * beta' j).
(** the hypothesis R b = r in terms of the new coefficients: (R T) b' = r *)
Definition rewritten (k : nat) (T : mat) (R0 : restr) : restr :=
  mkRestr (rq R0) (rcols R0) (fun q j => rsum k (fun l => rR R0 q l * T l j)).
(** a row of regressors (with a leading one for the intercept) in terms of the new columns *)
Definition new_row (k : nat) (T : mat) (x : vect) : vect := fun j => rsum k (fun l => x l * T l j).
(** variance of the linear predictor of a row *)
Definition predictor_variance (k : nat) (V : mat) (x : vect) : R := quad k V x.

(** three ways of writing the columns differently: units, order, origin *)
Definition units (s : nat -> R) : mat := fun l j => if Nat.eqb l j then s j else 0.
Definition order (pi : nat -> nat) : mat := fun l j => if Nat.eqb l (pi j) then 1 else 0.
(** columns 1, 2, ... moved by t j, column 0 is the intercept *)
Definition origin (t : nat -> R) : mat := fun l j => (if Nat.eqb l j then 1 else 0) + (if Nat.eqb l 0 then if Nat.eqb j 0 then 0 else t j else 0).
