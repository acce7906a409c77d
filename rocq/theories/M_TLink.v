(** Model of TweedieLink (_link.py 101-171) on linear predictors of any sign.  [M_Link] models [**] by [Rpower], which is
    right for positive bases only; here it is numpy's power.  Simplifications: exponents such as 1 / (1 - power) are exact
    (the code rounds them to single precision when the power is not an integer, cf. M_Float), zero is +0.0, and neither
    nan nor infinities occur in the linear predictor. *)
From Coq Require Import List ZArith. Import ListNotations.
From Verif Require Import Base M_Link.
Local Open Scope R_scope.

(** a floating point result that is not nan *)
Inductive xr := XFin (r : R) | XInf.
Definition xscale (c : R) (x : xr) : xr := match x with XFin r => XFin (c * r) | XInf => XInf end.

Definition is_int (e : R) : bool := Reqb (IZR (Int_part e)) e.
(** numpy.power for float arguments (used in _link.py 135, 142, 150, 159, 168): None is the invalid operation,
    which gives nan, or FloatingPointError under np.errstate(invalid="raise").  0 ** negative is +inf (the division by
    zero is only a warning). *)
Definition np_power (b e : R) : option xr :=
  if Rltb 0 b then Some (XFin (Rpower b e))
  else if Reqb b 0 then Some (if Rltb 0 e then XFin 0 else if Reqb e 0 then XFin 1 else XInf)
  else if is_int e then Some (XFin (powerRZ b (Int_part e))) else None.

(** An elementwise operation on an array under catch_p (_link.py 83-98): one invalid element raises ValueError. *)
Fixpoint elementwise (f : R -> option xr) (l : list R) : option (list xr) :=
  match l with
  | [] => Some []
  | x :: r => match f x, elementwise f r with Some y, Some ys => Some (y :: ys) | _, _ => None end
  end.

(** _link.py 144-150 *)
Definition tw_inverse (p : R) : list R -> option (list xr) := elementwise (fun eta =>
  if Reqb p 0 then Some (XFin eta) else if Reqb p 1 then Some (XFin (exp eta)) else np_power eta (1 / (1 - p))).
(** _link.py 152-159.  The factor 1 / (1 - p) may be negative, then the infinity is -inf; its sign is not modelled. *)
Definition tw_inverse_derivative (p : R) : list R -> option (list xr) := elementwise (fun eta =>
  if Reqb p 0 then Some (XFin 1) else if Reqb p 1 then Some (XFin (exp eta))
  else option_map (xscale (1 / (1 - p))) (np_power eta (p / (1 - p)))).
(** _link.py 161-171 *)
Definition tw_inverse_derivative2 (p : R) : list R -> option (list xr) := elementwise (fun eta =>
  if Reqb p 0 then Some (XFin 0) else if Reqb p 1 then Some (XFin (exp eta))
  else option_map (xscale (p / (1 - p) ^ 2)) (np_power eta ((2 * p - 1) / (1 - p)))).
(** _link.py 130-135, one element; [link] is not wrapped by catch_p, so None is nan here.  The logarithm of a
    non-positive number is not modelled (np.log gives -inf or nan). *)
Definition tw_link (p : R) (mu : R) : option xr :=
  if Reqb p 0 then Some (XFin mu) else if Reqb p 1 then Some (XFin (ln mu)) else np_power mu (1 - p).
