(** Floating-point formats and rounding (IEEE 754, round to nearest even), from Flocq.
    Overflow to infinity is a separate case of the cast below. *)
From Coq Require Import Reals ZArith Lra Lia List.
From Flocq Require Import Core.
From Verif Require Import Base.
Local Open Scope R_scope.

(** binary32 and binary64 *)
Definition rnd (p e0 : Z) (x : R) : R := round radix2 (FLT_exp e0 p) ZnearestE x.
Definition rnd32 : R -> R := rnd 24 (-149).
Definition rnd64 : R -> R := rnd 53 (-1074).
Definition max32 : R := bpow radix2 128.

(** Numbers that reach the setters: a Python int (or bool), any other number (float, numpy scalar) as a
    floating-point value, or an object that is not a number. *)
Inductive fl := Fin (x : R) | PInf | NInf | NaN.
Inductive pyval := PyInt (z : Z) | PyNum (v : fl) | PyOther.
Inductive setres := Stored (v : pyval) | TypeErr | ValueErr.

(** v > c, v < c for a finite c; every comparison with NaN is False *)
Definition fl_gt (v : fl) (c : R) : bool := match v with Fin x => Rltb c x | PInf => true | NInf => false | NaN => false end.
Definition fl_lt (v : fl) (c : R) : bool := match v with Fin x => Rltb x c | PInf => false | NInf => true | NaN => false end.
Definition num_gt (v : pyval) (c : R) : bool := match v with PyInt z => Rltb c (IZR z) | PyNum v => fl_gt v c | PyOther => false end.
Definition num_lt (v : pyval) (c : R) : bool := match v with PyInt z => Rltb (IZR z) c | PyNum v => fl_lt v c | PyOther => false end.

(** np.float32(x) *)
Definition to_float32 (v : fl) : fl :=
  match v with
  | Fin x => if Rltb (Rabs (rnd32 x)) max32 then Fin (rnd32 x) else if Rltb 0 x then PInf else NInf
  | w => w
  end.
Definition cast32 (v : pyval) : pyval := match v with PyNum w => PyNum (to_float32 w) | w => w end.

(** _distribution.py 607-615 (TweedieDistribution.power), _link.py 120-128 (TweedieLink.power) *)
Definition set_power (v : pyval) : setres :=
  match v with
  | PyOther => TypeErr
  | _ => if (num_gt v 0 && num_lt v 1)%bool then ValueErr else Stored (cast32 v)
  end.
(** _distribution.py 1391-1399 (NegativeBinomialDistribution.theta) *)
Definition set_theta (v : pyval) : setres :=
  match v with
  | PyOther => TypeErr
  | _ => if negb (num_gt v 0) then ValueErr else Stored (cast32 v)
  end.
(** self.power == other.power; Python compares ints and floats by value, NaN equals nothing *)
Definition num_eq (v w : pyval) : bool :=
  let val x := match x with PyInt z => Fin (IZR z) | PyNum y => y | PyOther => NaN end in
  match val v, val w with
  | Fin x, Fin y => Reqb x y
  | PInf, PInf | NInf, NInf => true
  | _, _ => false
  end.
