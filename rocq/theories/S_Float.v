(** Specification side of C82: floating-point numbers and nearest ones, without reference to Flocq. *)
From Coq Require Import Reals ZArith Lra Lia.
From Verif Require Import Base M_Float.
Local Open Scope R_scope.

(** the finite numbers with p binary digits and least exponent e0 *)
Definition is_float (p e0 : Z) (x : R) : Prop :=
  exists m e, (Z.abs m < 2 ^ p)%Z /\ (e0 <= e)%Z /\ x = IZR m * powerRZ 2 e.
Definition float32 : R -> Prop := is_float 24 (-149).
Definition float64 : R -> Prop := is_float 53 (-1074).
Definition nearest (F : R -> Prop) (x y : R) : Prop := F y /\ forall z, F z -> Rabs (y - x) <= Rabs (z - x).

(** the number an argument or attribute stands for *)
Definition value (v : pyval) : option R :=
  match v with PyInt z => Some (IZR z) | PyNum (Fin x) => Some x | _ => None end.
Definition is_number (v : pyval) : Prop := v <> PyOther.
