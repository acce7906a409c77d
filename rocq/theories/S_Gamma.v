(** Specification of log-gamma (libc's lgamma on positive arguments), used by C66 and C67.
    By the Bohr-Mollerup theorem these three facts determine the function on (0, oo). *)
From Coq Require Import Reals.
Local Open Scope R_scope.

Definition is_lgamma (lg : R -> R) : Prop :=
  lg 1 = 0 /\
  (forall x, 0 < x -> lg (x + 1) = lg x + ln x) /\
  (forall x y t, 0 < x -> 0 < y -> 0 <= t <= 1 -> lg (t * x + (1 - t) * y) <= t * lg x + (1 - t) * lg y).
