(** Specification side of C67: the series of Dunn and Smyth (2005) for the Tweedie density with
    1 < p < 2:  f(y; mu, p, phi) = exp((y mu^(1-p)/(1-p) - mu^(2-p)/(2-p)) / phi) / y * sum_(j>=1) W_j,
    W_j = z^j / (j! Gamma(j a)),  a = (2-p)/(p-1),  z = y^a (p-1)^(-a) / (phi^(1+a) (2-p)). *)
From Coquelicot Require Import Coquelicot.
From Verif Require Import Base S_Gamma.
Local Open Scope R_scope.

Definition ds_a (p : R) : R := (2 - p) / (p - 1).
Definition ds_z (p phi y : R) : R := Rpower y (ds_a p) * Rpower (p - 1) (- ds_a p) / (Rpower phi (1 + ds_a p) * (2 - p)).
Definition ds_term (lg : R -> R) (p phi y : R) (j : nat) : R :=
  Rpower (ds_z p phi y) (INR j) / (INR (fact j) * exp (lg (INR j * ds_a p))).
(** the (approximate) mode of the terms *)
Definition ds_mode (p phi y : R) : R := Rpower y (2 - p) / (phi * (2 - p)).
(** sum of the terms lo..hi *)
Definition ds_sum (lg : R -> R) (p phi y : R) (lo hi : nat) : R := lsumf (ds_term lg p phi y) (seq lo (hi + 1 - lo)).
(** the density (the probability of the atom at y = 0) *)
Definition tweedie_density (lg : R -> R) (p phi mu y : R) : R :=
  if Req_EM_T y 0 then exp (- Rpower mu (2 - p) / (phi * (2 - p)))
  else exp ((y * Rpower mu (1 - p) / (1 - p) - Rpower mu (2 - p) / (2 - p)) / phi) / y
       * Series (fun k => ds_term lg p phi y (S k)).
