(** Specification side of C66: textbook densities (masses), parametrised by the mean and the dispersion. *)
From Verif Require Import Base S_Gamma M_Dist.
Local Open Scope R_scope.

Definition normal_pdf (mu sigma2 y : R) : R := exp (- (y - mu) ^ 2 / (2 * sigma2)) / sqrt (2 * PI * sigma2).
(** shape k, scale s *)
Definition gamma_pdf (lg : R -> R) (k s y : R) : R := Rpower y (k - 1) * exp (- y / s) / (exp (lg k) * Rpower s k).
(** mean mu, shape lambda *)
Definition inv_gauss_pdf (mu lambda y : R) : R :=
  sqrt (lambda / (2 * PI * y ^ 3)) * exp (- lambda * (y - mu) ^ 2 / (2 * mu ^ 2 * y)).
Definition poisson_pmf (mu : R) (k : nat) : R := exp (- mu) * mu ^ k / INR (fact k).
(** r successes, success probability p: Gamma(k+r)/(Gamma(r) k!) p^r (1-p)^k *)
Definition negbin_pmf (lg : R -> R) (r p : R) (k : nat) : R :=
  exp (lg (INR k + r)) / (exp (lg r) * INR (fact k)) * Rpower p r * (1 - p) ^ k.
Definition bernoulli_pmf (mu y : R) : R := if Req_EM_T y 1 then mu else 1 - mu.

(** The density that belongs to a family, its mean and the dispersion. *)
Definition family_density (lg : R -> R) (f : family) (phi mu y d : R) : Prop :=
  match f with
  | NormalF => d = normal_pdf mu phi y
  | GammaF => 0 < y /\ d = gamma_pdf lg (/ phi) (mu * phi) y
  | InvGaussF => 0 < y /\ d = inv_gauss_pdf mu (/ phi) y
  | PoissonF => exists k, y = INR k /\ d = poisson_pmf mu k
  | NegBinF theta => exists k, y = INR k /\ d = negbin_pmf lg (/ theta) (/ (1 + theta * mu)) k
  | BinomialF => (y = 0 \/ y = 1) /\ d = bernoulli_pmf mu y
  | _ => False
  end.
