(** Specification vocabulary for families: parameters, supports, mean ranges. *)
From Verif Require Import Base M_Link M_Dist.

(** Families that can be constructed. *)
Definition family_ok (f : family) : Prop :=
  match f with
  | TweedieF p => p <= 0 \/ 1 <= p
  | NegBinF theta => 0 < theta
  | _ => True
  end.

(** Support of the response. *)
Definition support (f : family) (y : R) : Prop :=
  match f with
  | TweedieF p => (1 <= p -> 0 <= y) /\ (2 <= p -> 0 < y)
  | NormalF | GHSF => True
  | PoissonF | NegBinF _ => 0 <= y
  | GammaF | InvGaussF => 0 < y
  | BinomialF => 0 <= y <= 1
  end.

(** (Open) range of the mean. *)
Definition mean_range (f : family) (mu : R) : Prop :=
  match f with
  | TweedieF p => p <> 0 -> 0 < mu
  | NormalF | GHSF => True
  | PoissonF | NegBinF _ | GammaF | InvGaussF => 0 < mu
  | BinomialF => 0 < mu < 1
  end.

(** The Tweedie power of a named class (its documentation). *)
Definition named_power (f : family) : option R :=
  match f with
  | NormalF => Some 0 | PoissonF => Some 1 | GammaF => Some 2 | InvGaussF => Some 3
  | _ => None
  end.

(** An observation the family accepts, with an admissible mean. *)
Definition obs_ok (f : family) (o : obs) : Prop :=
  support f (oy o) /\ mean_range f (omu o).

(** The textbook Fisher weight and score of one row. *)
Definition fisher_weight (f : family) (l : link) (w eta : R) : R :=
  w * inverse_derivative l eta ^ 2 / unit_variance f (raw_inverse l eta).

(** Pairs for which the solvers use the exact second derivative. *)
Definition exact_hessian_pair (f : family) (l : link) : Prop :=
  match f, l with
  | NormalF, IdentityL | PoissonF, LogL | GammaF, LogL | BinomialF, LogitL => True
  | TweedieF p, IdentityL => p = 0
  | TweedieF p, LogL => 1 <= p <= 2
  | _, _ => False
  end.

(** Canonical family/link pairs. *)
Definition canonical_pair (f : family) (l : link) : Prop :=
  match f, l with
  | NormalF, IdentityL | PoissonF, LogL | BinomialF, LogitL => True
  | TweedieF p, TweedieL q => p = q
  | TweedieF p, IdentityL => p = 0
  | TweedieF p, LogL => p = 1
  | _, _ => False
  end.

(** The same data with every mean equal to its response (saturated model). *)
Definition saturate (l : list obs) : list obs := map (fun o => mkobs (oy o) (ow o) (oy o)) l.

(** The mean the line search associates with a linear predictor: the inverse link
    (clipped for logit/cloglog, except for the Binomial/logit kernel which does not clip). *)
Definition search_mean (f : family) (lk : link) (eta : R) : R :=
  match f, lk with BinomialF, LogitL => raw_inverse LogitL eta | _, _ => inverse1 lk eta end.

(** Frequency data (count, (y, mu)): one weighted row per entry, or [count] rows of weight 1. *)
Definition freq_obs (l : list (nat * (R * R))) : list obs :=
  map (fun c => mkobs (fst (snd c)) (INR (fst c)) (snd (snd c))) l.
Definition expand_obs (l : list (nat * (R * R))) : list obs :=
  flat_map (fun c => repeat (mkobs (fst (snd c)) 1 (snd (snd c))) (fst c)) l.

(** Weighted sum of unit deviances of (y, w) pairs at a constant mean. *)
Definition udsum (f : family) (l : list (R * R)) (m : R) : R :=
  lsumf (fun yw => snd yw * unit_deviance f (fst yw) m) l.

(** Weighted deviance of the model eta_i + b. *)
Definition null_obj (f : family) (lk : link) (l : list grow) (b : R) : R :=
  lsumf (fun g => g_w g * unit_deviance f (g_y g) (raw_inverse lk (g_eta g + b))) l.

(** Families of Tweedie type. *)
Definition tweedie_like (f : family) : Prop :=
  match f with TweedieF _ | NormalF | PoissonF | GammaF | InvGaussF => True | _ => False end.
Definition normal_like (f : family) : Prop :=
  match f with NormalF => True | TweedieF p => p = 0 | _ => False end.

(** (y, weight) pairs of the rows. *)
Definition g_yw (l : list grow) : list (R * R) := map (fun g => (g_y g, g_w g)) l.

(** Tweedie with negative power (extreme stable). *)
Definition neg_power (f : family) : Prop := match f with TweedieF p => p < 0 | _ => False end.
