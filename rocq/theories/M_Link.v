(** Model of src/glum/_link.py. *)
From Verif Require Import Base.

(** The five link classes.
    _link.py: 101-171 (TweedieLink), 174-196 (IdentityLink), 199-221 (LogLink),
    224-252 (LogitLink), 255-282 (CloglogLink). *)
Inductive link :=
| TweedieL (p : R)
| IdentityL
| LogL
| LogitL
| CloglogL.

(** _link.py: 120-128, the power setter: 0 < p < 1 raises ValueError.
    (For the float32 cast of a non-integer power see M_Float.) *)
Definition mk_tweedie_link (p : R) : option link :=
  if Rlt_dec 0 p then (if Rlt_dec p 1 then None else Some (TweedieL p)) else Some (TweedieL p).

(** scipy.special.logit and expit. *)
Definition logit (m : R) : R := ln (m / (1 - m)).
Definition expit (x : R) : R := 1 / (1 + exp (- x)).
(** numpy.log1p, numpy.expm1 *)
Definition log1p (x : R) : R := ln (1 + x).
Definition expm1 (x : R) : R := exp x - 1.

(** [link(mu)]: _link.py: 130-135, 184, 209, 231-232, 262-263.
    [**] is modelled by [Rpower], i.e. for positive bases only. *)
Definition link_fn (l : link) (mu : R) : R :=
  match l with
  | TweedieL p => if Req_EM_T p 0 then mu else if Req_EM_T p 1 then ln mu else Rpower mu (1 - p)
  | IdentityL => mu
  | LogL => ln mu
  | LogitL => logit mu
  | CloglogL => ln (- log1p (- mu))
  end.

(** [derivative(mu)]: _link.py: 137-142, 187, 212, 234-235, 265-266. *)
Definition link_derivative (l : link) (mu : R) : R :=
  match l with
  | TweedieL p => if Req_EM_T p 0 then 1 else if Req_EM_T p 1 then 1 / mu else (1 - p) * Rpower mu (- p)
  | IdentityL => 1
  | LogL => 1 / mu
  | LogitL => 1 / (mu * (1 - mu))
  | CloglogL => 1 / ((mu - 1) * log1p (- mu))
  end.

(** Value of the inverse link before any clipping: _link.py: 144-150, 190, 215, 238, 270.  [**] is modelled by
    [Rpower], i.e. for positive bases only; M_TLink models TweedieLink on the other predictors. *)
Definition raw_inverse (l : link) (eta : R) : R :=
  match l with
  | TweedieL p => if Req_EM_T p 0 then eta else if Req_EM_T p 1 then exp eta
                  else Rpower eta (1 / (1 - p))
  | IdentityL => eta
  | LogL => exp eta
  | LogitL => expit eta
  | CloglogL => - expm1 (- exp eta)
  end.

(** np.finfo(float64).eps = 2^-52; _link.py: 239, 271. *)
Definition eps64 : R := / 2 ^ 52.
Definition eps50 : R := 50 * eps64.

(** [inverse(lin_pred)] on an array; the second component tells whether the
    "Sigmoid function too close to 0 or 1. Clipping." warning is emitted.
    _link.py: 237-244, 268-276 (clipping only for logit and cloglog). *)
Definition link_inverse (l : link) (lin_pred : list R) : list R * bool :=
  let raw := map (raw_inverse l) lin_pred in
  match l with
  | LogitL | CloglogL =>
      if existsb (fun v => Rltb (1 - eps50) v) raw || existsb (fun v => Rltb v eps50) raw
      then (map (fun v => clip v eps50 (1 - eps50)) raw, true)
      else (raw, false)
  | _ => (raw, false)
  end%bool.

(** [inverse_derivative(lin_pred)]: _link.py: 152-159, 193, 218, 246-248, 278-279. *)
Definition inverse_derivative (l : link) (eta : R) : R :=
  match l with
  | TweedieL p => if Req_EM_T p 0 then 1 else if Req_EM_T p 1 then exp eta
                  else (1 / (1 - p)) * Rpower eta (p / (1 - p))
  | IdentityL => 1
  | LogL => exp eta
  | LogitL => let ep := expit eta in ep * (1 - ep)
  | CloglogL => exp (eta - exp eta)
  end.

(** [inverse_derivative2(lin_pred)]: _link.py: 161-171, 196, 221, 250-252, 281-282. *)
Definition inverse_derivative2 (l : link) (eta : R) : R :=
  match l with
  | TweedieL p => if Req_EM_T p 0 then 0 else if Req_EM_T p 1 then exp eta
                  else Rpower eta ((2 * p - 1) / (1 - p)) * (p / (1 - p) ^ 2)
  | IdentityL => 0
  | LogL => exp eta
  | LogitL => let ep := expit eta in ep * (1 - ep) * (1 - 2 * ep)
  | CloglogL => - exp (eta - exp eta) * expm1 eta
  end.

(** Element-wise form of the (clipped) inverse link. *)
Definition inverse1 (l : link) (eta : R) : R :=
  match l with
  | LogitL | CloglogL => clip (raw_inverse l eta) eps50 (1 - eps50)
  | _ => raw_inverse l eta
  end.
