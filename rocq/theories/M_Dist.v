(** Model of src/glum/_distribution.py and of the kernels in src/glum/_functions.pyx.
    Arrays of observations are lists of records; [prange] reductions are sums. *)
From Verif Require Import Base M_Link.

(** The distribution classes.  _distribution.py: 541 (Tweedie), 778 (Normal), 891 (Poisson),
    1005 (Gamma), 1118 (InverseGaussian), 1228 (GeneralizedHyperbolicSecant), 1255 (Binomial),
    1351 (NegativeBinomial). *)
Inductive family :=
| TweedieF (p : R)
| NormalF
| PoissonF
| GammaF
| InvGaussF
| GHSF
| BinomialF
| NegBinF (theta : R).

(** _distribution.py: 607-615 (Tweedie power setter), 1391-1399 (theta setter).
    [None] is the ValueError. For the float32 cast see M_Float. *)
Definition mk_tweedie (p : R) : option family :=
  if Rlt_dec 0 p then (if Rlt_dec p 1 then None else Some (TweedieF p)) else Some (TweedieF p).
Definition mk_negbin (theta : R) : option family :=
  if Rlt_dec 0 theta then Some (NegBinF theta) else None.

(** [x ** a] for the float arguments that occur: positive base, or zero base. *)
Definition npow (x a : R) : R :=
  if Req_EM_T x 0 then (if Req_EM_T a 0 then 1 else 0) else Rpower x a.
(** scipy.special.xlogy *)
Definition xlogy (x y : R) : R := if Req_EM_T x 0 then 0 else x * ln y.

(** lower_bound / upper_bound / include_*: _distribution.py: 571-600, 787-790, 900-903,
    1014-1017, 1127-1130, 1237-1240, 1264-1267, 1372-1375.  [None] = infinite.
    (For Tweedie with 0 < p < 1 the code raises; such an object cannot be built.) *)
Definition lower_bound (f : family) : option R :=
  match f with
  | TweedieF p => if Rle_dec p 0 then None else Some 0
  | NormalF | GHSF => None
  | PoissonF | GammaF | InvGaussF | BinomialF | NegBinF _ => Some 0
  end.
Definition include_lower_bound (f : family) : bool :=
  match f with
  | TweedieF p => if Rle_dec p 0 then false else if Rlt_dec p 2 then true else false
  | NormalF | GHSF | GammaF | InvGaussF => false
  | PoissonF | BinomialF | NegBinF _ => true
  end.
Definition upper_bound (f : family) : option R :=
  match f with BinomialF => Some 1 | _ => None end.
Definition include_upper_bound (f : family) : bool :=
  match f with BinomialF => true | _ => false end.

(** in_y_range for one (finite) value: _distribution.py: 88-100. *)
Definition in_y_range (f : family) (y : R) : bool :=
  match lower_bound f with
  | None => true
  | Some lb => if include_lower_bound f then Rleb lb y else Rltb lb y
  end
  && match upper_bound f with
     | None => true
     | Some ub => if include_upper_bound f then Rleb y ub else Rltb y ub
     end.

(** unit_variance: _distribution.py: 617-619, 798, 911, 1025, 1138, 1245, 1272, 1401. *)
Definition unit_variance (f : family) (mu : R) : R :=
  match f with
  | TweedieF p => Rpower mu p
  | NormalF => 1
  | PoissonF => mu
  | GammaF => mu ^ 2
  | InvGaussF => mu ^ 3
  | GHSF => 1 + mu ^ 2
  | BinomialF => mu * (1 - mu)
  | NegBinF theta => mu + theta * mu ^ 2
  end.

(** unit_variance_derivative: _distribution.py: 621-623, 801, 914, 1028, 1141, 1248, 1275, 1404. *)
Definition unit_variance_derivative (f : family) (mu : R) : R :=
  match f with
  | TweedieF p => p * Rpower mu (p - 1)
  | NormalF => 0
  | PoissonF => 1
  | GammaF => 2 * mu
  | InvGaussF => 3 * mu ^ 2
  | GHSF => 2 * mu
  | BinomialF => 1 - 2 * mu
  | NegBinF theta => 1 + 2 * theta * mu
  end.

(** variance: _distribution.py: 143-165. *)
Definition variance (f : family) (mu dispersion w : R) : R := unit_variance f mu * dispersion / w.

(** unit_deviance: _distribution.py: 643-659 (Tweedie), 813, 926-928, 1040, 1150, 1251, 1278-1280,
    1414-1419. *)
Definition unit_deviance (f : family) (y mu : R) : R :=
  match f with
  | TweedieF p =>
      if Req_EM_T p 0 then (y - mu) ^ 2
      else if Req_EM_T p 1 then 2 * (xlogy y (y / mu) - y + mu)
      else if Req_EM_T p 2 then 2 * (ln (mu / y) + y / mu - 1)
      else if Req_EM_T p 3 then (y / mu - 1) ^ 2 / y
      else
        let mu1mp := Rpower mu (1 - p) in
        2 * (npow (Rmax y 0) (2 - p) / ((1 - p) * (2 - p))
             - y * mu1mp / (1 - p) + mu * mu1mp / (2 - p))
  | NormalF => (y - mu) ^ 2
  | PoissonF => 2 * (xlogy y (y / mu) - y + mu)
  | GammaF => 2 * (ln (mu / y) + y / mu - 1)
  | InvGaussF => y / mu ^ 2 + 1 / y - 2 / mu
  | GHSF => 2 * y * (atan y - atan mu) + ln ((1 + mu ^ 2) / (1 + y ^ 2))
  | BinomialF => - 2 * (xlogy y mu + xlogy (1 - y) (1 - mu))
  | NegBinF theta =>
      let r := 1 / theta in
      2 * (xlogy y (y / mu) - (y + r) * ln ((y + r) / (mu + r)))
  end.

(** unit_deviance_derivative: _distribution.py: 210-229. *)
Definition unit_deviance_derivative (f : family) (y mu : R) : R :=
  - 2 * (y - mu) / unit_variance f mu.

(** One observation with its predicted mean. *)
Record obs := mkobs { oy : R; ow : R; omu : R }.

(** Deviance kernels, _functions.pyx: 83-97, 149-165, 222-236, 310-325, 368-389, 582-599. *)
Definition normal_deviance (l : list obs) : R :=
  lsumf (fun o => ow o * (oy o - omu o) ^ 2) l.
Definition poisson_deviance (l : list obs) : R :=
  2 * lsumf (fun o => ow o * omu o
                      + (if Rlt_dec 0 (oy o) then ow o * oy o * (ln (oy o) - ln (omu o) - 1) else 0)) l.
Definition gamma_deviance (l : list obs) : R :=
  2 * lsumf (fun o => ow o * (ln (omu o) - ln (oy o) + oy o / omu o - 1)) l.
Definition inv_gaussian_deviance (l : list obs) : R :=
  lsumf (fun o => let sq_err := (oy o / omu o - 1) ^ 2 in ow o * sq_err / oy o) l.
Definition tweedie_deviance (p : R) (l : list obs) : R :=
  2 * lsumf (fun o =>
        let mu1mp := Rpower (omu o) (1 - p) in
        ow o * (mu1mp * omu o) / (2 - p)
        + (if Rlt_dec 0 (oy o) then
             let yo1mp := oy o / (1 - p) in
             ow o * (Rpower (oy o) (1 - p) * yo1mp / (2 - p) - yo1mp * mu1mp)
           else 0)) l.
Definition negative_binomial_deviance (theta : R) (l : list obs) : R :=
  let r := 1 / theta in
  2 * lsumf (fun o =>
        - ow o * (oy o + r) * ln ((oy o + r) / (omu o + r))
        + (if Rlt_dec 0 (oy o) then ow o * oy o * ln (oy o / omu o) else 0)) l.

(** deviance: _distribution.py: 231-254 (base class: GHS, Binomial), 625-641 (Tweedie), 804, 917,
    1031, 1144, 1407. *)
Definition deviance (f : family) (l : list obs) : R :=
  match f with
  | TweedieF p =>
      if Req_EM_T p 0 then normal_deviance l
      else if Req_EM_T p 1 then poisson_deviance l
      else if Req_EM_T p 2 then gamma_deviance l
      else if Req_EM_T p 3 then inv_gaussian_deviance l
      else tweedie_deviance p l
  | NormalF => normal_deviance l
  | PoissonF => poisson_deviance l
  | GammaF => gamma_deviance l
  | InvGaussF => inv_gaussian_deviance l
  | GHSF | BinomialF => lsumf (fun o => unit_deviance f (oy o) (omu o) * ow o) l
  | NegBinF theta => negative_binomial_deviance theta l
  end.

(** get_one_over_variance, _distribution.py: 1500-1524.  [1 / (v phi / w)] is written
    [w / (v phi)], which is also the IEEE value at w = 0 (1/inf).
    The clipping of eta at log(max/10) is an overflow guard and is not modelled. *)
Definition one_over_variance (f : family) (l : link) (mu eta dispersion w : R) : R :=
  match f, l with
  | BinomialF, LogitL => w * (exp eta + 2 + exp (- eta)) / dispersion
  | _, _ => w / (unit_variance f mu * dispersion)
  end.

(** Generic rows, _distribution.py: 390-408. *)
Definition generic_rows (f : family) (l : link) (y w eta mu : R) : R * R :=
  let sigma_inv := one_over_variance f l mu eta 1 w in
  let d1 := inverse_derivative l eta in
  let d1_sigma_inv := d1 * sigma_inv in
  (d1_sigma_inv * (y - mu), d1 * d1_sigma_inv).

(** Kernels for rows, _functions.pyx: 48-63 (normal/identity), 117-129 (poisson/log),
    185-197 (gamma/log), 263-284 (inverse gaussian/log), 348-366 (tweedie/log),
    508-520 (binomial/logit), 543-556 (negative binomial/log). *)
Definition normal_identity_rows (y w eta mu : R) : R * R := (w * (y - mu), w).
Definition poisson_log_rows (y w eta mu : R) : R * R := (w * (y - mu), w * mu).
Definition gamma_log_rows (y w eta mu : R) : R * R := (w * (y / mu - 1), w * (y / mu)).
Definition inv_gaussian_log_rows (y w eta mu : R) : R * R :=
  let inv_mu := 1 / mu in
  let inv_mu2 := inv_mu ^ 2 in
  (w * (y * inv_mu2 - inv_mu), w * inv_mu).
Definition tweedie_log_rows (p y w eta mu : R) : R * R :=
  let mu1mp := Rpower mu (1 - p) in
  let ymm := y - mu in
  (w * mu1mp * ymm, w * mu1mp * (mu - (1 - p) * ymm)).
Definition binomial_logit_rows (y w eta mu : R) : R * R := (w * (y - mu), w * mu * (1 - mu)).
Definition negative_binomial_log_rows (theta y w eta mu : R) : R * R :=
  (w * (y - mu) / (1 + theta * mu), w * mu / (1 + theta * mu)).

(** Dispatch of _rowwise_gradient_hessian: _distribution.py: 661-682, 816-826, 930-940,
    1043-1053, 1153-1163, 1282-1291, 1421-1430.  One row (gradient, Hessian). *)
Definition rowwise (f : family) (l : link) (y w eta mu : R) : R * R :=
  match f, l with
  | TweedieF p, IdentityL =>
      if Req_EM_T p 0 then normal_identity_rows y w eta mu else generic_rows f l y w eta mu
  | TweedieF p, LogL =>
      if Req_EM_T p 1 then poisson_log_rows y w eta mu
      else if Req_EM_T p 2 then gamma_log_rows y w eta mu
      else if Rlt_dec 1 p then
        (if Rlt_dec p 2 then tweedie_log_rows p y w eta mu
         else if Req_EM_T p 3 then inv_gaussian_log_rows y w eta mu
         else generic_rows f l y w eta mu)
      else generic_rows f l y w eta mu
  | NormalF, IdentityL => normal_identity_rows y w eta mu
  | PoissonF, LogL => poisson_log_rows y w eta mu
  | GammaF, LogL => gamma_log_rows y w eta mu
  | InvGaussF, LogL => inv_gaussian_log_rows y w eta mu
  | BinomialF, LogitL => binomial_logit_rows y w eta mu
  | NegBinF theta, LogL => negative_binomial_log_rows theta y w eta mu
  | _, _ => generic_rows f l y w eta mu
  end.
Definition gradient_row f l y w eta mu := fst (rowwise f l y w eta mu).
Definition hessian_row f l y w eta mu := snd (rowwise f l y w eta mu).

(** One row of a line-search evaluation: current eta, X.d, y, weight. *)
Record srow := mksrow { s_eta : R; s_xd : R; s_y : R; s_w : R }.
Definition new_eta (factor : R) (s : srow) : R := s_eta s + factor * s_xd s.

(** Fused kernels, _functions.pyx: 29-45, 99-115, 167-183, 238-261, 327-346, 473-506, 522-541:
    (eta_out, mu_out, returned value). *)
Definition normal_identity_emd (factor : R) (l : list srow) :=
  (map (new_eta factor) l, map (new_eta factor) l,
   lsumf (fun s => s_w s * (s_y s - new_eta factor s) ^ 2) l).
Definition poisson_log_emd (factor : R) (l : list srow) :=
  (map (new_eta factor) l, map (fun s => exp (new_eta factor s)) l,
   - 2 * lsumf (fun s => s_w s * (s_y s * new_eta factor s - exp (new_eta factor s))) l).
Definition gamma_log_emd (factor : R) (l : list srow) :=
  (map (new_eta factor) l, map (fun s => exp (new_eta factor s)) l,
   2 * lsumf (fun s => s_w s * (s_y s / exp (new_eta factor s) + new_eta factor s)) l).
Definition inv_gaussian_log_emd (factor : R) (l : list srow) :=
  (map (new_eta factor) l, map (fun s => exp (new_eta factor s)) l,
   lsumf (fun s => let sq_err := (s_y s / exp (new_eta factor s) - 1) ^ 2 in
                   s_w s * sq_err / s_y s) l).
Definition tweedie_log_emd (p factor : R) (l : list srow) :=
  (map (new_eta factor) l, map (fun s => exp (new_eta factor s)) l,
   2 * lsumf (fun s => let mu := exp (new_eta factor s) in
                       let mu1mp := Rpower mu (1 - p) in
                       s_w s * mu1mp * (mu / (2 - p) - s_y s / (1 - p))) l).
Definition binomial_logit_mu (eta : R) : R :=
  if Rlt_dec 0 eta then 1 / (1 + exp (- eta)) else exp eta / (exp eta + 1).
Definition binomial_logit_emd (factor : R) (l : list srow) :=
  (map (new_eta factor) l, map (fun s => binomial_logit_mu (new_eta factor s)) l,
   - 2 * lsumf (fun s => let eta := new_eta factor s in
       if Rlt_dec 0 eta then s_w s * (s_y s * eta - eta - ln (1 + exp (- eta)))
       else s_w s * (s_y s * eta - ln (1 + exp eta))) l).
Definition negative_binomial_log_emd (theta factor : R) (l : list srow) :=
  let r := 1 / theta in
  (map (new_eta factor) l, map (fun s => exp (new_eta factor s)) l,
   2 * lsumf (fun s => let eta := new_eta factor s in
       s_w s * (- s_y s * eta + (s_y s + r) * ln (exp eta + r))) l).

Definition to_obs (l : list srow) (mus : list R) : list obs :=
  map (fun sm => mkobs (s_y (fst sm)) (s_w (fst sm)) (snd sm)) (combine l mus).

(** Default _eta_mu_deviance, _distribution.py: 331-356. *)
Definition generic_emd (f : family) (lk : link) (factor : R) (l : list srow) :=
  let eta := map (new_eta factor) l in
  let mu := fst (link_inverse lk eta) in
  (eta, mu, deviance f (to_obs l mu)).

(** Dispatch of _eta_mu_deviance: _distribution.py: 684-713, 828-846, 942-960, 1055-1073,
    1165-1183, 1293-1311, 1432-1456. *)
Definition eta_mu_deviance (f : family) (lk : link) (factor : R) (l : list srow)
  : list R * list R * R :=
  match f, lk with
  | TweedieF p, IdentityL =>
      if Req_EM_T p 0 then normal_identity_emd factor l else generic_emd f lk factor l
  | TweedieF p, LogL =>
      if Req_EM_T p 1 then poisson_log_emd factor l
      else if Req_EM_T p 2 then gamma_log_emd factor l
      else if Rlt_dec 1 p then
        (if Rlt_dec p 2 then tweedie_log_emd p factor l
         else if Req_EM_T p 3 then inv_gaussian_log_emd factor l
         else generic_emd f lk factor l)
      else generic_emd f lk factor l
  | NormalF, IdentityL => normal_identity_emd factor l
  | PoissonF, LogL => poisson_log_emd factor l
  | GammaF, LogL => gamma_log_emd factor l
  | InvGaussF, LogL => inv_gaussian_log_emd factor l
  | BinomialF, LogitL => binomial_logit_emd factor l
  | NegBinF theta, LogL => negative_binomial_log_emd theta factor l
  | _, _ => generic_emd f lk factor l
  end.

(** Log-likelihoods, _functions.pyx: 65-81, 131-147, 199-220, 286-308, 391-419, 558-580;
    _distribution.py: 715-757, 848-871, 962-985, 1075-1098, 1185-1208, 1313-1331, 1458-1479.
    [lgamma] is libc's log-gamma and [tw_norm y p phi] is _tweedie_normalization
    (_functions.pyx: 421-471, a truncated series independent of mu): both are parameters.
    The dispersion is passed explicitly (the [None] branch first estimates it by [dispersion]). *)
Section LogLik.
Variable lgamma : R -> R.
Variable tw_norm : R -> R -> R -> R.

Definition normal_ll (phi : R) (l : list obs) : R :=
  lsumf (fun o => - (ow o * (oy o - omu o) ^ 2)) l / (2 * phi)
  + lsumf (fun o => - ow o) l * ln (2 * PI * phi) / 2.
Definition poisson_ll (l : list obs) : R :=
  lsumf (fun o => - (ow o * omu o)
     + (if Rlt_dec 0 (oy o) then - (ow o * (lgamma (1 + oy o) - oy o * ln (omu o))) else 0)) l.
Definition gamma_ll (phi : R) (l : list obs) : R :=
  let inv_phi := 1 / phi in
  let normalization := ln phi * inv_phi + lgamma inv_phi in
  lsumf (fun o => ow o * (inv_phi * (ln (oy o) - ln (omu o) - oy o / omu o) - ln (oy o))) l
  - normalization * lsumf ow l.
Definition inv_gaussian_ll (phi : R) (l : list obs) : R :=
  let scale := 1 / (2 * phi) in
  lsumf (fun o => let sq_err := (oy o / omu o - 1) ^ 2 in
                  - (ow o * (scale * sq_err / oy o + ln (oy o) * 3 / 2))) l
  + lsumf ow l * ln (scale / PI) / 2.
Definition tweedie_unit_ll (y mu p phi : R) : R :=
  if Req_EM_T y 0 then - npow mu (2 - p) / (phi * (2 - p))
  else
    let th := Rpower mu (1 - p) in
    let kappa := mu * th / (2 - p) in
    let theta := th / (1 - p) in
    (theta * y - kappa) / phi + tw_norm y p phi.
Definition tweedie_ll (p phi : R) (l : list obs) : R :=
  lsumf (fun o => ow o * tweedie_unit_ll (oy o) (omu o) p phi) l.
Definition binomial_ll (l : list obs) : R :=
  lsumf (fun o => (xlogy (oy o) (omu o) + xlogy (1 - oy o) (1 - omu o)) * ow o) l.
Definition negative_binomial_ll (theta : R) (l : list obs) : R :=
  let r := 1 / theta in
  lsumf (fun o => ow o * (oy o * ln (theta * omu o) - (oy o + r) * ln (1 + theta * omu o)
                          + lgamma (oy o + r) - lgamma r - lgamma (oy o + 1))) l.

(** [None] = NotImplementedError (Tweedie with p > 2, p <> 3) or no log_likelihood method (GHS). *)
Definition log_likelihood (f : family) (phi : R) (l : list obs) : option R :=
  match f with
  | TweedieF p =>
      if Req_EM_T p 0 then Some (normal_ll phi l)
      else if Req_EM_T p 1 then Some (poisson_ll l)
      else if Req_EM_T p 2 then Some (gamma_ll phi l)
      else if Rlt_dec p 2 then Some (tweedie_ll p phi l)
      else if Req_EM_T p 3 then Some (inv_gaussian_ll phi l)
      else None
  | NormalF => Some (normal_ll phi l)
  | PoissonF => Some (poisson_ll l)
  | GammaF => Some (gamma_ll phi l)
  | InvGaussF => Some (inv_gaussian_ll phi l)
  | GHSF => None
  | BinomialF => Some (binomial_ll l)
  | NegBinF theta => Some (negative_binomial_ll theta l)
  end.
End LogLik.

(** dispersion: _distribution.py: 502-538 (base), 759-775, 873-888, 987-1002, 1100-1115,
    1210-1225, 1333-1348, 1481-1497 (Pearson overrides).  [weighted = false] is
    sample_weight=None.  The Pearson overrides divide by exactly the unit variance formula. *)
Inductive disp_method := Pearson | DevianceM.
Definition pearson_residual (f : family) (o : obs) : R :=
  (oy o - omu o) ^ 2 /
  match f with
  | TweedieF p => Rpower (omu o) p
  | NormalF => 1
  | PoissonF => omu o
  | GammaF => omu o ^ 2
  | InvGaussF => omu o ^ 3
  | GHSF => 1 + omu o ^ 2
  | BinomialF => omu o * (1 - omu o)
  | NegBinF theta => omu o + theta * omu o ^ 2
  end.
Definition unit_weights (l : list obs) : list obs := map (fun o => mkobs (oy o) 1 (omu o)) l.
Definition dispersion (f : family) (m : disp_method) (weighted : bool) (ddof : R) (l : list obs) : R :=
  let numerator :=
    match m with
    | Pearson => if weighted then lsumf (fun o => ow o * pearson_residual f o) l
                 else lsumf (pearson_residual f) l
    | DevianceM => if weighted then deviance f l else deviance f (unit_weights l)
    end in
  if weighted then numerator / (lsumf ow l - ddof) else numerator / (INR (length l) - ddof).

(** Information weights (one row): _distribution.py: 410-436, 438-469, 471-500 (score). *)
Definition fisher_W (f : family) (l : link) (y mu w phi : R) : R :=
  inverse_derivative l (link_fn l mu) ^ 2 * one_over_variance f l mu (link_fn l mu) phi w.
Definition observed_W (f : family) (l : link) (y mu w phi : R) : R :=
  let linpred := link_fn l mu in
  (- inverse_derivative2 l linpred * (y - mu)
   + inverse_derivative l linpred ^ 2
     * (1 + (y - mu) * unit_variance_derivative f mu / unit_variance f mu))
  * one_over_variance f l mu linpred phi w.
Definition score_W (f : family) (l : link) (y mu w phi : R) : R :=
  one_over_variance f l mu (link_fn l mu) phi w * inverse_derivative l (link_fn l mu) * (y - mu).

(** np.average(y, weights=w) *)
Definition wavg (yw : list (R * R)) : R :=
  lsumf (fun p => fst p * snd p) yw / lsumf snd yw.

(** power used by guess_intercept for a log link, _distribution.py: 1606-1617. *)
Definition guess_power (f : family) : R :=
  match f with
  | TweedieF p => p | NormalF => 0 | PoissonF => 1 | GammaF => 2 | InvGaussF => 3 | _ => 1
  end.

(** One row for guess_intercept: y, sample weight, offset eta. *)
Record grow := mkgrow { g_y : R; g_w : R; g_eta : R }.
Definition gavg (fn : grow -> R) (l : list grow) : R := lsumf (fun g => fn g * g_w g) l / lsumf g_w l.

Definition all_equal (l : list grow) : bool :=
  match l with [] => false | g :: r => forallb (fun h => Reqb (g_y h) (g_y g)) r end.

(** guess_intercept, _distribution.py: 1556-1635; [None] = ValueError "No variation in y".
    [has_eta = false] is eta=None.  Scalar eta is the same as a constant array.
    (The assertion on log(avg_y) being finite is avg_y > 0, see the theorems' hypotheses.) *)
Definition guess_intercept (f : family) (lk : link) (has_eta : bool) (l : list grow) : option R :=
  if (match lk with IdentityL => false | _ => true end && all_equal l)%bool then None
  else
    let avg_y := gavg g_y l in
    Some
    match lk with
    | IdentityL => if has_eta then avg_y - gavg g_eta l else avg_y
    | LogL =>
        if has_eta then
          let p := guess_power f in
          ln (lsumf (fun g => g_y g * Rpower (exp (g_eta g)) (1 - p) * g_w g) l)
          - ln (lsumf (fun g => Rpower (exp (g_eta g)) (2 - p) * g_w g) l)
        else ln avg_y
    | LogitL =>
        let log_odds := ln avg_y - ln (1 - avg_y) in
        if has_eta then log_odds - gavg g_eta l else log_odds
    | _ => link_fn lk (lsumf (fun g => g_y g * g_w g) l)
    end.

(** score, _glm.py: 1784-1794 (check_weights and predict are modelled elsewhere):
    [1 - deviance(y, mu, w) / deviance(y, np.average(y, weights=w), w)]. *)
Definition y_mean (l : list obs) : R := lsumf (fun o => oy o * ow o) l / lsumf ow l.
Definition with_mu (m : R) (l : list obs) : list obs := map (fun o => mkobs (oy o) (ow o) m) l.
Definition score (f : family) (l : list obs) : R :=
  1 - deviance f l / deviance f (with_mu (y_mean l) l).
