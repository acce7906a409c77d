(** Model of the estimator object as a state machine: which attributes fit, the information criteria,
    covariance_matrix and predict read and write, in the order in which the code does so, with the points
    at which a call may raise.  src/glum/_glm.py 209-223, 309-430, 935-994, 1448-1733, 1959-2165,
    2663-3140.  Numerical results are those of the functions modelled elsewhere and are parameters of the
    calls here. *)
From Verif Require Export Base M_Link M_Dist.
From Coq Require Import String List.
Import ListNotations.
Local Open Scope R_scope.

(** design matrices and data frames (a row of a frame maps a column name to its value or category code) *)
Definition design := list (list R).
Definition frame := list (string -> R).
Inductive xdata := XArray (d : design) | XFrame (f : frame).
(** frame -> design, or an exception *)
Definition conv := frame -> option design.
Definition vcov := nat -> nat -> R.

Record criteria := mkCrit { cr_aic : R; cr_aicc : option R; cr_bic : R }.

(** the attributes: X_model_spec_, _categorical_levels_ (with has_missing_category_) as the conversion
    they induce, feature_names_, (_family_instance, _link_instance), _num_obs, (intercept_, coef_),
    covariance_matrix_, _info_criteria; [None] = attribute absent (or None, for covariance_matrix_) *)
Record est := mkEst {
  a_xspec : option conv; a_plain : option conv; a_names : option (list string);
  a_famlink : option (family * link); a_nobs : option nat; a_coef : option (R * list R);
  a_cov : option vcov; a_info : option criteria }.
(** a new estimator, 100-172 *)
Definition new_est : est := mkEst None None None None None None None None.

Definition set_xspec (c : conv) (e : est) := mkEst (Some c) (a_plain e) (a_names e) (a_famlink e) (a_nobs e) (a_coef e) (a_cov e) (a_info e).
Definition set_plain (c : conv) (e : est) := mkEst (a_xspec e) (Some c) (a_names e) (a_famlink e) (a_nobs e) (a_coef e) (a_cov e) (a_info e).
Definition set_names (l : list string) (e : est) := mkEst (a_xspec e) (a_plain e) (Some l) (a_famlink e) (a_nobs e) (a_coef e) (a_cov e) (a_info e).
Definition set_famlink (fl : family * link) (n : nat) (e : est) := mkEst (a_xspec e) (a_plain e) (a_names e) (Some fl) (Some n) (a_coef e) (a_cov e) (a_info e).
Definition set_coef (b : R * list R) (e : est) := mkEst (a_xspec e) (a_plain e) (a_names e) (a_famlink e) (a_nobs e) (Some b) (a_cov e) (a_info e).
Definition set_cov (V : option vcov) (e : est) := mkEst (a_xspec e) (a_plain e) (a_names e) (a_famlink e) (a_nobs e) (a_coef e) V (a_info e).
Definition set_info (c : criteria) (e : est) := mkEst (a_xspec e) (a_plain e) (a_names e) (a_famlink e) (a_nobs e) (a_coef e) (a_cov e) (Some c).

(** what X is in a call of fit: a frame with a formula, a frame without, an array; with the conversion
    that the formula's model spec resp. the categorical levels of the frame induce *)
Inductive fit_kind := KFormula (c : conv) | KFrame (c : conv) | KArray.
(** One call of fit: data, current hyper-parameters, and the outcome of its steps.
    [f_valid]: _validate_hyperparameters passes; [f_spec_ok]: the formula can be materialised and agrees with
    fit_intercept; [f_args_ok]: the checks of X, y, weights, offset pass; [f_fl]: get_family/get_link succeed;
    [f_y_ok]: y in range; [f_mid_ok]: the checks between _set_up_for_fit and _get_start_coef pass;
    [f_warm]: warm_start; [f_clip]: fit_intercept=False, warm_start=True and bounds are given: the bounds that
    the alias of coef_ is clipped to in place; [f_solve]: solver and unstandardize, as a function of the
    warm-start coefficients, [None] if something raises; [f_store]: store_covariance_matrix, the covariance as
    a function of family, link and coefficients. *)
Record fit_call := mkFit {
  f_valid : bool; f_kind : fit_kind; f_spec_ok : bool; f_names : list string; f_args_ok : bool; f_n : nat;
  f_fl : option (family * link); f_y_ok : bool; f_mid_ok : bool; f_warm : bool;
  f_clip : option (R -> R); f_solve : option (R * list R) -> option (R * list R);
  f_store : option (family * link -> R * list R -> option vcov) }.

(** writes are sequential; a step that raises leaves the attributes written so far.  The boolean says
    whether the call returned. *)
(** _set_up_and_check_fit_args, 1959-2165 *)
Definition fit_args (c : fit_call) (e : est) : est * bool :=
  match f_kind c with
  | KFormula cv =>
      if f_spec_ok c then
        let e1 := set_names (f_names c) (set_xspec cv e) in
        if f_args_ok c then (set_names (f_names c) e1, true) else (e1, false)
      else (e, false)
  | KFrame cv =>
      let e1 := set_plain cv e in
      if f_args_ok c then (set_names (f_names c) e1, true) else (e1, false)
  | KArray => if f_args_ok c then (set_names (f_names c) e, true) else (e, false)
  end.
(** _get_start_coef 242-250, 290-309: without an intercept the start vector IS coef_ (no copy), so clipping
    it to the bounds changes coef_ *)
Definition fit_start (c : fit_call) (e : est) : est :=
  if f_warm c then
    match f_clip c, a_coef e with
    | Some g, Some (b0, b) => set_coef (b0, map g b) e
    | _, _ => e
    end
  else e.
(** fit, 2731-2935 *)
Definition fit (c : fit_call) (e : est) : est * bool :=
  if negb (f_valid c) then (e, false)
  else match fit_args c e with
  | (e1, false) => (e1, false)
  | (e1, true) =>
  match f_fl c with
  | None => (e1, false)
  | Some fl =>
    let e2 := set_famlink fl (f_n c) e1 in
    if negb (f_y_ok c && f_mid_ok c)%bool then (e2, false)
    else
      let e3 := fit_start c e2 in
      match f_solve c (if f_warm c then a_coef e3 else None) with
      | None => (e3, false)
      | Some b =>
          let e4 := set_cov None (set_coef b e3) in
          match f_store c with
          | None => (e4, true)
          | Some cv => match cv fl b with
                       | None => (e4, false)
                       | Some V => (set_cov (Some V) e4, true)
                       end
          end
      end
  end end.

(** _convert_from_df, 317-362: the model spec if there is one, else the stored categorical levels, else
    tabmat's from_df ([from_df], external) *)
Definition convert (from_df : conv) (e : est) (x : xdata) : option design :=
  match x with
  | XArray d => Some d
  | XFrame f => match a_xspec e with
                | Some c => c f
                | None => match a_plain e with Some c => c f | None => from_df f end
                end
  end.
(** predict without offset, weights and alpha, 935-994; rows of the wrong width raise *)
Definition predict_est (from_df : conv) (e : est) (x : xdata) : option (list R) :=
  match a_coef e, a_famlink e, convert from_df e x with
  | Some (b0, b), Some (_, lk), Some d =>
      if forallb (fun row => Nat.eqb (length row) (length b)) d
      then Some (map (fun row => inverse1 lk (b0 + lsumf (fun xb => fst xb * snd xb) (combine row b))) d)
      else None
  | _, _, _ => None
  end.

Section Crit.
Variable lgamma : R -> R.
Variable tw_norm : R -> R -> R -> R.
Variable from_df : conv.
(** np.finfo(float64).eps *)
Definition feps : R := / 2 ^ 52.
(** data of a query; [q_w = None] is sample_weight=None *)
Record query := mkQ { q_x : xdata; q_y : list R; q_w : option (list R) }.
Definition query_obs (y mu : list R) (w : option (list R)) : list obs :=
  map (fun ymw => mkobs (fst (fst ymw)) (snd ymw) (snd (fst ymw)))
      (combine (combine y mu) (match w with Some l => l | None => repeat 1 (length y) end)).
(** _compute_information_criteria, 2937-2994.  [ic] = fit_intercept; log_likelihood without dispersion
    estimates it by Pearson with ddof = 1 (_distribution.py 739-740, 868-869, ...) *)
Definition compute_criteria (ic : bool) (e : est) (q : query) : option criteria :=
  match a_famlink e, a_coef e, a_nobs e with
  | Some (f, lk), Some (b0, b), Some n0 =>
      let k := (length (filter (fun v => Rltb feps (Rabs v)) b) + (if ic then 1 else 0))%nat in
      match convert from_df e (q_x q) with
      | None => None
      | Some d =>
          let n := length d in
          if negb (Nat.eqb n n0) then None
          else match predict_est from_df e (XArray d) with
          | None => None
          | Some mu =>
              if negb (Nat.eqb (length (q_y q)) n && match q_w q with Some l => Nat.eqb (length l) n | None => true end)%bool then None
              else
                let l := query_obs (q_y q) mu (q_w q) in
                match log_likelihood lgamma tw_norm f (dispersion f Pearson true 1 l) l with
                | None => None
                | Some ll =>
                    let aic := -2 * ll + 2 * INR k in
                    Some (mkCrit aic
                      (if Nat.ltb (k + 1) n then Some (aic + 2 * INR k * (INR k + 1) / (INR n - INR k - 1)) else None)
                      (-2 * ll + ln (INR n) * INR k))
                end
          end
      end
  | _, _, _ => None
  end.
Inductive which := AIC | AICc | BIC.
(** _get_info_criteria 3116-3140 and aic/aicc/bic 2996-3114: computed only if the attribute is absent; aicc
    raises if the value is falsy (None or 0) *)
Definition criterion (ic : bool) (w : which) (q : query) (e : est) : est * option R :=
  match a_coef e with
  | None => (e, None)
  | Some _ =>
      let '(e', oc) := match a_info e with
                       | Some c => (e, Some c)
                       | None => match compute_criteria ic e q with
                                 | Some c => (set_info c e, Some c)
                                 | None => (e, None)
                                 end
                       end in
      match oc with
      | None => (e', None)
      | Some c => (e', match w with
                       | AIC => Some (cr_aic c)
                       | BIC => Some (cr_bic c)
                       | AICc => match cr_aicc c with Some v => if Reqb v 0 then None else Some v | None => None end
                       end)
      end
  end.

(** covariance_matrix(X, y, ..., store_covariance_matrix) 1583-1733, as a function of the current
    coefficients, family and link; and without arguments 1588-1592, 1606-1621: the stored one, or an exception *)
Definition covariance (store : bool) (cv : family * link -> R * list R -> option vcov) (e : est) : est * option vcov :=
  match a_famlink e, a_coef e with
  | Some fl, Some b => match cv fl b with
                       | Some V => (if store then set_cov (Some V) e else e, Some V)
                       | None => (e, None)
                       end
  | _, _ => (e, None)
  end.

(** a history of calls on one estimator *)
Inductive op :=
| OFit (c : fit_call)
| OCrit (ic : bool) (w : which) (q : query)
| OCov (store : bool) (cv : family * link -> R * list R -> option vcov)
| OPred (x : xdata).
Definition step (e : est) (o : op) : est :=
  match o with
  | OFit c => fst (fit c e)
  | OCrit ic w q => fst (criterion ic w q e)
  | OCov s cv => fst (covariance s cv e)
  | OPred _ => e
  end.
Definition run (h : list op) : est := fold_left step h new_est.
End Crit.
