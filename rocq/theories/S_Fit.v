(** Specification side of C62-C64: score equations, agreement of fits, the trade-off along alphas. *)
From Verif Require Import Base M_Std S_Std.
From Verif Require Import M_Solver S_Solver.
Local Open Scope R_scope.

(** The mean a linear predictor stands for. *)
Definition mean_at (lk : link) (eta : R) : R :=
  match lk with IdentityL => eta | LogL => exp eta | _ => / (1 + exp (- eta)) end.
(** Row residual in the likelihood equations: y - mu for the canonical pairs; for the log link and the
    Tweedie power p (2 for Gamma) it is weighted by mu^(1-p), for the negative binomial by 1/(1+theta mu). *)
Definition residual (f : family) (lk : link) (y eta : R) : R :=
  match f, lk with
  | GammaF, LogL => (y - exp eta) * exp (- eta)
  | TweedieF p, LogL => (y - exp eta) * exp ((1 - p) * eta)
  | NegBinF theta, LogL => (y - exp eta) / (1 + theta * exp eta)
  | _, _ => y - mean_at lk eta
  end.
(** Pairs with unweighted residuals. *)
Definition balanced_pair (f : family) (lk : link) : Prop :=
  match f, lk with
  | NormalF, IdentityL | PoissonF, LogL | BinomialF, LogitL => True
  | TweedieF p, IdentityL => p = 0
  | TweedieF p, LogL => p = 1
  | _, _ => False
  end.
(** A coefficient without any penalty and without bounds. *)
Definition free_column (u : user) (j : nat) : Prop :=
  u_P1 u j = 0 /\ (forall l, (l < u_p u)%nat -> p2_entry (u_P2 u) l j = 0) /\ u_lb u j = None /\ u_ub u j = None.

(** linear predictor of a row *)
Definition row_eta (p : nat) (b0 : R) (b : nat -> R) (r : row) : R :=
  b0 + rsum p (fun j => r_x r j * b j) + r_off r.

(** The L2 form of the user's penalty at a difference of coefficients; [k] as in [user_obj]. *)
Definition user_l2 (u : user) (k d : nat -> R) : R :=
  rsum (u_p u) (fun i => rsum (u_p u) (fun j => (k i * d i) * p2_entry (u_P2 u) i j * (k j * d j))).

(** Half the weighted training deviance, and the penalty per unit of alpha. *)
Definition user_half_dev (u : user) (b0 : R) (b : nat -> R) : R :=
  / 2 * deviance (u_fam u) (map (fun i => mkobs (u_y u i) (u_w u i) (search_mean (u_fam u) (u_link u) (user_eta u b0 b i))) (seq 0 (u_n u))).
Definition user_pen (u : user) (k b : nat -> R) : R :=
  / 2 * user_l2 u k b + rsum (u_p u) (fun j => u_P1 u j * Rabs (k j * b j)).
(** The same data with the penalties multiplied by alpha. *)
Definition at_alpha (u : user) (alpha : R) : user :=
  mkUser (u_n u) (u_p u) (u_X u) (u_y u) (u_w u) (u_off u) (u_ic u) (u_fam u) (u_link u)
    (fun j => alpha * u_P1 u j)
    (match u_P2 u with P2diag v => P2diag (fun j => alpha * v j) | P2mat M => P2mat (fun i j => alpha * M i j) end)
    (u_lb u) (u_ub u) (u_scale u).

(** Distance between two fits, in standardized units. *)
Definition std_close (u : user) (D b0 : R) (b : nat -> R) (b0' : R) (b' : nat -> R) : Prop :=
  (u_ic u = true -> Rabs (b0' - b0 + rsum (u_p u) (fun j => u_means u j * (b' j - b j))) <= D) /\
  forall j, (j < u_p u)%nat -> col_scale u j * Rabs (b' j - b j) <= D.

(** A change of units: column j < p becomes c_j x + t_j, its bounds are divided by c_j. *)
Definition in_units (u : user) (c t : nat -> R) : user :=
  mkUser (u_n u) (u_p u) (fun i j => if Nat.ltb j (u_p u) then c j * u_X u i j + t j else u_X u i j)
    (u_y u) (u_w u) (u_off u) (u_ic u) (u_fam u) (u_link u) (u_P1 u) (u_P2 u)
    (fun j => match u_lb u j with Some x => Some (if Nat.ltb j (u_p u) then x / c j else x) | None => None end)
    (fun j => match u_ub u j with Some x => Some (if Nat.ltb j (u_p u) then x / c j else x) | None => None end)
    (u_scale u).

(** the weight of a row in the distance between two sets of predictions *)
Definition pred_weight (f : family) (y mu : R) : R :=
  match f with
  | GammaF => y / mu
  | TweedieF p => if Req_EM_T p 0 then 1 else if Req_EM_T p 1 then 1 else if Req_EM_T p 2 then y / mu else Rmin 1 (y / mu)
  | NegBinF th => (1 + th * y) / (1 + th * mu)
  | _ => 1
  end.
(** Distance between two sets of predictions on n rows, given by their linear predictors: the deviance of the
    second one with the first one in place of the responses. *)
Definition pred_gap (f : family) (lk : link) (n : nat) (y w eta eta' : nat -> R) : R :=
  let l := map (fun i => let mu := mean_at lk (eta i) in mkobs mu (w i * pred_weight f (y i) mu) (mean_at lk (eta' i))) (seq 0 n) in
  deviance f l - deviance f (saturate l).
(** the same at two coefficient vectors on the training rows *)
Definition pred_dev (u : user) (b0 : R) (b : nat -> R) (b0' : R) (b' : nat -> R) : R :=
  pred_gap (u_fam u) (u_link u) (u_n u) (u_y u) (u_w u) (user_eta u b0 b) (user_eta u b0' b').
