(** Specification vocabulary for histories of calls on an estimator. *)
From Verif Require Export M_Est.
From Coq Require Import String List.
Import ListNotations.
Local Open Scope R_scope.

(** number of parameters: coefficients that are not zero to machine precision, plus the intercept *)
Inductive n_nonzero : list R -> nat -> Prop :=
| nz_nil : n_nonzero [] 0
| nz_zero v l k : Rabs v <= / 2 ^ 52 -> n_nonzero l k -> n_nonzero (v :: l) k
| nz_nonzero v l k : / 2 ^ 52 < Rabs v -> n_nonzero l k -> n_nonzero (v :: l) (S k).
(** predicted mean of a row for intercept b0 and coefficients b *)
Definition row_mean (lk : link) (b0 : R) (b : list R) (row : list R) : R :=
  inverse1 lk (b0 + rsum (length b) (fun j => nth j row 0 * nth j b 0)).

(** calls that are fits; calls of information criteria *)
Definition is_fit (o : op) : Prop := exists c, o = OFit c.
Definition is_crit (o : op) : Prop := exists ic w q, o = OCrit ic w q.
(** no warm start clips coef_ in place *)
Definition clips (o : op) : Prop := exists c g, o = OFit c /\ f_warm c = true /\ f_clip c = Some g.
Definition uses_formula (o : op) : Prop := exists c cv, o = OFit c /\ f_kind c = KFormula cv.
(** the covariance computations requested in a call *)
Definition cov_request (o : op) (cv : family * link -> R * list R -> option vcov) : Prop :=
  match o with OFit c => f_store c = Some cv | OCov _ cv' => cv' = cv | _ => False end.
