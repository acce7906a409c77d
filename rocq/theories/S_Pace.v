(** Specification side of C114: how many iterations the Newton iterations of irls-ls can take. *)
From Verif Require Import Base S_Link S_Dist S_CD.
From Verif Require Import M_Solver S_Solver.
Local Open Scope R_scope.

(** No L1 penalty and no bounds: what irls-ls is for. *)
Definition smooth_problem (pb : problem) : Prop :=
  (forall j, (j < pb_p pb)%nat -> pb_P1 pb j = 0) /\ (forall j, pb_lb pb j = None) /\ (forall j, pb_ub pb j = None).
(** The Hessian of iteration k is at most M times the identity. *)
Definition hessian_below (pb : problem) (P2 : P2t) (M : R) (c : nat -> R) : Prop :=
  forall v : nat -> R, rsum (nc pb) (fun k => rsum (nc pb) (fun l => v k * exact_hessian pb (hrow_of pb c) P2 k l * v l))
    <= M * rsum (nc pb) (fun k => v k ^ 2).
(** An iteration whose change of the objective is within the line search's machine-precision tolerance. *)
Definition tiny (pb : problem) (s s' : state) : Prop := Rabs (st_obj s' - st_obj s) <= Rabs (st_obj s * pb_eps pb).
(** An iteration in which the line search warned. *)
Definition ls_failed (s s' : state) : Prop := (st_lswarn s < st_lswarn s')%nat.
(** squared gradient norm *)
Definition grad_sq (pb : problem) (P2 : P2t) (c : nat -> R) : R := rsum (nc pb) (fun k => score_of pb P2 c k ^ 2).
(** the Armijo constant times the shortest step of 20 halvings *)
Definition armijo_scale : R := 10000 * 2 ^ 19.

(** ** logistic regression *)
(** the estimated probability of the trial mean at c, row i: the usual 1 / (1 + exp (-eta)) *)
Definition probability (pb : problem) (c : nat -> R) (i : nat) : R := / (1 + exp (- eta_of pb c i)).
(** every row of positive weight has a variance p (1 - p) of at least 2.5e-7 *)
Definition undecided (pb : problem) (c : nat -> R) : Prop := forall i, (i < pb_n pb)%nat -> 0 < pb_w pb i ->
  / 4000000 <= probability pb c i * (1 - probability pb c i).
(** the L2 penalty is at most lambda times the squared norm *)
Definition l2_below (pb : problem) (P2 : P2t) (lambda : R) : Prop := forall v : nat -> R, l2_form pb P2 v <= lambda * rsum (nc pb) (fun k => v k ^ 2).
(** a quarter of the weighted sum of squares of the design *)
Definition design_size (pb : problem) : R := / 4 * rsum (pb_n pb) (fun i => pb_w pb i * rsum (nc pb) (fun k => xt pb i k ^ 2)).
