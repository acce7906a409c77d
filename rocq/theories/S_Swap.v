(** Specification side of C88: a binary model with the two outcomes exchanged. *)
From Coq Require Import List. Import ListNotations.
From Verif Require Import Base M_Std M_Valid M_Fit.
From Verif Require Import M_Solver.
Local Open Scope R_scope.

Definition negv (v : nat -> R) : nat -> R := fun k => - v k.
(** 1 - v on the entries 0 .. n-1 (the model's vectors are functions; entries from n on carry no meaning) *)
Definition compl (n : nat) (v : nat -> R) : nat -> R := fun i => if Nat.ltb i n then 1 - v i else v i.
Definition neg_bounds (b : bounds) : bounds := fun j => option_map Ropp (b j).

(** y becomes 1 - y, the offset changes its sign, an interval [l, u] for a coefficient becomes [-u, -l]. *)
Definition swapped (u : user) : user :=
  mkUser (u_n u) (u_p u) (u_X u) (compl (u_n u) (u_y u)) (u_w u) (negv (u_off u)) (u_ic u) (u_fam u) (u_link u)
         (u_P1 u) (u_P2 u) (neg_bounds (u_ub u)) (neg_bounds (u_lb u)) (u_scale u).
Definition swapped_row (r : row) : row := mkRow (r_x r) (1 - r_y r) (r_w r) (- r_off r).
(** A coef <= b for the coefficients with their sign changed *)
Definition swapped_ineq (q : ineq) : ineq := mkIneq (iq_m q) (fun r j => - iq_A q r j) (iq_b q).
Definition swapped_start (a : start_arg) : start_arg :=
  match a with
  | StartWarm c0 c => StartWarm (- c0) (negv c)
  | StartNone => StartNone
  | StartParams v => StartParams (negv v)
  end.
Definition ordered_bounds (u : user) : Prop :=
  forall j l h, u_lb u j = Some l -> u_ub u j = Some h -> l <= h.

(** The external routines treat a problem and its mirror image alike: solving for minus the right-hand side gives
    minus the solution, minimising the mirrored function from the mirrored start gives the mirrored end. *)
Definition mirrored (f f' : (nat -> R) -> R * (nat -> R)) : Prop :=
  forall x, f' (negv x) = (fst (f x), negv (snd (f x))).
Definition libs_odd (l : libs) : Prop :=
  (forall n A b, lib_pos l n A (negv b) = option_map negv (lib_pos l n A b)) /\
  (forall n f f' x0 tol it, mirrored f f' ->
     let r := lib_lbfgs l n f x0 tol it in lib_lbfgs l n f' (negv x0) tol it = mkLb (negv (lb_x r)) (lb_why r)) /\
  (forall n f f' x0 q tol it, mirrored f f' ->
     let r := lib_trust l n f x0 q tol it in
     lib_trust l n f' (negv x0) (option_map swapped_ineq q) tol it = mkTr (negv (tr_x r)) (tr_why r)).
