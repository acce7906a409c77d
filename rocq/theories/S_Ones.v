(** Specification side of C100: an explicit column of ones instead of fit_intercept=True. *)
From Coq Require Import List Arith.
From Verif Require Import Base M_Std S_Std.
From Verif Require Import M_Solver S_Solver.
Local Open Scope R_scope.

(** The model without intercept whose last column is constant 1, without penalty and without bounds for that column. *)
Definition with_ones (u : user) : user :=
  let old {A} (f : nat -> A) (x : A) := fun j => if Nat.ltb j (u_p u) then f j else x in
  mkUser (u_n u) (S (u_p u)) (fun i => old (u_X u i) 1) (u_y u) (u_w u) (u_off u) false (u_fam u) (u_link u)
    (old (u_P1 u) 0)
    (match u_P2 u with
     | P2diag d => P2diag (old d 0)
     | P2mat M => P2mat (fun i j => if (Nat.ltb i (u_p u) && Nat.ltb j (u_p u))%bool then M i j else 0)
     end)
    (old (u_lb u) None) (old (u_ub u) None) (u_scale u).
(** intercept and coefficients as the coefficients of that model *)
Definition ones_coef (u : user) (b0 : R) (b : nat -> R) : nat -> R := fun j => if Nat.ltb j (u_p u) then b j else b0.
(** the inequalities, not involving the additional column *)
Definition ones_ineq (u : user) (q : ineq) : ineq :=
  mkIneq (iq_m q) (fun r j => if Nat.ltb j (u_p u) then iq_A q r j else 0) (iq_b q).
