(** Specification side of C90: a constant added to the offset. *)
From Coq Require Import List.
From Verif Require Import Base M_Dist M_Std M_Fit.
From Verif Require Import M_Solver.
Local Open Scope R_scope.

Definition shifted (t : R) (u : user) : user :=
  mkUser (u_n u) (u_p u) (u_X u) (u_y u) (u_w u) (fun i => u_off u i + t) (u_ic u) (u_fam u) (u_link u)
         (u_P1 u) (u_P2 u) (u_lb u) (u_ub u) (u_scale u).
(** a vector whose first entry (the intercept) is lowered by t *)
Definition lower0 (t : R) (v : nat -> R) : nat -> R := fun k => match k with O => v 0%nat - t | S _ => v k end.
Definition shifted_start (t : R) (a : start_arg) : start_arg :=
  match a with
  | StartWarm c0 c => StartWarm (c0 - t) c
  | StartNone => StartNone
  | StartParams v => StartParams (lower0 t v)
  end.
(** the rows the intercept guess is computed from *)
Definition guess_rows (u : user) : list grow := map (fun i => mkgrow (u_y u i) (u_w u i) (u_off u i)) (seq 0 (u_n u)).
