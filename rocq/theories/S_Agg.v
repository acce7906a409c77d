(** Specification side of C91: rows with the same features and the same offset, written as one row. *)
From Coq Require Import List. Import ListNotations.
From Verif Require Import Base M_Link M_Dist M_Std.
From Verif Require Import M_Solver.
Local Open Scope R_scope.

(** rows that differ only in the response and the weight, of positive total weight *)
Definition cell (g : list row) : Prop :=
  (forall r, In r g -> 0 <= r_w r) /\ 0 < lsumf r_w g /\
  forall r r', In r g -> In r' g -> (forall j, r_x r j = r_x r' j) /\ r_off r = r_off r'.
(** one row with the total weight and the weighted mean of the responses *)
Definition merged (g : list row) : row :=
  mkRow (r_x (hd row0 g)) (lsumf (fun r => r_w r * r_y r) g / lsumf r_w g) (lsumf r_w g) (r_off (hd row0 g)).
(** distributions and links whose line-search kernel reports a value that is linear in the response (up to p = 2) *)
Definition linear_pair (f : family) (lk : link) : Prop :=
  match f, lk with
  | PoissonF, LogL | GammaF, LogL | BinomialF, LogitL | NegBinF _, LogL => True
  | TweedieF p, LogL => 1 <= p <= 2
  | _, _ => False
  end.
(** observations with predicted means *)
Definition obs_of (m : (nat -> R) -> R -> R) (rows : list row) : list obs :=
  map (fun r => mkobs (r_y r) (r_w r) (m (r_x r) (r_off r))) rows.
(** spread of the responses inside a cell *)
Definition within_ss (g : list row) : R := lsumf (fun r => r_w r * (r_y r - r_y (merged g)) ^ 2) g.
