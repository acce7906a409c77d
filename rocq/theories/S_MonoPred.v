(** Specification side of C85: the prediction as a function of the factors of a formula. *)
From Coq Require Import String Ascii Reals List Sorting.Sorted. Import ListNotations.
From Verif Require Import Base M_Formula S_Formula.
Local Open Scope R_scope.

(** A data point as formulaic presents it: the value of every column of every factor - the indicator of a level,
    a basis function, or the number itself (index None). *)
Definition point : Type := string -> option string -> R.
(** a column is the product of its factors *)
Definition col_value (z : point) (c : list factor) : R := fold_right (fun x v => z (fst x) (snd x) * v) 1 c.
(** the linear predictor *)
Definition predictor (cols : list (list factor)) (b0 : R) (w : nat -> R) (z : point) : R :=
  b0 + rsum (List.length cols) (fun j => w j * col_value z (nth j cols [])).
(** only factor f differs *)
Definition same_but (f : string) (z z' : point) : Prop := forall g x, g <> f -> z g x = z' g x.

(** The columns that contain factor f: one entry (others, members) for every combination of the other factors, the
    members (column, level) in the order of the levels. *)
Definition grouping (pf : string -> option fl) (cols : list (list factor)) (f : string) (G : list (list factor * list member)) : Prop :=
  NoDup (map fst G) /\
  (forall o l, In (o, l) G -> l <> [] /\ StronglySorted (fun a b => before pf (fst a) (snd a) (fst b) (snd b)) l /\
     forall i x, In (i, x) l <-> in_group cols f o i x) /\
  (forall o i x, in_group cols f o i x -> In o (map fst G)).

(** total of the values of f in the columns from position k on *)
Definition tail_from (f : string) (z : point) (l : list member) (k : nat) : R := lsumf (fun m => z f (snd m)) (skipn k l).
(** from z to z' the values of f move to later columns *)
Definition moves_up (f : string) (z z' : point) (l : list member) : Prop := forall k, tail_from f z l k <= tail_from f z' l k.
(** the total of the values stays the same, or there is only one column, or the first coefficient has the sign of
    the direction *)
Definition anchored (t : R) (d : direction) (w : nat -> R) (f : string) (z z' : point) (l : list member) : Prop :=
  tail_from f z l 0 = tail_from f z' l 0 \/ List.length l = 1%nat \/ exists i x r, l = (i, x) :: r /\ dir_le_slack t d 0 (w i).
(** by how much *)
Definition mass_shift (f : string) (z z' : point) (l : list member) : R :=
  rsum (List.length l) (fun k => tail_from f z' l k - tail_from f z l k).
Definition total_shift (f : string) (z z' : point) (G : list (list factor * list member)) : R :=
  lsumf (fun g => col_value z (fst g) * mass_shift f z z' (snd g)) G.

(** z is at level a of the categorical factor f, coded by indicators *)
Definition at_level (f : string) (a : string) (z : point) : Prop :=
  z f (Some a) = 1 /\ forall x, x <> Some a -> z f x = 0.
(** no level was dropped: a has exactly one column in every group *)
Definition coded (a : string) (G : list (list factor * list member)) : Prop :=
  forall o l, In (o, l) G -> exists i, In (i, Some a) l /\ forall j, In (j, Some a) l -> j = i.

(** B-splines: Cox - de Boor with knots t; s is the knot interval of x.  0 / 0 counts as 0. *)
Definition ratio (t : nat -> R) (d i : nat) (x : R) : R :=
  if Reqb (t (i + d)%nat) (t i) then 0 else (x - t i) / (t (i + d)%nat - t i).
Fixpoint bspline (t : nat -> R) (s d i : nat) (x : R) : R :=
  match d with
  | O => if Nat.eqb i s then 1 else 0
  | S d' => ratio t d i x * bspline t s d' i x + (1 - ratio t d (S i) x) * bspline t s d' (S i) x
  end.
Definition knots (t : nat -> R) : Prop := forall i j, (i <= j)%nat -> t i <= t j.
Definition in_interval (t : nat -> R) (s : nat) (x : R) : Prop := t s <= x <= t (S s) /\ t s < t (S s).

(** the values of factor f at x are those of a spline basis; the columns of every group are the functions number
    first, ..., m - 1 of the basis, in this order *)
Definition spline_at (f : string) (lab : nat -> string) (t : nat -> R) (s d m : nat) (x : R) (z : point) : Prop :=
  forall i, (i < m)%nat -> z f (Some (lab i)) = bspline t s d i x.
Definition spline_coded (lab : nat -> string) (first m : nat) (G : list (list factor * list member)) : Prop :=
  forall o l, In (o, l) G -> map snd l = map (fun i => Some (lab i)) (seq first (m - first)).
(** f occurs at most once in every column *)
Definition once (f : string) (cols : list (list factor)) : Prop :=
  forall c, In c cols -> (forall x, In x c -> fst x <> f) \/ exists o x, has_factor f c o x.
