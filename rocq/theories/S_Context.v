(** Specification side of C94: the documented meaning of the [context] argument. *)
From Coq Require Import List ZArith.
From Verif Require Import M_Context.

(** "If an integer, the context is taken from the stack frame of the caller at the given depth": the user's stack is the
    list of frames that were there before the method was called, the caller first. *)
Definition documented {name val} (user : list (frame name val)) (c : ctx name val) : option (option (scope name val)) :=
  match c with
  | CNone => Some None
  | CMap m => Some (Some m)
  | CInt k => match nth_error user (Z.to_nat k) with Some f => Some (Some (frame_scope f)) | None => None end
  end.
(** every formula of the given side that was evaluated got context c *)
Definition evaluated_in {name val} (s : side) (t : trace name val) (c : option (scope name val)) : Prop :=
  (exists c', In (s, c') t) /\ forall c', In (s, c') t -> c' = c.
(** methods that resolve the context where it is passed in *)
Definition direct (m : meth) : Prop := match m with MLinPred | MScore | MInfo => False | _ => True end.
(** how many of glum's own frames an integer context counts before it reaches the caller *)
Definition slip (m : meth) (e : est) : nat :=
  match m with
  | MLinPred => if e_cv e then (if e_path e then 1 else 2) else 1
  | MScore => 1 | MInfo => 1 | _ => 0
  end%nat.
