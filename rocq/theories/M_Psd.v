(** Model of the test of the L2 penalty for positive semi-definiteness.
    src/glum/_linalg.py 11-50, src/glum/_glm.py 2785-2797 (same text: src/glum/_glm_cv.py 736-746). *)
From Verif Require Export M_Std.
Import ListNotations.
Local Open Scope R_scope.

(** _linalg.py 25-27: -epsneg, where epsneg = -10 * finfo(float64).epsneg and finfo.epsneg = 2^-53 *)
Definition psd_tolerance : R := 10 / 2 ^ 53.

(** _linalg.py 11-50, [is_pos_semidef]; [None] = raises.  [eigvalsh] is scipy.linalg.eigvalsh (external)
    on the leading p x p block.  21-23: 1-d arrays and arrays with one row are tested entry by entry.
    29-45: a sparse matrix with at least 2000 rows goes to [linalg.eigsh], a name scipy.linalg does not
    have: AttributeError. *)
Definition is_pos_semidef (eigvalsh : nat -> (nat -> nat -> R) -> list R) (sparse : bool) (p : nat) (P2 : P2t) : option bool :=
  match P2 with
  | P2diag v => Some (negb (existsb (fun j => Rltb (v j) 0) (seq 0 p)))
  | P2mat M =>
      if Nat.eqb p 1 then Some (negb (Rltb (M O O) 0))
      else if (sparse && negb (Nat.ltb p 2000))%bool then None
      else Some (forallb (fun e => Rleb (- psd_tolerance) e) (eigvalsh p M))
  end.

(** fit, _glm.py 2763 and 2785-2797: set-up of P2 (without alpha) followed by the test, which is skipped
    with check_input=False and for the string 'identity' (P2=None, also [P2Identity] here, is tested:
    a vector of ones times 1 - l1_ratio); [None] = raises *)
Definition accept_p2 (eigvalsh : nat -> (nat -> nat -> R) -> list R) (check_input sparse : bool) (a : p2_arg) (p : nat) (l1_ratio : R) : option P2t :=
  match setup_p2 a p 1 l1_ratio with
  | None => None
  | Some P2 =>
      if check_input then match is_pos_semidef eigvalsh sparse p P2 with Some true => Some P2 | _ => None end
      else Some P2
  end.
