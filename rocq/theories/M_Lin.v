(** Exact-arithmetic model of the dense linear algebra routines glum calls: scipy.linalg.solve and
    scipy.linalg.inv (external, LAPACK gesv/getri).  Gaussian elimination with row exchanges; in exact
    arithmetic the result does not depend on the choice of the pivot, [None] is LinAlgError (singular). *)
From Verif Require Export Base.
Local Open Scope R_scope.

Definition mat := nat -> nat -> R.
Definition vect := nat -> R.

(** a row among 0..n with a non-zero entry in column [c] *)
Fixpoint find_pivot (A : mat) (c n : nat) : option nat :=
  if Reqb (A n c) 0 then match n with O => None | S m => find_pivot A c m end else Some n.
Definition swap_row (p n i : nat) : nat := if Nat.eqb i n then p else if Nat.eqb i p then n else i.

(** solve(A, b) for an n x n matrix *)
Fixpoint gsolve (n : nat) (A : mat) (b : vect) : option vect :=
  match n with
  | O => Some (fun _ => 0)
  | S m =>
      match find_pivot A m m with
      | None => None
      | Some p =>
          let A1 i j := A (swap_row p m i) j in
          let b1 i := b (swap_row p m i) in
          let f i := A1 i m / A1 m m in
          match gsolve m (fun i j => A1 i j - f i * A1 m j) (fun i => b1 i - f i * b1 m) with
          | None => None
          | Some x => Some (fun j => if Nat.eqb j m then (b1 m - rsum m (fun j => A1 m j * x j)) / A1 m m else x j)
          end
      end
  end.

(** solve(A, B) with a matrix right-hand side, column by column; inv(A) = solve(A, identity) *)
Definition unit_vec (k : nat) : vect := fun i => if Nat.eqb i k then 1 else 0.
Definition gsolve_mat (n : nat) (A B : mat) : option mat :=
  match gsolve n A (fun _ => 0) with
  | None => None
  | Some _ => Some (fun i k => match gsolve n A (fun l => B l k) with Some x => x i | None => 0 end)
  end.
Definition ginv (n : nat) (A : mat) : option mat := gsolve_mat n A (fun i k => unit_vec k i).
Definition transpose (A : mat) : mat := fun i j => A j i.
