(** Model of what the methods of a distribution do with the shapes of their arguments: src/glum/_distribution.py 1527-1553
    [_as_float_arrays], numpy's broadcasting, and the callers (deviance, dispersion).  Values are real numbers. *)
From Coq Require Import List Arith. Import ListNotations.
From Verif Require Import Base M_Dist.
Local Open Scope R_scope.

(** A numpy array: its shape with the LAST axis first, and its entry at an index (also last axis first). *)
Record arr := mkArr { a_shape : list nat; a_at : list nat -> R }.
(** an argument: a Python number (int, float, numpy float64) or an array; None is [None : option num] *)
Inductive num := Num (x : R) | Arr (a : arr).
(** all indices of a shape, in C order *)
Fixpoint indices (s : list nat) : list (list nat) :=
  match s with
  | nil => (nil :: nil)
  | d :: s => flat_map (fun i => map (fun k => k :: i) (seq 0 d)) (indices s)
  end.
Definition entries (a : arr) : list R := map (a_at a) (indices (a_shape a)).

(** numpy's rule for two shapes (None: "shape mismatch: objects cannot be broadcast to a single shape") *)
Fixpoint bshape (s t : list nat) : option (list nat) :=
  match s, t with
  | nil, t => Some t
  | s, nil => Some s
  | a :: s, b :: t =>
      match bshape s t with
      | None => None
      | Some r => if Nat.eqb a b then Some (a :: r) else if Nat.eqb a 1 then Some (b :: r) else if Nat.eqb b 1 then Some (a :: r) else None
      end
  end.
Fixpoint bshapes (l : list (list nat)) : option (list nat) :=
  match l with
  | nil => Some nil
  | s :: l => match bshapes l with Some t => bshape s t | None => None end
  end.
(** the index read in an array of shape s for index i of the broadcast array: axes of length 1 are repeated, missing axes ignored *)
Fixpoint bidx (s i : list nat) : list nat :=
  match s, i with
  | d :: s, k :: i => (if Nat.eqb d 1 then 0%nat else k) :: bidx s i
  | _, _ => nil
  end.
Definition bcast (t : list nat) (a : arr) : arr := mkArr t (fun i => a_at a (bidx (a_shape a) i)).

(** _distribution.py 1533-1539: a number becomes an array of length 1 ([maybe_broadcast]); an array stays ([always_broadcast]) *)
Definition to_arr (x : num) : arr := match x with Num x => mkArr (1%nat :: nil) (fun _ => x) | Arr a => a end.
Definition is_arr (x : option num) : bool := match x with Some (Arr _) => true | _ => false end.
Definition shapes_of (l : list (option num)) : list (list nat) :=
  flat_map (fun x => match x with Some x => (a_shape (to_arr x) :: nil) | None => nil end) l.
(** _distribution.py 1527-1553, [_as_float_arrays]: with at least one array everything is broadcast together (1541-1547), numbers
    alone keep length 1 (1549), None passes (1536, 1551) *)
Definition as_float_arrays (l : list (option num)) : option (list (option arr)) :=
  if existsb is_arr l then
    match bshapes (shapes_of l) with
    | Some t => Some (map (option_map (fun x => bcast t (to_arr x))) l)
    | None => None
    end
  else Some (map (option_map to_arr) l).

(** np.ones_like *)
Definition ones_like (a : arr) : arr := mkArr (a_shape a) (fun _ => 1).
(** rows of three arrays of one shape *)
Definition zip_obs (y w mu : arr) : list obs := map (fun i => mkobs (a_at y i) (a_at w i) (a_at mu i)) (indices (a_shape y)).
(** a Cython kernel with one-dimensional buffers (_functions.pyx, const_floating1d): other dimensions raise ValueError *)
Definition kernel (y w mu : arr) (k : list obs -> R) : option R :=
  match a_shape y with _ :: nil => Some (k (zip_obs y w mu)) | _ => None end.
(** numpy arithmetic on y, mu and sample_weight, np.sum over all entries: a number acts as a 0-d array *)
Definition np_arr (x : num) : arr := match x with Num x => mkArr nil (fun _ => x) | Arr a => a end.
Definition np_rows (y mu : num) (w : option num) : option (list obs) :=
  let w := match w with Some w => np_arr w | None => mkArr nil (fun _ => 1) end in
  match bshapes (a_shape (np_arr y) :: a_shape (np_arr mu) :: a_shape w :: nil) with
  | Some t => Some (zip_obs (bcast t (np_arr y)) (bcast t w) (bcast t (np_arr mu)))
  | None => None
  end.

(** [deviance]: _distribution.py 251-254 (binomial and hyperbolic secant inherit it: plain numpy arithmetic) and, for the other
    families, 625-642, 804-811, 917-924, 1031-1038, 1144-1148, 1407-1412: _as_float_arrays, ones for None, kernel *)
Definition fam_deviance (f : family) (y mu : num) (w : option num) : option R :=
  match f with
  | GHSF | BinomialF => option_map (deviance f) (np_rows y mu w)
  | _ =>
      match as_float_arrays (Some y :: Some mu :: w :: nil) with
      | Some (Some y :: Some mu :: w :: nil) =>
          kernel y (match w with Some w => w | None => ones_like y end) mu (deviance f)
      | _ => None
      end
  end.

(** len(a): the first axis; a 0-d array raises TypeError *)
Definition np_len (a : arr) : option nat := match rev (a_shape a) with n :: _ => Some n | nil => None end.
(** [dispersion]: 761-778 and the same in every family (875-892, 989-1006, 1102-1119, 1212-1229, 1335-1352, 1481-1497), base class
    502-538 (used by the hyperbolic secant: np.dot, a number only for 1-d arrays).  A zero denominator gives an infinite
    or NaN result in numpy, here Coq's x / 0 = 0. *)
Definition fam_dispersion (f : family) (m : disp_method) (y mu : num) (w : option num) (ddof : R) : option R :=
  match as_float_arrays (Some y :: Some mu :: w :: nil) with
  | Some (Some y' :: Some mu' :: w' :: nil) =>
      let rows := zip_obs y' (match w' with Some w => w | None => ones_like y' end) mu' in
      let num :=
        match m with
        | Pearson =>
            match f, a_shape y' with
            | GHSF, _ :: _ :: _ => None
            | _, _ => Some (match w' with
                            | None => lsumf (pearson_residual f) rows
                            | Some _ => lsumf (fun o => ow o * pearson_residual f o) rows
                            end)
            end
        | DevianceM => fam_deviance f (Arr y') (Arr mu') (option_map Arr w')
        end in
      match num, w', np_len y' with
      | Some n, None, Some k => Some (n / (INR k - ddof))
      | Some n, Some _, _ => Some (n / (lsumf ow rows - ddof))
      | _, _, _ => None
      end
  | _ => None
  end.
