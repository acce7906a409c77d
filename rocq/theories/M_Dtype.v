(** Model of the element type of sample weights: src/glum/_validation.py 186-217 [check_weights] with its dtype argument, and the
    two callers that pass the type of the data they were given: predict (src/glum/_glm.py 992: X.dtype) and score (1786: y.dtype). *)
From Coq Require Import List Arith ZArith. Import ListNotations.
From Verif Require Import Base M_Dist M_Std M_Path M_Float M_Shape.
Local Open Scope R_scope.

(** element types: float64, float32, integers (bool, int8 ... are not distinguished; no overflow) *)
Inductive dtype := F64 | F32 | IntT.
(** numpy's conversion of a positive number to the type: nearest float32, or truncation *)
Definition cast (d : dtype) (x : R) : R :=
  match d with F64 => x | F32 => rnd32 x | IntT => IZR (Int_part x) end.
(** _validation.py 186-217: the three exits; only None and numbers use dtype ([np.ones], [np.full]); vectors are converted to
    floating point whatever dtype is (float32 vectors stay float32) *)
Definition check_weights_d (a : weight_arg) (n : nat) (d : dtype) : option (list R) :=
  match a with
  | WNone => Some (repeat 1 n)
  | WScalar c => if Rleb c 0 then None else Some (repeat (cast d c) n)
  | WVector l => check_weights (WVector l) n
  end.
(** _glm.py 928-994, [predict]: the weights are cast to the type of the matrix X that was passed *)
Definition predict_d (m : fitted_model) (p : nat) (d : dtype) (X : list (nat -> R)) (o : offset_arg) (sw : weight_arg)
    (idx : sel Z) (alpha : sel R) : option pred :=
  match linear_predictor m p X o idx alpha with
  | None => None
  | Some eta =>
      let mu := pred_map (inverse1 (m_link m)) eta in
      match sw with
      | WNone => Some mu
      | _ => match check_weights_d sw (length X) d with Some ws => times_weights mu ws | None => None end
      end
  end.
(** a one-dimensional array *)
Definition arr1 (l : list R) : num := Arr (mkArr (length l :: nil) (fun i => nth (hd 0%nat i) l 0)).
(** _glm.py 1738-1794, [score] with a vector y of type d: check_weights (1786), predict without weights (1788), np.average, which
    raises ZeroDivisionError when the weights sum to zero (1789; the three lengths are equal or it raises), the two deviances *)
Definition score_method (m : fitted_model) (f : family) (p : nat) (d : dtype) (X : list (nat -> R)) (y : list R) (o : offset_arg) (sw : weight_arg) : option R :=
  match check_weights_d sw (length y) d with
  | None => None
  | Some ws =>
      match predict m p X o WNone SelNone SelNone with
      | Some (PVec mu) =>
          if Reqb (lsum ws) 0 then None
          else match fam_deviance f (arr1 y) (arr1 mu) (Some (arr1 ws)),
                     fam_deviance f (arr1 y) (Num (lsumf (fun p => fst p * snd p) (combine y ws) / lsum ws)) (Some (arr1 ws)) with
               | Some a, Some b => Some (1 - a / b)
               | _, _ => None
               end
      | _ => None
      end
  end.
