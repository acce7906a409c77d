(** Model of pickling: the attribute dictionary of an estimator, what a fit on a data frame writes into it, what
    loading a pickle does with it, and how a new frame is encoded from it.
    src/glum/_glm.py 129-172 (constructor), 179-208 (__setstate__), 226-247 (properties), 319-362
    (_convert_from_df without a model spec), 2047-2065 (fit on a frame).
    Pickling itself (sklearn's __getstate__: a copy of __dict__) is external: the state is the dictionary. *)
From Coq Require Import String ZArith.
From Coq Require Import List.
From Verif Require Import M_Cat.
Import List.ListNotations.
Local Open Scope string_scope.

(** attribute values, as far as the code looks into them; [VOther] is any other object (identified by a number) *)
Inductive value :=
| VNone | VInt (z : Z) | VMethod (m : missing_method) | VStr (s : string) | VNames (l : list string)
| VDtypes (l : list (string * dtype)) | VLevels (l : list (string * list string))
| VMiss (l : list (string * bool)) | VOther (id : nat).

(** __dict__ *)
Definition dict := string -> option value.
Definition empty_dict : dict := fun _ => None.
Definition has (d : dict) (k : string) : bool := match d k with Some _ => true | None => false end.
(** setattr *)
Definition put (k : string) (v : value) (d : dict) : dict := fun k' => if String.eqb k' k then Some v else d k'.
(** self.__dict__.update(state) *)
Definition update (d st : dict) : dict := fun k => match st k with Some v => Some v | None => d k end.

(** {col: dtype.categories.tolist() for col, dtype in ... if isinstance(dtype, pd.CategoricalDtype)}
    _glm.py 191-195 and 232-236 *)
Definition levels_of (l : list (string * dtype)) : list (string * list string) :=
  map (fun cd => (fst cd, categories (snd cd))) (filter (fun cd => is_cat (snd cd)) l).

(** __setstate__, _glm.py 179-208; [None] = raises (feature_dtypes_ without .items()).  204-208: the defaults are
    set for attributes that are absent (hasattr; neither is a class attribute) *)
Definition set_default (k : string) (v : value) (d : dict) : dict := if has d k then d else put k v d.
Definition setstate (self state : dict) : option dict :=
  let d0 := update self state in
  let d1 :=
    if (has state "feature_dtypes_" && negb (has state "_categorical_levels_"))%bool then
      match state "feature_dtypes_" with
      | Some (VDtypes l) => Some (put "_feature_dtypes_" (VDtypes l) (put "_categorical_levels_" (VLevels (levels_of l)) d0))
      | _ => None
      end
    else Some d0 in
  match d1 with
  | None => None
  | Some d => Some (set_default "monotonic_constraints" VNone (set_default "max_inner_iter" (VInt 100000) d))
  end.
(** pickle.loads: a new object whose __dict__ is empty (the constructor is not called) *)
Definition load (state : dict) : option dict := setstate empty_dict state.

(** the properties, _glm.py 226-241; [None] = AttributeError *)
Definition categorical_levels (d : dict) : option value :=
  match d "_categorical_levels_" with
  | Some v => Some v
  | None => match d "_feature_dtypes_" with
            | Some (VDtypes l) => Some (VLevels (levels_of l))
            | _ => None
            end
  end.
Definition feature_dtypes (d : dict) : option value := d "_feature_dtypes_".

(** a frame: named columns in order *)
Definition dataframe := list (string * column).
Definition dtypes_of (f : dataframe) : list (string * dtype) := map (fun nc => (fst nc, c_dtype (snd nc))) f.
Definition method_of (d : dict) : missing_method := match d "cat_missing_method" with Some (VMethod m) => m | _ => MFail end.
(** fit on a pandas frame without formula, _glm.py 2047-2064: the attributes that describe the frame *)
Definition fit_frame (f : dataframe) (d : dict) : dict :=
  let d1 := put "_feature_dtypes_" (VDtypes (dtypes_of f)) d in
  let d2 := put "_categorical_levels_" (VLevels (levels_of (dtypes_of f))) d1 in
  put "has_missing_category_"
      (VMiss (map (fun nc => (fst nc, has_missing_category (method_of d) (snd nc)))
                  (filter (fun nc => is_cat (c_dtype (snd nc))) f))) d2.

(** lookup in a Python dictionary built in this order: the last item with the key *)
Fixpoint dget {A} (k : string) (l : list (string * A)) : option A :=
  match l with
  | [] => None
  | (k', v) :: r => match dget k r with Some w => Some w | None => if String.eqb k k' then Some v else None end
  end.

(** _convert_from_df, _glm.py 319-362, without a model spec, for one column of the new frame: a column listed in
    categorical_levels_ is aligned and encoded ([convert_column]); any other column goes to tabmat's from_df as it is
    ([from_df], external).  has_missing_category_ is read only with cat_missing_method = 'convert' and a column whose
    dtype is not already the stored Enum (KeyError if the column is missing there); with 'convert' the remaining
    columns are converted with 'fail'.  [fmt] is categorical_format.format. *)
Section Encode.
Variable A : Type.
Variable from_df : missing_method -> column -> option A.
Variable coded : list (option nat) -> A.
Variable fmt : option value -> string -> string -> string.
Definition miss_name (d : dict) : string := match d "cat_missing_name" with Some (VStr s) => s | _ => "(MISSING)" end.
Definition feature_in (d : dict) (s : string) : bool := match d "feature_names_" with Some (VNames l) => str_in s l | _ => false end.
Definition encode_column (d : dict) (nc : string * column) : option A :=
  let m := method_of d in
  match categorical_levels d with
  | Some (VLevels l) =>
      match dget (fst nc) l with
      | Some levels =>
          let hm := match d "has_missing_category_" with Some (VMiss h) => dget (fst nc) h | _ => None end in
          let aligned := match c_dtype (snd nc) with DEnum cats => slist_eqb cats levels | _ => false end in
          if (is_convert m && match hm with None => true | _ => false end && negb aligned)%bool then None
          else option_map coded
                (convert_column levels (match hm with Some b => b | None => false end) m (miss_name d)
                   (feature_in d (fmt (d "categorical_format") (fst nc) (miss_name d))) (snd nc))
      | None => from_df (if is_convert m then MFail else m) (snd nc)
      end
  | _ => from_df m (snd nc)
  end.
Fixpoint encode_frame (d : dict) (f : dataframe) : option (list A) :=
  match f with
  | [] => Some []
  | nc :: r => match encode_column d nc, encode_frame d r with Some a, Some l => Some (a :: l) | _, _ => None end
  end.
End Encode.
