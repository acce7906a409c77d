(** Constructors and hyperparameters (_glm.py, _glm_cv.py __init__; sklearn's get_params, set_params and clone). *)
From Coq Require Import List String Bool. Import ListNotations.
Local Open Scope string_scope.

(** _glm.py 93-134: signature of the base class, with the text of each default *)
Definition base_sig : list (string * string) := [
  ("l1_ratio", "0"); ("P1", "'identity'"); ("P2", "'identity'"); ("fit_intercept", "True"); ("family", "'normal'"); 
   ("link", "'auto'"); ("solver", "'auto'"); ("max_iter", "100"); ("max_inner_iter", "100000"); 
   ("gradient_tol", "None"); ("step_size_tol", "None"); ("hessian_approx", "0.0"); ("warm_start", "False"); 
   ("alpha_search", "False"); ("n_alphas", "100"); ("min_alpha_ratio", "None"); ("min_alpha", "None"); 
   ("start_params", "None"); ("selection", "'cyclic'"); ("random_state", "None"); ("copy_X", "None"); 
   ("check_input", "True"); ("verbose", "0"); ("scale_predictors", "False"); ("lower_bounds", "None"); 
   ("upper_bounds", "None"); ("A_ineq", "None"); ("b_ineq", "None"); ("monotonic_constraints", "None"); 
   ("force_all_finite", "True"); ("drop_first", "False"); ("robust", "True"); ("expected_information", "False"); 
   ("formula", "None"); ("interaction_separator", "':'"); ("categorical_format", "'{name}[{category}]'"); 
   ("cat_missing_method", "'fail'"); ("cat_missing_name", "'(MISSING)'") ].
(** _glm.py 135-172: self.<first> = <second> *)
Definition base_sets : list (string * string) := [
  ("l1_ratio", "l1_ratio"); ("P1", "P1"); ("P2", "P2"); ("fit_intercept", "fit_intercept"); ("family", "family"); 
   ("link", "link"); ("solver", "solver"); ("max_iter", "max_iter"); ("max_inner_iter", "max_inner_iter"); 
   ("gradient_tol", "gradient_tol"); ("step_size_tol", "step_size_tol"); ("hessian_approx", "hessian_approx"); 
   ("warm_start", "warm_start"); ("alpha_search", "alpha_search"); ("n_alphas", "n_alphas"); 
   ("min_alpha_ratio", "min_alpha_ratio"); ("min_alpha", "min_alpha"); ("start_params", "start_params"); 
   ("selection", "selection"); ("random_state", "random_state"); ("copy_X", "copy_X"); ("check_input", "check_input"); 
   ("verbose", "verbose"); ("scale_predictors", "scale_predictors"); ("lower_bounds", "lower_bounds"); 
   ("upper_bounds", "upper_bounds"); ("A_ineq", "A_ineq"); ("b_ineq", "b_ineq"); 
   ("monotonic_constraints", "monotonic_constraints"); ("force_all_finite", "force_all_finite"); 
   ("drop_first", "drop_first"); ("robust", "robust"); ("expected_information", "expected_information"); 
   ("formula", "formula"); ("interaction_separator", "interaction_separator"); 
   ("categorical_format", "categorical_format"); ("cat_missing_method", "cat_missing_method"); 
   ("cat_missing_name", "cat_missing_name") ].
(** _glm.py 2539-2582: signature of GeneralizedLinearRegressor *)
Definition glr_sig : list (string * string) := [
  ("alpha", "None"); ("l1_ratio", "0"); ("P1", "'identity'"); ("P2", "'identity'"); ("fit_intercept", "True"); 
   ("family", "'normal'"); ("link", "'auto'"); ("solver", "'auto'"); ("max_iter", "100"); ("max_inner_iter", "100000"); 
   ("gradient_tol", "None"); ("step_size_tol", "None"); ("hessian_approx", "0.0"); ("warm_start", "False"); 
   ("alpha_search", "False"); ("alphas", "None"); ("n_alphas", "100"); ("min_alpha_ratio", "None"); 
   ("min_alpha", "None"); ("start_params", "None"); ("selection", "'cyclic'"); ("random_state", "None"); 
   ("copy_X", "None"); ("check_input", "True"); ("verbose", "0"); ("scale_predictors", "False"); 
   ("lower_bounds", "None"); ("upper_bounds", "None"); ("A_ineq", "None"); ("b_ineq", "None"); 
   ("monotonic_constraints", "None"); ("force_all_finite", "True"); ("drop_first", "False"); ("robust", "True"); 
   ("expected_information", "False"); ("formula", "None"); ("interaction_separator", "':'"); 
   ("categorical_format", "'{name}[{category}]'"); ("cat_missing_method", "'fail'"); ("cat_missing_name", "'(MISSING)'") ].
(** _glm.py 2583-2584 *)
Definition glr_sets : list (string * string) := [
  ("alphas", "alphas"); ("alpha", "alpha") ].
(** _glm.py 2585-2624: super().__init__(<first>=<second>, ...) *)
Definition glr_super : list (string * string) := [
  ("l1_ratio", "l1_ratio"); ("P1", "P1"); ("P2", "P2"); ("fit_intercept", "fit_intercept"); ("family", "family"); 
   ("link", "link"); ("solver", "solver"); ("max_iter", "max_iter"); ("max_inner_iter", "max_inner_iter"); 
   ("gradient_tol", "gradient_tol"); ("step_size_tol", "step_size_tol"); ("hessian_approx", "hessian_approx"); 
   ("warm_start", "warm_start"); ("alpha_search", "alpha_search"); ("n_alphas", "n_alphas"); 
   ("min_alpha", "min_alpha"); ("min_alpha_ratio", "min_alpha_ratio"); ("start_params", "start_params"); 
   ("selection", "selection"); ("random_state", "random_state"); ("copy_X", "copy_X"); ("check_input", "check_input"); 
   ("verbose", "verbose"); ("scale_predictors", "scale_predictors"); ("lower_bounds", "lower_bounds"); 
   ("upper_bounds", "upper_bounds"); ("A_ineq", "A_ineq"); ("b_ineq", "b_ineq"); 
   ("monotonic_constraints", "monotonic_constraints"); ("force_all_finite", "force_all_finite"); 
   ("drop_first", "drop_first"); ("robust", "robust"); ("expected_information", "expected_information"); 
   ("formula", "formula"); ("interaction_separator", "interaction_separator"); 
   ("categorical_format", "categorical_format"); ("cat_missing_method", "cat_missing_method"); 
   ("cat_missing_name", "cat_missing_name") ].
(** _glm_cv.py 339-382: signature of GeneralizedLinearRegressorCV *)
Definition cv_sig : list (string * string) := [
  ("l1_ratio", "0"); ("P1", "'identity'"); ("P2", "'identity'"); ("fit_intercept", "True"); ("family", "'normal'"); 
   ("link", "'auto'"); ("solver", "'auto'"); ("max_iter", "100"); ("max_inner_iter", "100000"); 
   ("gradient_tol", "None"); ("step_size_tol", "None"); ("hessian_approx", "0.0"); ("warm_start", "False"); 
   ("n_alphas", "100"); ("alphas", "None"); ("min_alpha_ratio", "None"); ("min_alpha", "None"); 
   ("start_params", "None"); ("selection", "'cyclic'"); ("random_state", "None"); ("copy_X", "None"); 
   ("check_input", "True"); ("verbose", "0"); ("scale_predictors", "False"); ("lower_bounds", "None"); 
   ("upper_bounds", "None"); ("A_ineq", "None"); ("b_ineq", "None"); ("monotonic_constraints", "None"); 
   ("force_all_finite", "True"); ("cv", "None"); ("n_jobs", "None"); ("drop_first", "False"); ("robust", "True"); 
   ("expected_information", "False"); ("formula", "None"); ("interaction_separator", "':'"); 
   ("categorical_format", "'{name}[{category}]'"); ("cat_missing_method", "'fail'"); ("cat_missing_name", "'(MISSING)'") ].
(** _glm_cv.py 383-385 *)
Definition cv_sets : list (string * string) := [
  ("alphas", "alphas"); ("cv", "cv"); ("n_jobs", "n_jobs") ].
(** _glm_cv.py 386-424: super().__init__(<first>=<second>, ...) *)
Definition cv_super : list (string * string) := [
  ("l1_ratio", "l1_ratio"); ("P1", "P1"); ("P2", "P2"); ("fit_intercept", "fit_intercept"); ("family", "family"); 
   ("link", "link"); ("solver", "solver"); ("max_iter", "max_iter"); ("max_inner_iter", "max_inner_iter"); 
   ("gradient_tol", "gradient_tol"); ("step_size_tol", "step_size_tol"); ("hessian_approx", "hessian_approx"); 
   ("warm_start", "warm_start"); ("n_alphas", "n_alphas"); ("min_alpha_ratio", "min_alpha_ratio"); 
   ("min_alpha", "min_alpha"); ("start_params", "start_params"); ("selection", "selection"); 
   ("random_state", "random_state"); ("copy_X", "copy_X"); ("check_input", "check_input"); ("verbose", "verbose"); 
   ("scale_predictors", "scale_predictors"); ("lower_bounds", "lower_bounds"); ("upper_bounds", "upper_bounds"); 
   ("A_ineq", "A_ineq"); ("b_ineq", "b_ineq"); ("monotonic_constraints", "monotonic_constraints"); 
   ("force_all_finite", "force_all_finite"); ("drop_first", "drop_first"); ("robust", "robust"); 
   ("expected_information", "expected_information"); ("formula", "formula"); 
   ("interaction_separator", "interaction_separator"); ("categorical_format", "categorical_format"); 
   ("cat_missing_method", "cat_missing_method"); ("cat_missing_name", "cat_missing_name") ].

(** Values are abstract; [lit] gives the value of the text of a default. *)
Definition assoc {V} (l : list (string * V)) (n : string) : option V :=
  match find (fun kv => String.eqb (fst kv) n) l with Some kv => Some (snd kv) | None => None end.
Definition in_names (l : list (string * string)) (n : string) : bool := existsb (fun kv => String.eqb (fst kv) n) l.
(** the attribute dictionary of the object *)
Definition attrs (V : Type) : Type := string -> option V.
Definition setattr {V} (a : attrs V) (n : string) (v : V) : attrs V := fun m => if String.eqb m n then Some v else a m.

(** Python's binding of keyword-only arguments: an unknown keyword is a TypeError ([None]); missing ones take the default *)
Definition bind_args {V} (lit : string -> V) (sig : list (string * string)) (kw : list (string * V)) : option (string -> option V) :=
  if forallb (fun kv => in_names sig (fst kv)) kw
  then Some (fun p => match assoc kw p with Some v => Some v | None => match assoc sig p with Some t => Some (lit t) | None => None end end)
  else None.
(** the assignments self.x = y, in order *)
Definition run_sets {V} (sets : list (string * string)) (env : string -> option V) (a : attrs V) : attrs V :=
  fold_left (fun a xy => match env (snd xy) with Some v => setattr a (fst xy) v | None => a end) sets a.
(** the keyword arguments of a call f(x=y, ...) *)
Definition eval_kwargs {V} (env : string -> option V) (l : list (string * string)) : list (string * V) :=
  flat_map (fun xy => match env (snd xy) with Some v => [(fst xy, v)] | None => [] end) l.
(** _glm.py 93-172 *)
Definition base_init {V} (lit : string -> V) (kw : list (string * V)) (a : attrs V) : option (attrs V) :=
  match bind_args lit base_sig kw with Some env => Some (run_sets base_sets env a) | None => None end.
Inductive cls := GLR | GLRCV.
Definition sig_of (c : cls) := match c with GLR => glr_sig | GLRCV => cv_sig end.
Definition sets_of (c : cls) := match c with GLR => glr_sets | GLRCV => cv_sets end.
Definition super_of (c : cls) := match c with GLR => glr_super | GLRCV => cv_super end.
(** _glm.py 2539-2624, _glm_cv.py 339-424: the constructor, on a fresh object *)
Definition construct {V} (lit : string -> V) (c : cls) (kw : list (string * V)) : option (attrs V) :=
  match bind_args lit (sig_of c) kw with
  | Some env => base_init lit (eval_kwargs env (super_of c)) (run_sets (sets_of c) env (fun _ => None))
  | None => None
  end.
(** sklearn BaseEstimator.get_params: getattr of every name of the signature ([None]: AttributeError) *)
Fixpoint get_each {V} (names : list string) (a : attrs V) : option (list (string * V)) :=
  match names with
  | nil => Some nil
  | n :: r => match a n, get_each r a with Some v, Some l => Some ((n, v) :: l) | _, _ => None end
  end.
Definition get_params {V} (c : cls) (a : attrs V) : option (list (string * V)) := get_each (map fst (sig_of c)) a.
(** sklearn BaseEstimator.set_params: sets one after the other and raises at the first unknown name, keeping what was set
    before (nested names with "__" are left out: no hyperparameter here is an estimator) *)
Fixpoint set_params {V} (c : cls) (a : attrs V) (kw : list (string * V)) : attrs V * bool :=
  match kw with
  | nil => (a, true)
  | (n, v) :: r => if in_names (sig_of c) n then set_params c (setattr a n v) r else (a, false)
  end.
(** sklearn.base.clone: a new object from get_params (hyperparameter values are copied) *)
Definition clone {V} (lit : string -> V) (c : cls) (a : attrs V) : option (attrs V) :=
  match get_params c a with Some kw => construct lit c kw | None => None end.
