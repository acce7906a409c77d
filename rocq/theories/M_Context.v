(** The evaluation context of formulas: which scope an integer [context] argument reaches (_formula.py, _glm.py, _glm_cv.py). *)
From Coq Require Import List ZArith Bool. Import ListNotations.
Local Open Scope Z_scope.

(** A Python stack frame as the formula machinery sees it: f_locals and f_globals.  Names and values are abstract. *)
Record frame (name val : Type) := mkFrame { f_locals : name -> option val; f_globals : name -> option val }.
Arguments mkFrame {name val}. Arguments f_locals {name val}. Arguments f_globals {name val}.
(** A mapping from names to values. *)
Definition scope (name val : Type) : Type := name -> option val.
(** formulaic.utils.layered_mapping: LayeredMapping(frame.f_locals, frame.f_globals): the first layer that has the name wins. *)
Definition frame_scope {name val} (f : frame name val) : scope name val :=
  fun n => match f_locals f n with Some v => Some v | None => f_globals f n end.

(** The [context] argument: None, an integer, or a mapping (_glm.py 820, 936, 1013, ...). *)
Inductive ctx (name val : Type) := CNone | CInt (k : Z) | CMap (m : scope name val).
Arguments CNone {name val}. Arguments CInt {name val}. Arguments CMap {name val}.

(** Frames that glum and formulaic push while a method runs (one per function that takes part). *)
Inductive gframe := GFormulaic | GCapture | GFit | GCVFit | GPredict | GLinPred | GCVLinPred | GCompute | GScore | GCoefTable
  | GWald | GWaldSub | GWaldMatrix | GStdErrors | GCov | GCrit | GInfo | GComputeInfo.

(** sys._getframe(depth): CPython walks [depth] frames outwards, treats a negative depth as 0 and raises ValueError when
    the call stack is not deep enough.  The stack is a list with the innermost frame first. *)
Definition getframe {name val} (st : list (frame name val)) (depth : Z) : option (frame name val) := nth_error st (Z.to_nat depth).

(** formulaic.utils.context.capture_context (library, as documented: "interpreted as a frame offset from the caller's
    frame"): an integer k becomes the scope of frame sys._getframe(k + 1); None and mappings are returned unchanged.
    [None] is the ValueError of sys._getframe. *)
Definition formulaic_capture {name val} (g : gframe -> frame name val) (st : list (frame name val)) (c : ctx name val) : option (option (scope name val)) :=
  match c with
  | CNone => Some None
  | CMap m => Some (Some m)
  | CInt k => match getframe (g GFormulaic :: st) (k + 1) with Some f => Some (Some (frame_scope f)) | None => None end
  end.
(** _formula.py 12-15: capture_context adds 2 to an integer. *)
Definition capture_context {name val} (g : gframe -> frame name val) (st : list (frame name val)) (c : ctx name val) : option (option (scope name val)) :=
  formulaic_capture g (g GCapture :: st) (match c with CInt k => CInt (k + 2) | c => c end).
(** the captured context as an argument of a further call *)
Definition as_ctx {name val} (c : option (scope name val)) : ctx name val := match c with None => CNone | Some m => CMap m end.

(** What a call did with formulas: for each formula side that was evaluated on a data frame, the context it was given. *)
Inductive side := LHS | RHS.
Definition trace (name val : Type) : Type := list (side * option (scope name val)).
Definition bind {A B} (x : option A) (f : A -> option B) : option B := match x with Some a => f a | None => None end.

(** The fitted estimator, as far as contexts are concerned: was it fitted from a two-sided formula (y_model_spec_ exists);
    is it a GeneralizedLinearRegressorCV; does the call select a path entry (alpha_index); are the information criteria
    already stored. *)
Record est := mkEst { e_lhs : bool; e_cv : bool; e_path : bool; e_cached : bool }.

(** What X is in a call: a data frame that goes through the stored model spec, or an already converted matrix. *)
Inductive xarg := XFrame | XMatrix.

(** _glm.py 319-326: with a stored model spec the formula is evaluated with the given context *)
Definition convert_from_df {name val} (c : option (scope name val)) : trace name val := [(RHS, c)].

(** _glm.py 882-892: _compute_linear_predictor *)
Definition compute_linear_predictor {name val} g (st : list (frame name val)) (x : xarg) (c : ctx name val) : option (trace name val) :=
  let st := g GCompute :: st in
  match x with XFrame => bind (capture_context g st c) (fun s => Some (convert_from_df s)) | XMatrix => Some [] end.
(** _glm.py 813-880: linear_predictor *)
Definition base_linear_predictor {name val} g (st : list (frame name val)) x (c : ctx name val) : option (trace name val) :=
  compute_linear_predictor g (g GLinPred :: st) x c.
(** _glm_cv.py 426-490: linear_predictor of the CV estimator *)
Definition cv_linear_predictor {name val} g (path : bool) (st : list (frame name val)) x (c : ctx name val) : option (trace name val) :=
  let st := g GCVLinPred :: st in
  if path then compute_linear_predictor g st x c else base_linear_predictor g st x c.
(** method resolution *)
Definition linear_predictor {name val} g (e : est) (st : list (frame name val)) x (c : ctx name val) : option (trace name val) :=
  if e_cv e then cv_linear_predictor g (e_path e) st x c else base_linear_predictor g st x c.
(** _glm.py 928-994: predict converts the frame itself and passes the converted matrix (and the raw context) on *)
Definition predict {name val} g (e : est) (st : list (frame name val)) x (c : ctx name val) : option (trace name val) :=
  let st := g GPredict :: st in
  match x with
  | XFrame => bind (capture_context g st c) (fun s => bind (linear_predictor g e st XMatrix c) (fun t => Some (convert_from_df s ++ t)))
  | XMatrix => linear_predictor g e st XMatrix c
  end.
(** _glm.py 1738-1788: score *)
Definition score_method {name val} g (e : est) (st : list (frame name val)) x (c : ctx name val) : option (trace name val) :=
  predict g e (g GScore :: st) x c.
(** _glm.py 1448-1656: covariance_matrix with X and y given (or a two-sided formula).  The response is re-evaluated by
    y_model_spec_.get_model_matrix(X), without a context (line 1624). *)
Definition covariance_matrix {name val} g (e : est) (st : list (frame name val)) x (c : ctx name val) : option (trace name val) :=
  let st := g GCov :: st in
  bind (match x with XFrame => bind (capture_context g st c) (fun s => Some ((if e_lhs e then [(LHS, None)] else []) ++ convert_from_df s))
                   | XMatrix => Some [] end)
       (fun t => bind (predict g e st XMatrix CNone) (fun t' => Some (t ++ t'))).
(** _glm.py 1432-1446: std_errors *)
Definition std_errors {name val} g (e : est) (st : list (frame name val)) x (c : ctx name val) : option (trace name val) :=
  let st := g GStdErrors :: st in bind (capture_context g st c) (fun s => covariance_matrix g e st x (as_ctx s)).
(** _glm.py 1056-1078: coef_table, X given *)
Definition coef_table {name val} g (e : est) (st : list (frame name val)) x (c : ctx name val) : option (trace name val) :=
  let st := g GCoefTable :: st in bind (capture_context g st c) (fun s => covariance_matrix g e st x (as_ctx s)).
(** _glm.py 1189-1237, 1307, 1323, 1373: wald_test; [sub] is true when it goes through _wald_test_feature_names,
    _wald_test_term_names or _wald_test_formula before _wald_test_matrix *)
Definition wald_test {name val} g (sub : bool) (e : est) (st : list (frame name val)) x (c : ctx name val) : option (trace name val) :=
  let st := g GWald :: st in
  bind (capture_context g st c) (fun s =>
    covariance_matrix g e (g GWaldMatrix :: (if sub then g GWaldSub :: st else st)) x (as_ctx s)).
(** _glm.py 2663-2752 (fit) and _glm_cv.py 507-586: the context is captured first and given to both formula sides,
    _glm.py 1985-2018.  The trailing covariance computation (2923) gets a matrix and skips the checks. *)
Definition fit_method {name val} g (e : est) (st : list (frame name val)) x (c : ctx name val) : option (trace name val) :=
  let st := g (if e_cv e then GCVFit else GFit) :: st in
  bind (capture_context g st c) (fun s => Some (match x with XFrame => (if e_lhs e then [(LHS, s)] else []) ++ [(RHS, s)] | XMatrix => [] end)).
(** _glm.py 3116-3142 (_get_info_criteria) and 2937-2981 (_compute_information_criteria) *)
Definition get_info_criteria {name val} g (e : est) (st : list (frame name val)) x (c : ctx name val) : option (trace name val) :=
  let st := g GInfo :: st in
  bind (capture_context g st c) (fun s => if e_cached e then Some [] else predict g e (g GComputeInfo :: st) x (as_ctx s)).
(** _glm.py 2996-3114: aic, aicc and bic *)
Definition info_criterion {name val} g (e : est) (st : list (frame name val)) x (c : ctx name val) : option (trace name val) :=
  get_info_criteria g e (g GCrit :: st) x c.

(** The public methods with a [context] argument. *)
Inductive meth := MFit | MPredict | MLinPred | MScore | MCoefTable | MWald (sub : bool) | MStdErrors | MCov | MInfo.
Definition call {name val} (g : gframe -> frame name val) (m : meth) (e : est) (st : list (frame name val)) (x : xarg) (c : ctx name val) : option (trace name val) :=
  match m with
  | MFit => fit_method g e st x c | MPredict => predict g e st x c | MLinPred => linear_predictor g e st x c
  | MScore => score_method g e st x c | MCoefTable => coef_table g e st x c | MWald sub => wald_test g sub e st x c
  | MStdErrors => std_errors g e st x c | MCov => covariance_matrix g e st x c | MInfo => info_criterion g e st x c
  end.

(** formulaic's materializer looks a name up in the data, then in the context, then among its own transforms (library). *)
Definition resolve {name val} (data : scope name val) (c : option (scope name val)) (transforms : scope name val) (n : name) : option val :=
  match data n with
  | Some v => Some v
  | None => match (match c with Some m => m n | None => None end) with Some v => Some v | None => transforms n end
  end.
