(** Model of the front end of fit: formula, response, intercept and copies of X.  src/glum/_formula.py 18-60 [parse_formula],
    src/glum/_glm.py 1936-1941 [_should_copy_X], 1978-2131 and 2159 [_set_up_and_check_fit_args], 1600-1627 [covariance_matrix],
    src/glum/_utils.py 177-184 [is_contiguous].  Not modelled: what the terms mean, finiteness checks, feature names. *)
From Coq Require Import List Arith Bool. Import ListNotations.

(** A term of a parsed formula: the intercept "1" or another term. *)
Inductive term := One | V (n : nat).
Definition term_eqb (a b : term) : bool := match a, b with One, One => true | V m, V n => Nat.eqb m n | _, _ => false end.
(** A formula as written: an optional left-hand side and a signed sum.  0 stands for - 1. *)
Inductive item := I1 | I0 | IV (n : nat).
Record written := mkWritten { w_lhs : option (list term); w_rhs : list (bool * item) }.
(** A parsed formula: what formulaic's parser returns, or a formulaic.Formula object. *)
Record parsed := mkParsed { f_lhs : option (list term); f_rhs : list term }.
Definition add (t : term) (l : list term) : list term := if existsb (term_eqb t) l then l else l ++ [t].
Definition remove (t : term) (l : list term) : list term := filter (fun s => negb (term_eqb t s)) l.
(** formulaic.parser.DefaultFormulaParser (library): an implicit 1 first when include_intercept, then the signed terms in order;
    0 is replaced by - 1, and a minus before it cancels. *)
Definition signed (s : bool) (i : item) : bool * term := match i with I1 => (s, One) | I0 => (negb s, One) | IV n => (s, V n) end.
Fixpoint sum_terms (l : list (bool * item)) (acc : list term) : list term :=
  match l with
  | [] => acc
  | (s, i) :: l => let '(s, t) := signed s i in sum_terms l (if s then add t acc else remove t acc)
  end.
Definition default_parser (include_intercept : bool) (w : written) : parsed :=
  mkParsed (w_lhs w) (sum_terms (w_rhs w) (if include_intercept then [One] else [])).

(** the formula argument of the constructor *)
Inductive formula_arg := FString (w : written) | FFormula (f : parsed) | FOther.
Inductive error := EFormulaType | ELhs | EYGiven | EIntercept | ENoncontiguous | ENoY | EIntegers.
Inductive res (A : Type) := Ok (x : A) | Err (e : error).
Arguments Ok {A}. Arguments Err {A}.
Definition bind {A B} (r : res A) (k : A -> res B) : res B := match r with Ok x => k x | Err e => Err e end.
(** _formula.py 41-60: [parse_formula] *)
Definition parse_formula (f : formula_arg) (include_intercept : bool) : res (option (list term) * list term) :=
  bind (match f with FString w => Ok (default_parser include_intercept w) | FFormula f => Ok f | FOther => Err EFormulaType end) (fun terms =>
  match f_lhs terms with
  | Some l => if Nat.eqb (length l) 1 then Ok (Some l, f_rhs terms) else Err ELhs
  | None => Ok (None, f_rhs terms)
  end).

(** X: a data frame (contiguous .values or not; polars and other frames count as contiguous), a dense or sparse array with
    its element type and format, or a tabmat matrix *)
Inductive dt := DFloat64 | DFloat32 | DInteger | DOther (* bool, float16, object *).
Inductive fmt := Csc | Csr | Coo.
Inductive xarg := XFrame (pandas : bool) (contiguous : bool) | XDense (d : dt) (contiguous : bool) | XSparse (d : dt) (f : fmt) | XTabmat (d : dt).
(** _utils.py 177-184 (a DataFrame is asked for its values) *)
Definition is_contiguous (x : xarg) : bool :=
  match x with XFrame pandas c => if pandas then c else true | XDense _ c => c | _ => true end.
(** _glm.py 1936-1941: [self.copy_X or False] *)
Definition should_copy_X (copy_X : option bool) : bool := match copy_X with Some b => b | None => false end.
(** the estimator: hyper-parameters *)
Record params := mkParams { p_formula : option formula_arg; p_fit_intercept : bool; p_copy_X : option bool; p_cd : bool (* solver == "irls-cd" *) }.
Inductive yfrom := YPassed | YFormula (t : list term).
(** what the solvers get: where y comes from, the terms of the design when a formula made it, whether an array X was copied *)
Record input := mkInput { i_y : yfrom; i_terms : option (list term); i_copied : option bool }.

(** sklearn's check_array(dtype=[float64, float32], accept_sparse=stype, copy=copy_X): a copy is made when asked for, when the
    element type is not in the list and when the sparse format is not accepted *)
Definition float_dt (d : dt) : bool := match d with DFloat64 | DFloat32 => true | _ => false end.
Definition accept_fmt (cd : bool) (f : fmt) : bool := match f with Csc => true | Csr => negb cd | Coo => false end.
Definition check_copies (copy cd : bool) (x : xarg) : option bool :=
  match x with
  | XDense d _ => Some (copy || negb (float_dt d))
  | XSparse d f => Some (copy || negb (float_dt d) || negb (accept_fmt cd f))
  | _ => None
  end.
(** _glm.py 2159: tm.as_tabmat (library) wraps dense arrays and CSC matrices as they are and converts other sparse formats to CSC *)
Definition tabmat_copies (x : xarg) : bool := match x with XSparse _ Csc => false | XSparse _ _ => true | _ => false end.
Definition dt_of (x : xarg) : option dt := match x with XDense d _ | XSparse d _ | XTabmat d => Some d | XFrame _ _ => None end.
(** _glm.py 1978-2130: [_set_up_and_check_fit_args]; y is [true] when it was passed *)
Definition set_up_and_check (p : params) (x : xarg) (y : bool) : res input :=
  let copy_X := should_copy_X (p_copy_X p) in
  bind (match x with
        | XFrame _ _ =>
            match p_formula p with
            | Some f =>
                bind (parse_formula f (p_fit_intercept p)) (fun '(lhs, rhs) =>
                bind (match lhs with Some l => if y then Err EYGiven else Ok (Some (YFormula l)) | None => Ok (if y then Some YPassed else None) end) (fun ysrc =>
                let intercept := existsb (term_eqb One) rhs in
                if Bool.eqb intercept (p_fit_intercept p) then Ok (ysrc, Some rhs) else Err EIntercept))
            | None =>
                if negb (is_contiguous x) && match p_copy_X p with Some false => true | _ => false end then Err ENoncontiguous
                else Ok (if y then Some YPassed else None, None)
            end
        | _ => Ok (if y then Some YPassed else None, None)
        end) (fun '(ysrc, terms) =>
  bind (match ysrc with Some s => Ok s | None => Err ENoY end) (fun ysrc =>
  let int_dtype := match dt_of x with Some DInteger => true | _ => false end in
  if int_dtype && match p_copy_X p with Some b => negb b | None => false end then Err EIntegers
  else Ok (mkInput ysrc terms
        (* X.astype(np.float64) is itself a copy *)
        (option_map (fun c => c || int_dtype || tabmat_copies x) (check_copies copy_X (p_cd p) (match x with XDense DInteger c => XDense DFloat64 c | XSparse DInteger f => XSparse DFloat64 f | _ => x end)))))).

(** ** Model specs over the life of an estimator *)
(** y_model_spec_ is written by a two-sided formula fit (line 2005), X_model_spec_ by a formula fit whose intercept agrees (line
    2028); neither is deleted anywhere, and both are written before y is found missing. *)
Record est := mkEst { e_params : params; e_yspec : option (list term); e_xspec : option (list term) }.
Definition fit_front (e : est) (x : xarg) (y : bool) : est * res input :=
  let p := e_params e in
  let r := set_up_and_check p x y in
  match x, p_formula p with
  | XFrame _ _, Some f =>
      match parse_formula f (p_fit_intercept p) with
      | Ok (lhs, rhs) =>
          if match lhs with Some _ => y | None => false end then (e, r)
          else let yspec := match lhs with Some l => Some l | None => e_yspec e end in
               let xspec := if Bool.eqb (existsb (term_eqb One) rhs) (p_fit_intercept p) then Some rhs else e_xspec e in
               (mkEst p yspec xspec, r)
      | Err _ => (e, r)
      end
  | _, _ => (e, r)
  end.
Definition set_params (e : est) (p : params) : est := mkEst p (e_yspec e) (e_xspec e).
(** _glm.py 1622-1624: the response covariance_matrix(X, y) works with *)
Definition covariance_y (e : est) : yfrom := match e_yspec e with Some l => YFormula l | None => YPassed end.
(** _glm.py 325-326 [_convert_from_df]: the terms predict, score and covariance_matrix expand a data frame into (None: the columns of
    the frame); 1943-1955 [_resolve_monotonic_constraints] reads the same spec. *)
Definition frame_terms (e : est) : option (list term) := e_xspec e.
Inductive op := OFit (x : xarg) (y : bool) | OSet (p : params).
Definition step (e : est) (o : op) : est := match o with OFit x y => fst (fit_front e x y) | OSet p => set_params e p end.
Definition run (e : est) (l : list op) : est := fold_left step l e.
