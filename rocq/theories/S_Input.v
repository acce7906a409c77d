(** Specification for the front end of fit (C110): what the docstrings promise about formula, y, fit_intercept and copy_X,
    in terms of what the user wrote. *)
From Coq Require Import List Arith Bool. Import ListNotations.
From Verif Require Import M_Input.

(** a signed piece of a formula string says something about a term: "+ 1" and "- 0" put the intercept in, "- 1" and "+ 0" take
    it out, "+ a" puts a in, "- a" takes it out *)
Inductive says : bool * item -> term -> bool -> Prop :=
  | says_one s : says (s, I1) One s
  | says_zero s : says (s, I0) One (negb s)
  | says_var s n : says (s, IV n) (V n) s.
Definition silent_about (t : term) (l : list (bool * item)) : Prop := forall p b, In p l -> ~ says p t b.
(** the last piece that mentions the term decides *)
Definition last_word (t : term) (l : list (bool * item)) (b : bool) : Prop :=
  exists l1 p l2, l = l1 ++ p :: l2 /\ says p t b /\ silent_about t l2.
(** does the formula, read with this fit_intercept, ask for an intercept? *)
Definition asks_intercept (f : formula_arg) (fit_intercept b : bool) : Prop :=
  match f with
  | FString w => last_word One (w_rhs w) b \/ silent_about One (w_rhs w) /\ b = fit_intercept
  | FFormula g => b = true <-> In One (f_rhs g)
  | FOther => False
  end.
Definition left_side (f : formula_arg) : option (list term) :=
  match f with FString w => w_lhs w | FFormula g => f_lhs g | FOther => None end.
Definition frame (x : xarg) : Prop := exists pandas c, x = XFrame pandas c.
Definition scattered (x : xarg) : Prop := x = XFrame true false.
Definition integers (x : xarg) : Prop := match x with XDense d _ | XSparse d _ | XTabmat d => d = DInteger | XFrame _ _ => False end.
Definition floats (x : xarg) : Prop := match x with XDense d _ | XSparse d _ | XTabmat d => d = DFloat64 \/ d = DFloat32 | XFrame _ _ => False end.
(** the formula that counts: the one of the constructor, when X is a data frame *)
Definition formula_in_force (p : params) (x : xarg) (f : formula_arg) : Prop := frame x /\ p_formula p = Some f.
Definition no_formula (p : params) (x : xarg) : Prop := ~ frame x \/ p_formula p = None.

(** the calls that get past the front end *)
Definition fine (p : params) (x : xarg) (y : bool) : Prop :=
  (exists f, formula_in_force p x f /\ f <> FOther /\
     (left_side f = None /\ y = true \/ (exists t, left_side f = Some [t]) /\ y = false) /\
     asks_intercept f (p_fit_intercept p) (p_fit_intercept p))
  \/ no_formula p x /\ y = true /\ (p_copy_X p = Some false -> ~ scattered x /\ ~ integers x).
(** what each refusal means *)
Definition blame (p : params) (x : xarg) (y : bool) (e : error) : Prop :=
  match e with
  | EFormulaType => formula_in_force p x FOther
  | ELhs => exists f l, formula_in_force p x f /\ left_side f = Some l /\ length l <> 1
  | EYGiven => y = true /\ exists f l, formula_in_force p x f /\ left_side f = Some l
  | EIntercept => exists f, formula_in_force p x f /\ asks_intercept f (p_fit_intercept p) (negb (p_fit_intercept p))
  | ENoncontiguous => no_formula p x /\ scattered x /\ p_copy_X p = Some false
  | ENoY => y = false /\ (no_formula p x \/ exists f, formula_in_force p x f /\ left_side f = None)
  | EIntegers => integers x /\ p_copy_X p = Some false
  end.

(** the life of an estimator: the parameters in force after some calls, and a fit that read its response from a formula *)
Fixpoint params_after (p : params) (l : list op) : params :=
  match l with [] => p | OSet q :: l => params_after q l | OFit _ _ :: l => params_after p l end.
Definition read_response (p : params) (o : op) (l : list term) : Prop :=
  exists x f t, o = OFit x false /\ formula_in_force p x f /\ left_side f = Some [t] /\ l = [t].
(** the terms of a formula: those of the object, or for a string what the parser makes of it (C110_terms says what that is) *)
Definition parsed_terms (f : formula_arg) (fit_intercept : bool) (l : list term) : Prop :=
  match f with FString w => l = f_rhs (default_parser fit_intercept w) | FFormula g => l = f_rhs g | FOther => False end.
(** a fit call that read the terms of its design from a formula: a proper formula, a response that does not come from two places,
    an intercept that agrees - but not necessarily a response at all *)
Definition read_design (p : params) (o : op) (l : list term) : Prop :=
  exists x y f, o = OFit x y /\ formula_in_force p x f /\
    (left_side f = None \/ (exists t, left_side f = Some [t]) /\ y = false) /\
    asks_intercept f (p_fit_intercept p) (p_fit_intercept p) /\
    parsed_terms f (p_fit_intercept p) l.
(** the last call of a history that did such a thing *)
Definition last_such (Q : params -> op -> list term -> Prop) (p : params) (h : list op) (l : list term) : Prop :=
  exists a o b, h = a ++ o :: b /\ Q (params_after p a) o l /\
    (forall b1 o' b2 l', b = b1 ++ o' :: b2 -> ~ Q (params_after p (a ++ o :: b1)) o' l').
