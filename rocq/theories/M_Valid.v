(** Model of the validation of arguments and hyper-parameters and of the choice of the solver.
    src/glum/_validation.py 94-217, src/glum/_glm.py 364-430, 519-667, 1796-1934, 2626-2661, 2731-2935,
    src/glum/_glm_cv.py 492-690.  Python type checks (isinstance) are not modelled: arguments have the
    annotated types. *)
From Verif Require Export Base M_Link M_Dist M_Std.
From Coq Require Import String List.
Import ListNotations.
Local Open Scope R_scope.

(** ** Array arguments: None, a scalar, or an array of dimension 1 or 2 (rows of equal width [w]) *)
Inductive array_arg (A : Type) := ArgNone | ArgScalar (c : A) | ArgVec (l : list A) | ArgMat (w : nat) (rows : list (list A)).
Arguments ArgNone {A}. Arguments ArgScalar {A}. Arguments ArgVec {A}. Arguments ArgMat {A}.
(** scikit-learn's check_array(ensure_2d=False): at least one sample *)
Definition nonempty {A} (l : list A) : bool := match l with [] => false | _ => true end.

(** _validation.py 94-118, [check_bounds]; outer [None] = raises, [Some None] = returns None *)
Definition check_bounds {A} (b : array_arg A) (p : nat) : option (option (list A)) :=
  match b with
  | ArgNone => Some None
  | ArgScalar c => Some (Some (repeat c p))
  | ArgVec l => if (nonempty l && Nat.eqb (length l) p)%bool then Some (Some l) else None
  | ArgMat _ _ => None
  end.
(** _validation.py 156-183, [check_offset] *)
Definition check_offset {A} (o : array_arg A) (n : nat) : option (option (list A)) :=
  match o with
  | ArgNone => Some None
  | ArgScalar c => Some (Some (repeat c n))
  | ArgVec l => if (nonempty l && Nat.eqb (length l) n)%bool then Some (Some l) else None
  | ArgMat _ _ => None
  end.
(** _validation.py 121-153, [check_inequality_constraints]; result (A, b) with the rows of A *)
Definition check_inequality_constraints {A} (a b : array_arg A) (p : nat) : option (option (list (list A) * list A)) :=
  match a, b with
  | ArgNone, _ => Some None
  | _, ArgNone => Some None
  | ArgMat w rows, ArgVec l =>
      if (nonempty rows && Nat.ltb 0 w && nonempty l)%bool then
        if negb (Nat.eqb w p) then None
        else if negb (Nat.eqb (length rows) (length l)) then None
        else Some (Some (rows, l))
      else None
  | _, _ => None   (* A not 2-dimensional; b a scalar (check_array refuses) or not 1-dimensional *)
  end.
(** fit, _glm.py 2784-2786: with both bounds given, no lower bound above the upper one ([ltb] is < on
    extended reals); absent in _glm_cv.py *)
Definition bounds_ordered {A} (ltb : A -> A -> bool) (lo up : option (list A)) : bool :=
  match lo, up with
  | Some l, Some u => negb (existsb (fun ab => ltb (snd ab) (fst ab)) (combine l u))
  | _, _ => true
  end.

(** ** Hyper-parameters *)
Inductive solver := SAuto | SClosed | SLs | SMono | SLbfgs | SCd | STrust.
(** _glm.py 1801-1824: the accepted strings (newton-cg and everything else raises) *)
Definition parse_solver (s : string) : option solver :=
  if String.eqb s "auto" then Some SAuto else if String.eqb s "closed-form" then Some SClosed
  else if String.eqb s "irls-ls" then Some SLs else if String.eqb s "irls-ls-monotonic" then Some SMono
  else if String.eqb s "lbfgs" then Some SLbfgs else if String.eqb s "irls-cd" then Some SCd
  else if String.eqb s "trust-constr" then Some STrust else None.
(** GeneralizedLinearRegressor with alpha_search False/True, GeneralizedLinearRegressorCV *)
Inductive mode := Single | Search | CrossVal.
(** alpha: None, number, list, numpy array *)
Inductive alpha_arg := AlphaNone | AlphaScalar (a : R) | AlphaList (l : list R) | AlphaArray (l : list R).
Inductive l1_arg := L1Scalar (r : R) | L1List (l : list R).
(** P1: 'identity', None, array *)
Inductive pen_arg := PenIdentity | PenNone | PenArray (l : list R).

(** [h_alphas]: the argument alphas (deprecated in GeneralizedLinearRegressor);
    flags [h_lower], ...: the argument is not None; [h_mono]: monotonic_constraints as name/direction pairs *)
Record hyper := mkHyper {
  h_mode : mode; h_family : family; h_link : link; h_solver : string;
  h_alpha : alpha_arg; h_alphas : option (list R); h_l1 : l1_arg; h_P1 : pen_arg;
  h_intercept : bool; h_scale : bool; h_max_iter : Z; h_gtol : option R; h_stol : option R; h_selection : string;
  h_lower : bool; h_upper : bool; h_A : bool; h_b : bool; h_mono : option (list (string * string)); h_formula : bool;
  h_check : bool }.

Definition l1_values (a : l1_arg) : list R := match a with L1Scalar r => [r] | L1List l => l end.
Definition pos_or_none (o : option R) : bool := match o with None => true | Some v => Rltb 0 v end.
Definition in_unit (r : R) : bool := (negb (Rltb r 0) && negb (Rltb 1 r))%bool.

(** _glm.py 2626-2661 and _glm_cv.py 492-505: the mode-specific part *)
Definition validate_mode (h : hyper) : bool :=
  match h_mode h with
  | Search => match h_alpha h with
              | AlphaNone => true
              | AlphaScalar _ => false
              | AlphaList l | AlphaArray l => negb (existsb (fun a => Rltb a 0) l)
              end && match h_l1 h with L1Scalar r => in_unit r | L1List _ => false end
  | Single => match h_alpha h with AlphaNone => true | AlphaScalar a => negb (Rltb a 0) | _ => false end
              && match h_l1 h with L1Scalar r => in_unit r | L1List _ => false end
  | CrossVal => match h_alphas h with None => true | Some l => negb (existsb (fun a => Rltb a 0) l) end
                && negb (existsb (fun r => Rltb r 0) (l1_values (h_l1 h))) && negb (existsb (fun r => Rltb 1 r) (l1_values (h_l1 h)))
  end%bool.
Definition solver_in (s : solver) (l : list solver) : bool :=
  existsb (fun t => match s, t with
                    | SAuto, SAuto | SClosed, SClosed | SLs, SLs | SMono, SMono | SLbfgs, SLbfgs | SCd, SCd | STrust, STrust => true
                    | _, _ => false end) l.
(** _glm.py 1796-1934, [_validate_hyperparameters] (None is not in the list of solvers; np.asarray(None) >= 0
    raises a TypeError) *)
Definition validate_base (h : hyper) : bool :=
  match parse_solver (h_solver h) with
  | None => false
  | Some s =>
    let bounds := (h_lower h || h_upper h)%bool in let ineq := (h_A h || h_b h)%bool in
    let mono := match h_mono h with None => false | Some _ => true end in
    (Z.ltb 0 (h_max_iter h) && pos_or_none (h_gtol h) && pos_or_none (h_stol h)
     && (String.eqb (h_selection h) "cyclic" || String.eqb (h_selection h) "random")
     && negb (h_scale h && negb (h_intercept h))
     && negb (bounds && negb (solver_in s [SAuto; SCd]))
     && negb (ineq && negb (solver_in s [SAuto; STrust; SMono]))
     && negb (mono && negb (solver_in s [SAuto; STrust; SMono]))
     && negb (mono && existsb (fun r => Rltb 0 r) (l1_values (h_l1 h)))
     && negb (ineq && bounds)
     && negb ((h_A h && negb (h_b h)) || (negb (h_A h) && h_b h))
     && match h_mono h with
        | None => true
        | Some m => negb ineq && h_formula h && nonempty m
                    && forallb (fun vd => String.eqb (snd vd) "increasing" || String.eqb (snd vd) "decreasing") m
        end
     && (if h_check h then match h_P1 h with
                           | PenIdentity => true
                           | PenNone => false
                           | PenArray l => forallb (fun x => Rleb 0 x) l
                           end
         else true))%bool
  end.
Definition validate (h : hyper) : bool := (validate_mode h && validate_base h)%bool.

(** ** The choice of the solver, _glm.py 386-414 *)
Definition is_normal_identity (h : hyper) : bool :=
  match h_family h, h_link h with NormalF, IdentityL => true | _, _ => false end.
Definition l1_all_zero (h : hyper) : bool := forallb (fun r => Reqb r 0) (l1_values (h_l1 h)).
(** hasattr(self, "alpha") and self.alpha == 0 and not self.alpha_search; [None]: the truth value of an
    array of more than one element (or, here, none) is asked for *)
Definition alpha_is_zero (h : hyper) : option bool :=
  match h_mode h with
  | CrossVal => Some false
  | m => match h_alpha h with
         | AlphaNone | AlphaList _ => Some false
         | AlphaScalar a => Some (Reqb a 0 && match m with Single => true | _ => false end)%bool
         | AlphaArray [a] => Some (Reqb a 0 && match m with Single => true | _ => false end)%bool
         | AlphaArray _ => None
         end
  end.
Definition choose_solver (h : hyper) : option solver :=
  match parse_solver (h_solver h) with
  | Some SAuto =>
      match h_mono h with
      | Some _ => Some SMono
      | None =>
        if (h_A h && h_b h)%bool then Some STrust
        else if (negb (h_lower h) && negb (h_upper h))%bool then
          if l1_all_zero h then (if is_normal_identity h then Some SClosed else Some SLs)
          else match alpha_is_zero h with
               | None => None
               | Some true => if is_normal_identity h then Some SClosed else Some SLs
               | Some false => Some SCd
               end
        else Some SCd
      end
  | o => o
  end.
(** _glm.py 416-422 *)
Definition gradient_tol (h : hyper) (s : solver) : R :=
  match h_gtol h with
  | Some t => t
  | None => match s with STrust => / 10 ^ 8 | _ => / 10 ^ 4 end
  end.

(** weights of the L1 penalty, before standardisation (which multiplies them by positive factors) *)
Definition l1_weights (h : hyper) (p : nat) : list R := match h_P1 h with PenArray l => l | _ => repeat 1 p end.
(** one call of _solve, _glm.py 537-577, 608-609: does it raise before solving? *)
Definition solve_ok (h : hyper) (p : nat) (s : solver) (alpha l1 : R) : bool :=
  let ineq := ((h_A h && h_b h) || match h_mono h with Some _ => true | None => false end)%bool in
  match s with
  | SClosed => (is_normal_identity h && forallb (fun w => Reqb (w * l1 * alpha) 0) (l1_weights h p)
                && negb (h_lower h) && negb (h_upper h) && negb ineq)%bool
  | SMono => ineq
  | _ => true
  end.
(** the alphas that are solved for, per l1_ratio.  [auto_path]: the path generated by _get_alpha_path.
    _glm.py 2846-2864, 2891-2894; _glm_cv.py 603-626 *)
Definition alphas_used (auto_path : R -> list R) (h : hyper) (l1 : R) : list R :=
  match h_mode h with
  | Single => match h_alpha h with AlphaScalar a => [a] | _ => [0] end
  | Search => match h_alphas h with
              | Some l => l
              | None => match h_alpha h with AlphaList l | AlphaArray l => l | _ => auto_path l1 end
              end
  | CrossVal => match h_alphas h with Some l => l | None => auto_path l1 end
  end.
(** _glm.py 2895-2900: alpha > 0, l1_ratio > 0 and another solver than irls-cd raises, but only if
    alpha_search is False *)
Definition l1_refused (h : hyper) (s : solver) (alpha l1 : R) : bool :=
  match h_mode h with
  | Single => (Rltb 0 alpha && Rltb 0 l1 && negb (solver_in s [SCd]))%bool
  | _ => false
  end.
(** which solver a call of fit ends up using, if it does not raise ([p]: number of columns) *)
Definition configure (auto_path : R -> list R) (h : hyper) (p : nat) : option solver :=
  if negb (validate h) then None
  else match choose_solver h with
  | None => None
  | Some s =>
      if forallb (fun l1 => forallb (fun a => negb (l1_refused h s a l1) && solve_ok h p s a l1)%bool (alphas_used auto_path h l1)) (l1_values (h_l1 h))
      then Some s else None
  end.
