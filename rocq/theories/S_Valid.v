(** Specification vocabulary for validation and the choice of the solver. *)
From Verif Require Export M_Valid.
From Coq Require Import String List.
Import ListNotations.
Local Open Scope R_scope.

(** an argument that can stand for a vector of n entries: nothing, one number for all, or n numbers *)
Definition fits {A} (n : nat) (a : array_arg A) : Prop :=
  match a with ArgNone | ArgScalar _ => True | ArgVec l => length l = n | ArgMat _ _ => False end.
Definition entry {A} (a : array_arg A) (i : nat) : option A :=
  match a with ArgScalar c => Some c | ArgVec l => nth_error l i | _ => None end.

(** what is asked for *)
(** the alphas the user asks for: [alpha] for a single fit (0 if it is not given), [alpha] or the
    automatic path for a search, [alphas] or the automatic path for cross-validation *)
Definition alpha_asked (auto_path : R -> list R) (h : hyper) (l1 a : R) : Prop :=
  match h_mode h with
  | Single => h_alpha h = AlphaScalar a \/ ((forall x, h_alpha h <> AlphaScalar x) /\ a = 0)
  | Search => (exists l, h_alphas h = Some l /\ In a l) \/
              (h_alphas h = None /\ exists l, (h_alpha h = AlphaList l \/ h_alpha h = AlphaArray l) /\ In a l) \/
              (h_alphas h = None /\ (h_alpha h = AlphaNone \/ exists x, h_alpha h = AlphaScalar x) /\ In a (auto_path l1))
  | CrossVal => (exists l, h_alphas h = Some l /\ In a l) \/ (h_alphas h = None /\ In a (auto_path l1))
  end.
Definition l1_requested (h : hyper) (p : nat) (alpha l1 : R) : Prop :=
  0 < alpha /\ 0 < l1 /\ exists w, In w (l1_weights h p) /\ w <> 0.
Definition bounds_requested (h : hyper) : Prop := h_lower h = true \/ h_upper h = true.
Definition inequalities_requested (h : hyper) : Prop := (h_A h = true /\ h_b h = true) \/ h_mono h <> None.
(** which solvers take account of it (the objective and constraints they are given, _glm.py 541-666) *)
Definition handles_l1 (s : solver) : Prop := s = SCd.
Definition handles_bounds (s : solver) : Prop := s = SCd.
Definition handles_inequalities (s : solver) : Prop := s = STrust \/ s = SMono.

(** alpha = 0 for a single fit *)
Definition unpenalised (h : hyper) : Prop := h_mode h = Single /\ h_alpha h = AlphaScalar 0.
Definition no_l1_ratio (h : hyper) : Prop := forall r, In r (l1_values (h_l1 h)) -> r = 0.
Definition unconstrained (h : hyper) : Prop := h_lower h = false /\ h_upper h = false /\ h_A h = false /\ h_b h = false /\ h_mono h = None.
(** alpha is a numpy array of length other than one *)
Definition alpha_is_array (h : hyper) : Prop := exists l, h_alpha h = AlphaArray l /\ length l <> 1%nat.

(** Admissible hyper-parameters. *)
Definition known_solver (s : string) : Prop :=
  In s ["auto"; "closed-form"; "irls-ls"; "irls-ls-monotonic"; "lbfgs"; "irls-cd"; "trust-constr"]%string.
Definition constrained_solver (s : string) : Prop := In s ["auto"; "trust-constr"; "irls-ls-monotonic"]%string.
Definition admissible_penalty (h : hyper) : Prop :=
  match h_mode h with
  | Single => (h_alpha h = AlphaNone \/ exists a, h_alpha h = AlphaScalar a /\ 0 <= a) /\ exists r, h_l1 h = L1Scalar r /\ 0 <= r <= 1
  | Search => (h_alpha h = AlphaNone \/ exists l, (h_alpha h = AlphaList l \/ h_alpha h = AlphaArray l) /\ forall a, In a l -> 0 <= a) /\
              exists r, h_l1 h = L1Scalar r /\ 0 <= r <= 1
  | CrossVal => (forall l, h_alphas h = Some l -> forall a, In a l -> 0 <= a) /\ forall r, In r (l1_values (h_l1 h)) -> 0 <= r <= 1
  end.
Record admissible (h : hyper) : Prop := {
  ad_penalty : admissible_penalty h;
  ad_solver : known_solver (h_solver h);
  ad_iter : (0 < h_max_iter h)%Z;
  ad_gtol : forall t, h_gtol h = Some t -> 0 < t;
  ad_stol : forall t, h_stol h = Some t -> 0 < t;
  ad_sel : h_selection h = "cyclic"%string \/ h_selection h = "random"%string;
  ad_scale : h_scale h = true -> h_intercept h = true;
  ad_bounds : bounds_requested h -> h_solver h = "auto"%string \/ h_solver h = "irls-cd"%string;
  ad_ineq : h_A h = true -> constrained_solver (h_solver h) /\ h_lower h = false /\ h_upper h = false;
  ad_pair : h_A h = h_b h;
  ad_mono : forall m, h_mono h = Some m ->
    constrained_solver (h_solver h) /\ no_l1_ratio h /\ h_A h = false /\ h_formula h = true /\ m <> [] /\
    forall v d, In (v, d) m -> d = "increasing"%string \/ d = "decreasing"%string;
  ad_P1 : h_check h = true -> h_P1 h = PenIdentity \/ exists l, h_P1 h = PenArray l /\ forall x, In x l -> 0 <= x }.
