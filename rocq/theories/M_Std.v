(** Model of the preparation of a fit: weights, penalties, standardisation, starting values,
    and of the way back.  src/glum/_validation.py, _utils.py, _glm.py.  dtype is float64. *)
From Verif Require Export Base M_CD M_Link M_Dist M_Solver.

(** ** Sample weights *)

(** What the user may pass: nothing, a scalar or a vector (1-d). *)
Inductive weight_arg := WNone | WScalar (c : R) | WVector (l : list R).

(** _validation.py 186-217, [check_weights] ([None] = ValueError); the finiteness check of
    scikit-learn is vacuous over R *)
Definition check_weights (a : weight_arg) (n : nat) : option (list R) :=
  match a with
  | WNone => Some (repeat 1 n)
  | WScalar c => if Rleb c 0 then None else Some (repeat c n)
  | WVector l =>
      if negb (Nat.eqb (length l) n) then None
      else if existsb (fun x => Rltb x 0) l then None
      else if Reqb (lsum l) 0 then None
      else Some l
  end.

(** _glm.py 2155-2156: division by the sum *)
Definition normalise_weights (l : list R) : list R := map (fun x => x / lsum l) l.

(** ** Penalties *)

(** P1/P2 arguments: 'identity'/None or an array *)
Inductive p1_arg := P1Identity | P1Array (l : list R).
Inductive p2_arg := P2Identity | P2Array1 (l : list R) | P2Array2 (rows cols : nat) (M : nat -> nat -> R).

(** _glm.py 3227-3264, [setup_p1] *)
Definition setup_p1 (a : p1_arg) (p : nat) (alpha l1_ratio : R) : option (nat -> R) :=
  match a with
  | P1Identity => Some (fun _ => alpha * l1_ratio * 1)
  | P1Array l => if Nat.eqb (length l) p then Some (fun j => alpha * l1_ratio * nth j l 0) else None
  end.
(** _glm.py 3267-3332, [setup_p2]; sparse and dense representations denote the same matrix
    (for a sparse X a 1-d P2 becomes a sparse diagonal matrix, which symmetrisation leaves alone) *)
Definition setup_p2 (a : p2_arg) (p : nat) (alpha l1_ratio : R) : option P2t :=
  match a with
  | P2Identity => Some (P2diag (fun _ => alpha * (1 - l1_ratio) * 1))
  | P2Array1 l => if Nat.eqb (length l) p then Some (P2diag (fun j => alpha * (1 - l1_ratio) * nth j l 0)) else None
  | P2Array2 r c M =>
      if (Nat.eqb r c && Nat.eqb r p)%bool
      then Some (P2mat (fun i j => 1 / 2 * (alpha * (1 - l1_ratio) * M i j + alpha * (1 - l1_ratio) * M j i)))
      else None
  end.
(** P1_no_alpha * alpha, P2_no_alpha * alpha: _glm.py 684-686, 2892-2893 *)
Definition p1_scale (alpha : R) (P1 : nat -> R) : nat -> R := fun j => P1 j * alpha.
Definition p2_scale (alpha : R) (P2 : P2t) : P2t :=
  match P2 with P2diag v => P2diag (fun j => v j * alpha) | P2mat M => P2mat (fun i j => M i j * alpha) end.

(** ** Standardisation *)

(** _utils.py 303-313, [_one_over_var_inf_to_val] with val = 1 and float64 eps = 2^-52:
    10 * sqrt(2^-52) = 10 * 2^-26 *)
Definition std_threshold : R := 10 / 2 ^ 26.
Definition one_over (s : R) : R := if Rltb (Rabs s) std_threshold then 1 else 1 / s.

(** What tabmat's X.standardize(w, center, True) returns (external; its documented contract):
    weighted column means (zeros when not centering) and weighted standard deviations. *)
Definition wmean (n : nat) (w : nat -> R) (x : nat -> R) : R := rsum n (fun i => w i * x i).
Definition col_means (n : nat) (w : nat -> R) (X : nat -> nat -> R) (center : bool) (j : nat) : R :=
  if center then wmean n w (fun i => X i j) else 0.
Definition col_stds (n : nat) (w : nat -> R) (X : nat -> nat -> R) (j : nat) : R :=
  sqrt (rsum n (fun i => w i * (X i j - wmean n w (fun i => X i j)) ^ 2)).
(** The StandardizedMatrix: X * mult + shift with mult = one_over std, shift = - mean * mult *)
Definition std_X (X : nat -> nat -> R) (m s : nat -> R) : nat -> nat -> R :=
  fun i j => X i j * one_over (s j) + - m j * one_over (s j).

(** _utils.py 195-271, [standardize]: bounds, constraint matrix and penalties.
    Dividing an infinite bound by a positive number leaves it infinite. *)
Definition std_bounds (b : bounds) (s : nat -> R) : bounds :=
  fun j => match b j with Some x => Some (x / one_over (s j)) | None => None end.
Definition std_ineq (q : ineq) (s : nat -> R) : ineq :=
  mkIneq (iq_m q) (fun r j => iq_A q r j * one_over (s j)) (iq_b q).
Definition std_P1 (scale : bool) (P1 s : nat -> R) : nat -> R :=
  if scale then P1 else fun j => P1 j * one_over (s j).
Definition std_P2 (scale : bool) (P2 : P2t) (s : nat -> R) : P2t :=
  if scale then P2
  else match P2 with
       | P2diag v => P2diag (fun j => v j * (one_over (s j)) ^ 2)
       | P2mat M => P2mat (fun i j => one_over (s i) * M i j * one_over (s j))
       end.

(** _utils.py 286-300, [unstandardize]; [s = None] is the branch col_stds is None.
    Result: intercept and coefficients. *)
Definition unstandardize (p : nat) (m : nat -> R) (s : option (nat -> R)) (intercept : R) (coef : nat -> R) : R * (nat -> R) :=
  match s with
  | None => (intercept - rsum p (fun j => m j * coef j), coef)
  | Some s => (intercept - rsum p (fun j => m j * one_over (s j) * coef j), fun j => coef j * one_over (s j))
  end.

(** _utils.py 274-283, [standardize_warm_start], on the pair (intercept, coefficients) *)
Definition standardize_warm_start (p : nat) (m : nat -> R) (s : option (nat -> R)) (c0 : R) (coef : nat -> R) : R * (nat -> R) :=
  match s with
  | None => (c0 + rsum p (fun j => m j * coef j), coef)
  | Some s => let coef' j := coef j * s j in
              (c0 + rsum p (fun j => m j * one_over (s j) * coef' j), coef')
  end.

(** ** Starting values, _glm.py 248-317 *)

(** the vector handed to the solver: intercept first when there is one *)
Definition pack (ic : bool) (c0 : R) (coef : nat -> R) : nat -> R :=
  fun k => if ic then match k with O => c0 | S j => coef j end else coef k.
Definition unpack (ic : bool) (v : nat -> R) : R * (nat -> R) :=
  if ic then (v 0%nat, fun j => v (S j)) else (0, v).

(** 298-315: np.maximum / np.minimum with the bounds as given by the USER (self.lower_bounds);
    None bounds and infinite entries do nothing.  The test np.any only decides about the warning. *)
Definition clip_lo (b : option R) (x : R) : R := match b with Some l => Rmax x l | None => x end.
Definition clip_hi (b : option R) (x : R) : R := match b with Some u => Rmin x u | None => x end.
Definition clip_start (ic : bool) (lb ub : bounds) (c : nat -> R) : nat -> R :=
  fun k => if Nat.ltb k (ioff ic) then c k
           else let j := (k - ioff ic)%nat in clip_hi (ub j) (clip_lo (lb j) (c k)).

(** where the start comes from: a previous fit (warm_start), nothing, or start_params *)
Inductive start_arg :=
| StartWarm (c0 : R) (coef : nat -> R)
| StartNone
| StartParams (v : nat -> R).

(** _glm.py 248-317, [_get_start_coef]; [guess] is the value of guess_intercept *)
Definition get_start_coef (p : nat) (ic : bool) (m s : nat -> R) (guess : R) (lb ub : bounds) (a : start_arg) : nat -> R :=
  let std v := if ic then let '(c0, c) := unpack true v in
                          let '(c0', c') := standardize_warm_start p m (Some s) c0 c in pack true c0' c'
               else v in
  let v := match a with
           | StartWarm c0 coef => std (pack ic c0 coef)
           | StartNone => pack ic guess (fun _ => 0)
           | StartParams v => std v
           end in
  clip_start ic lb ub v.

(** ** The problem handed to the solver and the user's result, _glm.py 2737-2906 (single alpha) *)

(** The user's data and hyper-parameters, after validation: [u_w] are normalised weights, [u_P1],
    [u_P2] the results of setup_p1/setup_p2 multiplied by alpha. *)
Record user := mkUser {
  u_n : nat; u_p : nat; u_X : nat -> nat -> R; u_y : nat -> R; u_w : nat -> R; u_off : nat -> R;
  u_ic : bool; u_fam : family; u_link : link; u_P1 : nat -> R; u_P2 : P2t;
  u_lb : bounds; u_ub : bounds; u_scale : bool }.

(** solver settings *)
Record settings := mkSettings {
  se_max_iter : Z; se_max_inner : nat; se_gtol : R; se_stol : option R; se_approx : R;
  se_fixed_tol : option R; se_random : bool; se_has_bounds : bool; se_large : R; se_eps : R }.

Definition u_means (u : user) := col_means (u_n u) (u_w u) (u_X u) (u_ic u).
Definition u_stds (u : user) := col_stds (u_n u) (u_w u) (u_X u).

(** _glm.py 2781-2802 then IRLSData.  alpha multiplies the penalties after standardisation in the
    code (P1_no_alpha * alpha); multiplication by inv_col_stds and by alpha commute. *)
Definition std_problem (u : user) (se : settings) : problem :=
  mkPb (u_n u) (u_p u) (std_X (u_X u) (u_means u) (u_stds u)) (u_y u) (u_w u) (u_off u) (u_ic u)
       (u_fam u) (u_link u) (std_P1 (u_scale u) (u_P1 u) (u_stds u))
       (se_max_iter se) (se_max_inner se) (se_gtol se) (se_stol se) (se_approx se) (se_fixed_tol se) (se_random se)
       (std_bounds (u_lb u) (u_stds u)) (std_bounds (u_ub u) (u_stds u)) (se_has_bounds se) (se_large se) (se_eps se).
Definition std_problem_P2 (u : user) : P2t := std_P2 (u_scale u) (u_P2 u) (u_stds u).

(** _glm.py 2897-2906: intercept_ and coef_ from the solver's vector *)
Definition user_result (u : user) (v : nat -> R) : R * (nat -> R) :=
  let '(c0, c) := unpack (u_ic u) v in unstandardize (u_p u) (u_means u) (Some (u_stds u)) c0 c.

(** fit with solver irls-cd: result and warning flag *)
Definition fit_cd (u : user) (se : settings) (seed : Z -> N) (guess : R) (a : start_arg) : option (R * (nat -> R) * bool) :=
  let pb := std_problem u se in
  let start := get_start_coef (u_p u) (u_ic u) (u_means u) (u_stds u) guess (u_lb u) (u_ub u) a in
  match irls_solver pb (cd_solver pb seed) (std_problem_P2 u) start with
  | Some (s, warned) => Some (user_result u (st_coef s), warned)
  | None => None
  end.

(** ** fit on a table of rows *)

(** one row of the training data as the user passes it (sample_weight not normalised) *)
Record row := mkRow { r_x : nat -> R; r_y : R; r_w : R; r_off : R }.
Definition row0 : row := mkRow (fun _ => 0) 0 0 0.
(** the validated data of a fit: _glm.py 2087-2164 with the normalisation of 2155-2156 *)
Definition with_rows (u : user) (rows : list row) : user :=
  let w := normalise_weights (map r_w rows) in
  mkUser (length rows) (u_p u) (fun i => r_x (nth i rows row0)) (fun i => r_y (nth i rows row0))
         (fun i => nth i w 0) (fun i => r_off (nth i rows row0))
         (u_ic u) (u_fam u) (u_link u) (u_P1 u) (u_P2 u) (u_lb u) (u_ub u) (u_scale u).
(** fit (irls-cd, single alpha) with the default start computed by guess_intercept,
    _glm.py 260-283; [None] = an exception.  [has_off = false] is offset=None (then r_off is 0). *)
Definition fit_rows (u : user) (se : settings) (seed : Z -> N) (has_off : bool) (rows : list row) (a : start_arg)
    : option (R * (nat -> R) * bool) :=
  let u' := with_rows u rows in
  match a, u_ic u with
  | StartNone, true =>
      match guess_intercept (u_fam u) (u_link u) has_off
              (map (fun i => mkgrow (u_y u' i) (u_w u' i) (u_off u' i)) (seq 0 (u_n u'))) with
      | Some g => fit_cd u' se seed g a
      | None => None
      end
  | _, _ => fit_cd u' se seed 0 a
  end.
