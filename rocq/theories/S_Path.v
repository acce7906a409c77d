(** Specification vocabulary for regularisation paths and prediction. *)
From Verif Require Export M_Path.
From Verif Require Export S_Std.
Local Open Scope R_scope.

(** The user's problem with both penalties multiplied by alpha. *)
Definition with_alpha (u : user) (alpha : R) : user :=
  mkUser (u_n u) (u_p u) (u_X u) (u_y u) (u_w u) (u_off u) (u_ic u) (u_fam u) (u_link u)
    (fun j => u_P1 u j * alpha)
    (match u_P2 u with P2diag v => P2diag (fun j => v j * alpha) | P2mat M => P2mat (fun i j => M i j * alpha) end)
    (u_lb u) (u_ub u) (u_scale u).

(** weighted mean of the response *)
Definition user_ybar (u : user) : R := rsum (u_n u) (fun i => u_w u i * u_y u i) / rsum (u_n u) (u_w u).
(** The null model: an intercept whose mean is the weighted mean of the response (or no intercept). *)
Definition null_model (u : user) (g : R) : Prop :=
  if u_ic u then raw_inverse (u_link u) g = user_ybar u else g = 0.
(** The null model's means are admissible and outside the region where the inverse link clips; with an
    intercept there is no offset. *)
Definition null_regular (u : user) : Prop :=
  if u_ic u
  then (forall i, (i < u_n u)%nat -> u_off u i = 0) /\ mean_domain (u_link u) (user_ybar u) /\
       mean_range (u_fam u) (user_ybar u) /\ in_band (u_link u) (user_ybar u)
  else forall i, (i < u_n u)%nat ->
       mean_range (u_fam u) (raw_inverse (u_link u) (u_off u i)) /\ in_band (u_link u) (raw_inverse (u_link u) (u_off u i)).

(** (b0, b) minimises the user's objective over the feasible coefficients. *)
Definition user_optimal (u : user) (b0 : R) (b : nat -> R) : Prop :=
  forall b0' b', user_feasible u b' -> (u_ic u = false -> b0' = 0) ->
    user_obj u (pen_scale u) b0 b <= user_obj u (pen_scale u) b0' b'.

(** zero lies strictly inside the bounds *)
Definition zero_interior (u : user) : Prop :=
  exists d, 0 < d /\ forall j t, (j < u_p u)%nat -> Rabs t <= d -> within (u_lb u j) (u_ub u j) t.

(** position of the smallest distance, smallest position first *)
Definition first_nearest (alphas : list R) (a : R) (i : nat) : Prop :=
  (i < length alphas)%nat /\
  (forall k, (k < length alphas)%nat -> Rabs (nth i alphas 0 - a) <= Rabs (nth k alphas 0 - a)) /\
  (forall k, (k < i)%nat -> Rabs (nth i alphas 0 - a) < Rabs (nth k alphas 0 - a)).

(** the row's linear predictor and mean for coefficients (b0, b) *)
Definition eta_row (p : nat) (b0 : R) (b : nat -> R) (x : nat -> R) (o : R) : R := b0 + rsum p (fun j => x j * b j) + o.

(** The smallest alpha of the automatic grid (documented): min_alpha, or alpha_max times min_alpha_ratio,
    whose default is 1e-6 when there are at least as many rows as columns, else 1e-2. *)
Definition smallest_alpha (min_alpha ratio : option R) (n p : nat) (amax : R) : R :=
  match min_alpha, ratio with
  | Some m, _ => m
  | None, Some r => amax * r
  | None, None => if Nat.leb p n then amax / 1000000 else amax / 100
  end.
(** parameters for which the grid makes sense *)
Definition grid_params (min_alpha ratio : option R) : Prop :=
  match min_alpha, ratio with
  | Some m, _ => 0 < m
  | None, Some r => 0 < r < 1
  | None, None => True
  end.

(** Row k of a fitted path is the k-th solve, started where the previous one ended. *)
Definition chained (solve1 : R -> (nat -> R) -> option sol) (alphas : list R) (start : nat -> R) (sols : list sol) : Prop :=
  length sols = length alphas /\
  forall k, (k < length alphas)%nat -> exists s, nth_error sols k = Some s /\
    solve1 (nth k alphas 0) (match k with O => start | S j => match nth_error sols j with Some s' => so_coef s' | None => start end end) = Some s.

(** (b0, b) is optimal for the user's objective up to [tol] times the distance (in standardized units)
    to the competitor. *)
Definition user_near_optimal (u : user) (tol : R) (b0 : R) (b : nat -> R) : Prop :=
  forall b0' b' D, user_feasible u b' -> (u_ic u = false -> b0' = 0) -> 0 <= D ->
    (u_ic u = true -> Rabs (b0' - b0 + rsum (u_p u) (fun j => u_means u j * (b' j - b j))) <= D) ->
    (forall j, (j < u_p u)%nat -> col_scale u j * Rabs (b' j - b j) <= D) ->
    user_obj u (pen_scale u) b0 b <= user_obj u (pen_scale u) b0' b' + tol * D.

(** Offset and weight of row i, and admissible arguments for n rows. *)
Definition offset_at (o : offset_arg) (i : nat) : R := match o with ONone => 0 | OScalar c => c | OVector l => nth i l 0 end.
Definition offset_fits (o : offset_arg) (n : nat) : Prop := match o with OVector l => length l = n | _ => True end.
Definition weight_at (s : weight_arg) (i : nat) : R := match s with WNone => 1 | WScalar c => c | WVector l => nth i l 0 end.
Definition weights_valid (s : weight_arg) (n : nat) : Prop :=
  match s with
  | WNone => True
  | WScalar c => 0 < c
  | WVector l => length l = n /\ (forall x, In x l -> 0 <= x) /\ exists x, In x l /\ x <> 0
  end.
(** prediction for one row *)
Definition predicted (m : fitted_model) (b : R * (nat -> R)) (x : nat -> R) (o w : R) : R :=
  inverse1 (m_link m) (eta_row (m_p m) (fst b) (snd b) x o) * w.
Definition xrow0 : nat -> R := fun _ => 0.

(** position [z] of a sequence as Python counts: from the front, or from the end if negative *)
Definition entry_at {A} (l : list A) (z : Z) (x : A) : Prop :=
  exists k, nth_error l k = Some x /\ (z = Z.of_nat k \/ z = Z.of_nat k - Z.of_nat (length l))%Z.
(** the coefficients a request addresses: the current ones, or the entry of the path *)
Definition selected (m : fitted_model) (idx : sel Z) (b : R * (nat -> R)) : Prop :=
  match idx with SelNone => b = m_cur m | SelOne z => entry_at (m_path m) z b | SelMany _ => False end.
