(** Specification vocabulary for fits in the user's units. *)
From Verif Require Export M_Std.
From Verif Require Export S_Solver.

(** linear predictor on the raw columns *)
Definition user_eta (u : user) (b0 : R) (b : nat -> R) (i : nat) : R :=
  b0 + rsum (u_p u) (fun j => u_X u i j * b j) + u_off u i.

(** half the weighted deviance plus L1 plus half the L2 form, in the user's coefficients;
    with scale_predictors the penalties apply to the coefficients times [k]
    (the columns' standard deviations, or 1 for a constant column) *)
Definition user_obj (u : user) (k : nat -> R) (b0 : R) (b : nat -> R) : R :=
  / 2 * deviance (u_fam u) (map (fun i => mkobs (u_y u i) (u_w u i) (search_mean (u_fam u) (u_link u) (user_eta u b0 b i))) (seq 0 (u_n u)))
  + / 2 * rsum (u_p u) (fun i => rsum (u_p u) (fun j => (k i * b i) * p2_entry (u_P2 u) i j * (k j * b j)))
  + rsum (u_p u) (fun j => u_P1 u j * Rabs (k j * b j)).
(** the scale of column j: its standard deviation unless (numerically) constant *)
Definition col_scale (u : user) (j : nat) : R :=
  if Rltb (Rabs (u_stds u j)) std_threshold then 1 else u_stds u j.
Definition pen_scale (u : user) : nat -> R := if u_scale u then col_scale u else fun _ => 1.

Definition user_feasible (u : user) (b : nat -> R) : Prop :=
  forall j, (j < u_p u)%nat -> within (u_lb u j) (u_ub u j) (b j).

Definition list_vec (l : list R) : nat -> R := fun i => nth i l 0.

(** Admissible user input after validation: constructible family, responses in its support,
    non-negative weights and P1, symmetric positive semi-definite P2. *)
Definition user_ok (u : user) : Prop :=
  family_ok (u_fam u) /\ (forall i, (i < u_n u)%nat -> support (u_fam u) (u_y u i)) /\
  (forall i, (i < u_n u)%nat -> 0 <= u_w u i) /\ (forall j, 0 <= u_P1 u j) /\
  p2_sym (u_p u) (u_P2 u) /\ p2_psd (u_p u) (u_P2 u).

(** Starting values that the clipping of _get_start_coef makes feasible: the default start when
    0 satisfies the bounds, or any start when every finite bound is 0 (sign constraints). *)
Definition start_ok (u : user) (a : start_arg) : Prop :=
  (a = StartNone /\ forall j, (j < u_p u)%nat -> within (u_lb u j) (u_ub u j) 0) \/
  (forall j x, (j < u_p u)%nat -> u_lb u j = Some x \/ u_ub u j = Some x -> x = 0).

(** A user-scale inequality A b <= c. *)
Definition user_ineq (u : user) (q : ineq) (b : nat -> R) : Prop :=
  forall r, (r < iq_m q)%nat -> rsum (u_p u) (fun j => iq_A q r j * b j) <= iq_b q r.

(** b' M b *)
Definition qform (p : nat) (M : nat -> nat -> R) (b : nat -> R) : R :=
  rsum p (fun i => rsum p (fun j => b i * M i j * b j)).

(** Two data sets pose the same fitting problem: same column means and standard deviations, and
    after standardisation the same objective, gradient and Hessian at every coefficient vector. *)
Definition same_fit_problem (u1 u2 : user) : Prop :=
  (forall j, u_means u1 j = u_means u2 j) /\ (forall j, u_stds u1 j = u_stds u2 j) /\
  forall se P2 v,
    train_obj (std_problem u1 se) P2 v = train_obj (std_problem u2 se) P2 v /\
    (forall k, (k < nc (std_problem u1 se))%nat ->
       score_of (std_problem u1 se) P2 v k = score_of (std_problem u2 se) P2 v k) /\
    (forall k l, exact_hessian (std_problem u1 se) (hrow_of (std_problem u1 se) v) P2 k l
               = exact_hessian (std_problem u2 se) (hrow_of (std_problem u2 se) v) P2 k l).

(** row transformations *)
Definition set_w (w : R) (r : row) : row := mkRow (r_x r) (r_y r) w (r_off r).
Definition drop_zero (rows : list row) : list row := filter (fun r => negb (Reqb (r_w r) 0)) rows.
Definition freq_rows (l : list (nat * row)) : list row := map (fun kr => set_w (INR (fst kr)) (snd kr)) l.
Definition expand_rows (l : list (nat * row)) : list row := flat_map (fun kr => repeat (set_w 1 (snd kr)) (fst kr)) l.
Definition scale_rows (c : R) (rows : list row) : list row := map (fun r => set_w (c * r_w r) r) rows.

(** admissible data for a fit *)
Definition rows_ok (u : user) (rows : list row) : Prop :=
  family_ok (u_fam u) /\ (forall r, In r rows -> support (u_fam u) (r_y r)) /\ (forall j, 0 <= u_P1 u j).
