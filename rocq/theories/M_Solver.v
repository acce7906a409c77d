(** Model of src/glum/_solvers.py: the quadratic approximation, Hessian maintenance,
    active set, line search and the IRLS loops.
    Arrays indexed by rows or coefficients are functions [nat -> R] plus a dimension;
    doubles are reals; the dtype is float64. *)
From Coq Require Export ZArith.
From Verif Require Export Base M_CD M_Link M_Dist.

(** P2 is either a vector (diagonal) or a matrix.  _solvers.py 477-484, 711-723. *)
Inductive P2t := P2diag (v : nat -> R) | P2mat (M : nat -> nat -> R).
Definition p2_entry (P : P2t) (i j : nat) : R :=
  match P with P2diag v => if Nat.eqb i j then v i else 0 | P2mat M => M i j end.

(** IRLSData, _solvers.py 440-495.  offset=None is the zero vector (adding it is the
    identity).  step_size_tol=None and fixed_inner_tol=None are options. *)
Record problem := mkPb {
  pb_n : nat; pb_p : nat; pb_X : nat -> nat -> R;
  pb_y : nat -> R; pb_w : nat -> R; pb_off : nat -> R; pb_ic : bool;
  pb_fam : family; pb_link : link; pb_P1 : nat -> R;
  pb_max_iter : Z; pb_max_inner : nat; pb_gtol : R; pb_stol : option R;
  pb_approx : R; pb_fixed_tol : option R; pb_random : bool;
  pb_lb : bounds; pb_ub : bounds; pb_has_bounds : bool;
  pb_large : R; pb_eps : R }.

(** length of the coefficient vector *)
Definition nc (pb : problem) : nat := (ioff (pb_ic pb) + pb_p pb)%nat.

(** _linalg.py 51-65, [_safe_lin_pred] without the offset, row i.  The restriction of the
    product to the non-zero coefficients does not change the sum. *)
Definition lin_pred (pb : problem) (c : nat -> R) (i : nat) : R :=
  (if pb_ic pb then c 0%nat else 0)
  + rsum (pb_p pb) (fun j => pb_X pb i j * c (ioff (pb_ic pb) + j)%nat).

(** _solvers.py 711-723 *)
Definition make_coef_P2 (pb : problem) (P2 : P2t) (c : nat -> R) (k : nat) : R :=
  if Nat.ltb k (ioff (pb_ic pb)) then 0
  else let j := (k - ioff (pb_ic pb))%nat in
       match P2 with
       | P2diag v => c k * v j
       | P2mat M => rsum (pb_p pb) (fun l => c (ioff (pb_ic pb) + l)%nat * M l j)
       end.

(** linalg.norm(P1 * coef[intercept_offset:], ord=1) *)
Definition l1_pen (pb : problem) (c : nat -> R) : R :=
  rsum (pb_p pb) (fun j => Rabs (pb_P1 pb j * c (ioff (pb_ic pb) + j)%nat)).

Definition dot (n : nat) (a b : nat -> R) : R := rsum n (fun i => a i * b i).
Definition vadd (a b : nat -> R) : nat -> R := fun i => a i + b i.
Definition vscale (k : R) (a : nat -> R) : nat -> R := fun i => k * a i.

(** rows handed to the family's line-search kernel *)
Definition srows (pb : problem) (eta xd : nat -> R) : list srow :=
  map (fun i => mksrow (eta i) (xd i) (pb_y pb i) (pb_w pb i)) (seq 0 (pb_n pb)).
Definition vec (l : list R) : nat -> R := fun i => nth i l 0.

(** _solvers.py 663-684, [eta_mu_objective]: (eta, mu, obj_val, coef_P2) *)
Definition eta_mu_objective (pb : problem) (P2 : P2t) (xd : nat -> R) (factor : R)
    (c cur_eta : nat -> R) : (nat -> R) * (nat -> R) * R * (nat -> R) :=
  let '(eta, mu, dev) := eta_mu_deviance (pb_fam pb) (pb_link pb) factor (srows pb cur_eta xd) in
  let cP2 := make_coef_P2 pb P2 c in
  (vec eta, vec mu, / 2 * dev + l1_pen pb c + / 2 * dot (nc pb) cP2 c, cP2).

(** gradient_rows @ X with the intercept entry in front: _solvers.py 704-706, 823-825 *)
Definition xt_vec (pb : problem) (g : nat -> R) (k : nat) : R :=
  if Nat.ltb k (ioff (pb_ic pb)) then rsum (pb_n pb) g
  else rsum (pb_n pb) (fun i => g i * pb_X pb i (k - ioff (pb_ic pb))%nat).

(** _solvers.py 687-708, [update_quadratic]: (gradient_rows, score, hessian_rows) *)
Definition update_quadratic (pb : problem) (eta mu cP2 : nat -> R)
    : (nat -> R) * (nat -> R) * (nat -> R) :=
  let g := fun i => gradient_row (pb_fam pb) (pb_link pb) (pb_y pb i) (pb_w pb i) (eta i) (mu i) in
  let h := fun i => hessian_row (pb_fam pb) (pb_link pb) (pb_y pb i) (pb_w pb i) (eta i) (mu i) in
  (g, fun k => xt_vec pb g k - cP2 k, h).

(** The solver state, _solvers.py 498-557.  [st_P2] is data.P2, which the monotonic solver
    replaces during the run.  Run times and verbose output are not modelled. *)
Record state := mkSt {
  st_coef : nat -> R; st_step : nat -> R; st_eta : nat -> R; st_mu : nat -> R; st_obj : R;
  st_score : nat -> R; st_hrows : nat -> R; st_old_hrows : nat -> R;
  st_hess : nat -> nat -> R; st_hinit : bool;
  st_act : list nat; st_old_act : list nat;
  st_conv : bool; st_norm : R; st_max : option R; st_itol : R;
  st_niter : Z; st_ncycles : nat; st_nls : nat;
  st_P2 : P2t;
  st_diag : list (Z * R * R);          (* n_iter, convergence, objective of each record *)
  st_lswarn : nat }.                   (* number of "Line search failed" warnings so far *)

(** _solvers.py 591-642, [check_convergence]: (converged, norm, max, inner_tol) *)
Definition check_convergence (pb : problem) (c step score : nat -> R) : bool * R * option R * R :=
  let '(nm, mx) := norm_min_subgrad (seq 0 (nc pb)) c (fun k => - score k) (pb_P1 pb) (pb_ic pb)
                     (pb_lb pb) (pb_ub pb) in
  let gradient_converged := Rltb nm (pb_gtol pb) in
  let step_size := sqrt (rsum (nc pb) (fun k => step k * step k)) in
  let step_converged := match pb_stol pb with Some t => Rltb step_size t | None => false end in
  let itol := match pb_fixed_tol pb with
              | None => fmax (nm * (1 / 1000)) (pb_gtol pb)
              | Some t => t
              end in
  (gradient_converged || step_converged, nm, mx, itol)%bool.

(** _solvers.py 726-752, [identify_active_set]; max = infinity makes T = -infinity *)
Definition is_active (pb : problem) (c score : nat -> R) (mx : option R) (j : nat) : bool :=
  let k := (ioff (pb_ic pb) + j)%nat in
  (negb (Reqb (c k) 0)
   || match mx with None => true | Some m => Rleb (pb_P1 pb j - m) (Rabs (score k)) end)%bool.
Definition identify_active_set (pb : problem) (c score : nat -> R) (mx : option R) : list nat :=
  (if pb_ic pb then [0%nat] else [])
  ++ map (fun j => (ioff (pb_ic pb) + j)%nat) (filter (is_active pb c score mx) (seq 0 (pb_p pb))).

(** _solvers.py 188-191; duplicates do not occur in either list *)
Definition mem (x : nat) (l : list nat) : bool := existsb (Nat.eqb x) l.
Definition is_subset (x y : list nat) : bool :=
  Nat.eqb (length (filter (fun a => mem a y) x)) (length y).

(** _cd_fast.pyx 74-106, [identify_active_rows] over n rows: (diff, active rows, new hessian_rows) *)
Fixpoint max_abs_diff (n : nat) (h old : nat -> R) : R :=
  match n with
  | O => 0
  | S k => let m := max_abs_diff k h old in
           let a := Rabs (h k - old k) in if Rltb m a then a else m
  end.
Definition identify_active_rows (n : nat) (h old : nat -> R) (C : R)
    : (nat -> R) * list nat * (nat -> R) :=
  let m := max_abs_diff n h old in
  let excl i := Rltb (Rabs (h i - old i)) (C * m) in
  let diff i := if excl i then 0 else h i - old i in
  (diff, filter (fun i => negb (Reqb (diff i) 0)) (seq 0 n),
   fun i => if excl i then old i else h i).

(** _linalg.py 68-95, [_safe_sandwich_dot], entry (a, b) by position in [cols] shifted by the
    intercept.  The product is restricted to [rows], the corner entry sums all of [d]. *)
Definition sandwich (pb : problem) (d : nat -> R) (rows : list nat) (cols : list nat) (a b : nat) : R :=
  if pb_ic pb then
    match a, b with
    | O, O => rsum (pb_n pb) d
    | S a', O => lsumf (fun i => pb_X pb i (nth a' cols 0%nat) * d i) rows
    | O, S b' => lsumf (fun i => pb_X pb i (nth b' cols 0%nat) * d i) rows
    | S a', S b' => lsumf (fun i => pb_X pb i (nth a' cols 0%nat) * d i * pb_X pb i (nth b' cols 0%nat)) rows
    end
  else lsumf (fun i => pb_X pb i (nth a cols 0%nat) * d i * pb_X pb i (nth b cols 0%nat)) rows.

(** _solvers.py 194-237, [build_hessian_delta]; the sparse P2 branches compute the same matrix *)
Definition build_hessian_delta (pb : problem) (h : nat -> R) (P2 : option P2t)
    (rows act : list nat) (a b : nat) : R :=
  let idx := ioff (pb_ic pb) in
  let cols := map (fun k => (k - idx)%nat) (skipn idx act) in
  let delta := sandwich pb h rows cols a b in
  match P2 with
  | None => delta
  | Some P =>
      if (Nat.ltb a idx || Nat.ltb b idx)%bool then delta
      else match P with
           | P2diag v => if Nat.eqb a b then delta + v (nth (a - idx) cols 0%nat) else delta
           | P2mat M => delta + M (nth (a - idx) cols 0%nat) (nth (b - idx) cols 0%nat)
           end
  end.

(** position of a coefficient in a list *)
Fixpoint find_pos (x : nat) (l : list nat) : option nat :=
  match l with
  | [] => None
  | y :: r => if Nat.eqb x y then Some 0%nat else option_map S (find_pos x r)
  end.
(** state.hessian[np.ix_(act, act)] = B / += B *)
Definition ix_assign (H : nat -> nat -> R) (act : list nat) (B : nat -> nat -> R) : nat -> nat -> R :=
  fun i j => match find_pos i act, find_pos j act with Some a, Some b => B a b | _, _ => H i j end.
Definition ix_add (H : nat -> nat -> R) (act : list nat) (B : nat -> nat -> R) : nat -> nat -> R :=
  fun i j => match find_pos i act, find_pos j act with Some a, Some b => H i j + B a b | _, _ => H i j end.
(** state.hessian[np.ix_(act, act)] read *)
Definition ix_read (H : nat -> nat -> R) (act : list nat) : nat -> nat -> R :=
  fun a b => H (nth a act 0%nat) (nth b act 0%nat).

(** _solvers.py 80-185, [update_hessian] with active_set = the (already updated) state.active_set:
    (state.hessian, state.hessian_rows after the call, hessian on the active set, n_active_rows) *)
Definition update_hessian (pb : problem) (hess : nat -> nat -> R) (hinit : bool)
    (old_act act : list nat) (h old_h : nat -> R) (P2 : P2t)
    : (nat -> nat -> R) * (nat -> R) * (nat -> nat -> R) * nat :=
  if (negb hinit || negb (is_subset old_act act))%bool then
    let hess' := ix_assign hess act (build_hessian_delta pb h (Some P2) (seq 0 (pb_n pb)) act) in
    (hess', h, ix_read hess' act, pb_n pb)
  else
    let '(diff, rows, h') := identify_active_rows (pb_n pb) h old_h (pb_approx pb) in
    let hess' := ix_add hess act (build_hessian_delta pb diff None rows act) in
    (hess', h', ix_read hess' act, length rows).

(** Result of a line search (_solvers.py 838-847): coef, step, eta, mu, obj, coef_P2, _k, warned *)
Record ls_result := mkLs {
  ls_coef : nat -> R; ls_step : nat -> R; ls_eta : nat -> R; ls_mu : nat -> R; ls_obj : R;
  ls_cP2 : nat -> R; ls_k : nat; ls_warn : bool; ls_factor : R }.

(** the gradient norm of the tiny-loss branch, _solvers.py 817-827 *)
Definition trial_grad_norm (pb : problem) (eta mu cP2 : nat -> R) : R :=
  let g := fun i =>
    inverse_derivative (pb_link pb) (eta i)
    * one_over_variance (pb_fam pb) (pb_link pb) (mu i) (eta i) 1 (pb_w pb i)
    * (pb_y pb i - mu i) in
  rsum (nc pb) (fun k => Rabs (xt_vec pb g k - cP2 k)).

(** _solvers.py 799-836: the backtracking loop; [m] tries remain (20 at the start), [k] is _k *)
Fixpoint ls_loop (pb : problem) (P2 : P2t) (c score eta : nat -> R) (obj : R) (d xd : nat -> R)
    (bound : R) (m k : nat) (factor : R) : ls_result :=
  let step := vscale factor d in
  let coef_wd := vadd c step in
  let '(eta_wd, mu_wd, obj_wd, cP2) := eta_mu_objective pb P2 xd factor coef_wd eta in
  let here warned := mkLs coef_wd step eta_wd mu_wd obj_wd cP2 k warned factor in
  let improvement := obj_wd - obj in
  if (forallb (fun i => Rltb (mu_wd i) (pb_large pb)) (seq 0 (pb_n pb))
      && Rleb improvement (factor * bound))%bool
  then here false
  else if (Rleb (Rabs improvement) (Rabs (obj * pb_eps pb))
           && Rltb (trial_grad_norm pb eta_wd mu_wd cP2) (rsum (nc pb) (fun i => Rabs (score i))))%bool
  then here false
  else match m with
       | O => here true                      (* 20 tries used: for/else *)
       | S m' => ls_loop pb P2 c score eta obj d xd bound m' (S k) (factor * / 2)
       end.

(** _solvers.py 755-847, [line_search] *)
Definition ls_bound (pb : problem) (c score d : nat -> R) : R :=
  1 / 10000 * (- dot (nc pb) score d + l1_pen pb (vadd c d) - l1_pen pb c).
Definition line_search (pb : problem) (P2 : P2t) (c score eta : nat -> R) (obj : R) (d : nat -> R) : ls_result :=
  ls_loop pb P2 c score eta obj d (lin_pred pb d) (ls_bound pb c score d) 19 0 1.

(** inner solvers: state, active set, Hessian on the active set -> direction and cycles,
    or an exception *)
Definition inner_solver := state -> (nat -> nat -> R) -> option ((nat -> R) * nat).

(** _solvers.py 58-77, [_cd_solver]; [seed] stands for rng.randint(0, RAND_R_MAX) of this call *)
Definition cd_args_of (pb : problem) (s : state) (H : nat -> nat -> R) : cd_args :=
  mkCD (st_act s) (pb_P1 pb) H (pb_max_inner pb) (st_itol s) (pb_ic pb) (pb_random pb)
       (pb_lb pb) (pb_ub pb) (16 * eps64).
Definition cd_solver (pb : problem) (seed : Z -> N) : inner_solver := fun s H =>
  let r := enet_coordinate_descent_gram (cd_args_of pb s H) (seed (st_niter s)) (st_coef s)
             (fun k => - st_score s k) in
  Some (fun k => cr_w r k - st_coef s k, cr_cycles r).

(** _solvers.py 47-55, [_least_squares_solver]; [solve n A b] is scipy's solve(A, b, assume_a="pos"),
    [None] when it raises LinAlgError.  When the active set is not the full set the direction has
    the wrong length and the line search raises (broadcast error): [None]. *)
Definition linear_solver := nat -> (nat -> nat -> R) -> (nat -> R) -> option (nat -> R).
Definition ls_solver (pb : problem) (solve : linear_solver) : inner_solver :=
  fun s H =>
    if pb_has_bounds pb then None
    else if Nat.eqb (length (st_act s)) (nc pb)
    then match solve (nc pb) H (st_score s) with Some d => Some (d, 1%nat) | None => None end
    else None.

(** _solvers.py 559-588, [_record_iteration] *)
Definition record_iteration (s : state) : state :=
  let n := (st_niter s + 1)%Z in
  mkSt (st_coef s) (st_step s) (st_eta s) (st_mu s) (st_obj s) (st_score s) (st_hrows s) (st_old_hrows s)
       (st_hess s) (st_hinit s) (st_act s) (st_old_act s) (st_conv s) (st_norm s) (st_max s) (st_itol s)
       n (st_ncycles s) (st_nls s) (st_P2 s) (st_diag s ++ [(n, st_norm s, st_obj s)]) (st_lswarn s).

(** _solvers.py 289-304: state before the loop.  [monotonic] is the variant of 1042-1056, which
    ignores the first convergence verdict. *)
Definition init_state (pb : problem) (P2 : P2t) (monotonic : bool) (c : nat -> R) : state :=
  let '(eta, mu, obj, cP2) :=
    eta_mu_objective pb P2 (fun i => lin_pred pb c i + pb_off pb i) 1 c (fun _ => 0) in
  let '(g, score, h) := update_quadratic pb eta mu cP2 in
  let step := fun _ => match pb_stol pb with Some t => t | None => 0 end in
  let '(conv, nm, mx, itol) := check_convergence pb c step score in
  record_iteration
    (mkSt c step eta mu obj score h (fun _ => 0) (fun _ _ => 0) false
          (seq 0 (nc pb)) [] (if monotonic then false else conv) nm mx itol (-1) 0 0 P2 [] 0).

(** _solvers.py 313-317: the first part of the loop body, up to the call of the inner solver:
    the state the inner solver sees and the Hessian on the active set it is given *)
Definition prepare (pb : problem) (s : state) : state * (nat -> nat -> R) :=
  let old_act := st_act s in
  let act := identify_active_set pb (st_coef s) (st_score s) (st_max s) in
  let '(hess, h, Hact, nrows) :=
    update_hessian pb (st_hess s) (st_hinit s) old_act act (st_hrows s) (st_old_hrows s) (st_P2 s) in
  (mkSt (st_coef s) (st_step s) (st_eta s) (st_mu s) (st_obj s) (st_score s) h (st_old_hrows s)
        hess true act old_act (st_conv s) (st_norm s) (st_max s) (st_itol s)
        (st_niter s) (st_ncycles s) (st_nls s) (st_P2 s) (st_diag s) (st_lswarn s), Hact).

(** _solvers.py 310-345: one iteration of the loop body *)
Definition irls_step (pb : problem) (inner : inner_solver) (s : state) : option state :=
  let '(s1, Hact) := prepare pb s in
  match inner s1 Hact with
  | None => None
  | Some (d, cyc) =>
      let r := line_search pb (st_P2 s1) (st_coef s1) (st_score s1) (st_eta s1) (st_obj s1) d in
      let '(g, score, h') := update_quadratic pb (ls_eta r) (ls_mu r) (ls_cP2 r) in
      let '(conv, nm, mx, itol) := check_convergence pb (ls_coef r) (ls_step r) score in
      Some (record_iteration
        (mkSt (ls_coef r) (ls_step r) (ls_eta r) (ls_mu r) (ls_obj r) score h' (st_hrows s1)
              (st_hess s1) true (st_act s1) (st_old_act s1) conv nm mx itol
              (st_niter s1) (st_ncycles s1 + cyc) (ls_k r) (st_P2 s1) (st_diag s1)
              (st_lswarn s1 + if ls_warn r then 1 else 0)))
  end.

(** _solvers.py 307: the while loop, on fuel; [None] = the inner solver raised.
    The theorems show the fuel used below never runs out. *)
Fixpoint irls_loop (pb : problem) (inner : inner_solver) (fuel : nat) (s : state) : option state :=
  match fuel with
  | O => Some s
  | S f =>
      if (Z.ltb (st_niter s) (pb_max_iter pb) && negb (st_conv s))%bool then
        match irls_step pb inner s with
        | None => None
        | Some s' => irls_loop pb inner f s'
        end
      else Some s
  end.

(** _solvers.py 240-354, [_irls_solver]: final state and whether "IRLS failed to converge" is raised *)
Definition irls_solver (pb : problem) (inner : inner_solver) (P2 : P2t) (c : nat -> R) : option (state * bool) :=
  match irls_loop pb inner (S (Z.to_nat (pb_max_iter pb))) (init_state pb P2 false c) with
  | None => None
  | Some s => Some (s, negb (st_conv s))
  end.

(** ** The monotonic solver, _solvers.py 988-1126 *)

(** A_ineq has [m] rows.  Values A w (b_ineq = 0 is required, 1013-1017). *)
Record ineq := mkIneq { iq_m : nat; iq_A : nat -> nat -> R; iq_b : nat -> R }.
Definition iq_val (pb : problem) (q : ineq) (c : nat -> R) (r : nat) : R :=
  rsum (pb_p pb) (fun j => iq_A q r j * c (ioff (pb_ic pb) + j)%nat) - iq_b q r.
Definition any_gt (pb : problem) (q : ineq) (c : nat -> R) (t : R) : bool :=
  existsb (fun r => Rltb t (iq_val pb q c r)) (seq 0 (iq_m q)).

(** _solvers.py 988-1000, [_build_monotonic_penalty]: lam * A_v' A_v, or None *)
Definition build_monotonic_penalty (pb : problem) (q : ineq) (c : nat -> R) (lam : R)
    : option (nat -> nat -> R) :=
  if any_gt pb q c 0 then
    Some (fun i j => lam * lsumf (fun r => iq_A q r i * iq_A q r j)
                             (filter (fun r => Rltb 0 (iq_val pb q c r)) (seq 0 (iq_m q))))
  else None.

(** _solvers.py 1024-1038, [_update_constraint_penalty]: new data.P2 and "changed".
    [is_base] tells whether data.P2 currently is P2_base (object identity). *)
Definition update_constraint_penalty (pb : problem) (q : ineq) (P2_base : P2t) (is_base : bool)
    (c : nat -> R) (lam : R) : P2t * bool * bool (* P2, is_base, changed *) :=
  match build_monotonic_penalty pb q c lam with
  | None => (P2_base, true, negb is_base)
  | Some C => (P2mat (fun i j => p2_entry P2_base i j + C i j), false, true)
  end.

(** monotonic state: the IRLS state plus constraint_lam and the identity of data.P2 *)
Record mstate := mkMs { ms_st : state; ms_lam : R; ms_base : bool }.

Definition set_P2 (s : state) (P2 : P2t) (hinit : bool) : state :=
  mkSt (st_coef s) (st_step s) (st_eta s) (st_mu s) (st_obj s) (st_score s) (st_hrows s) (st_old_hrows s)
       (st_hess s) hinit (st_act s) (st_old_act s) (st_conv s) (st_norm s) (st_max s) (st_itol s)
       (st_niter s) (st_ncycles s) (st_nls s) P2 (st_diag s) (st_lswarn s).
Definition set_conv (s : state) (b : bool) : state :=
  mkSt (st_coef s) (st_step s) (st_eta s) (st_mu s) (st_obj s) (st_score s) (st_hrows s) (st_old_hrows s)
       (st_hess s) (st_hinit s) (st_act s) (st_old_act s) b (st_norm s) (st_max s) (st_itol s)
       (st_niter s) (st_ncycles s) (st_nls s) (st_P2 s) (st_diag s) (st_lswarn s).

(** _solvers.py 1059-1108: one iteration.  The convergence veto (1103-1106) happens before the
    record; the record does not contain [converged], so the order is immaterial. *)
Definition mono_step (pb : problem) (inner : inner_solver) (q : ineq) (P2_base : P2t)
    (lam_factor lam_max : R) (m : mstate) : option mstate :=
  let s := ms_st m in
  let lam := if any_gt pb q (st_coef s) 0 then Rmin (ms_lam m * lam_factor) lam_max else ms_lam m in
  let '(P2, base, changed) := update_constraint_penalty pb q P2_base (ms_base m) (st_coef s) lam in
  let s0 := set_P2 s P2 (if changed then false else st_hinit s) in
  match irls_step pb inner s0 with
  | None => None
  | Some s' =>
      let s'' := if (st_conv s' && any_gt pb q (st_coef s') (1 / 1000000))%bool then set_conv s' false else s' in
      Some (mkMs s'' lam base)
  end.
Fixpoint mono_loop (pb : problem) (inner : inner_solver) (q : ineq) (P2_base : P2t)
    (lam_factor lam_max : R) (fuel : nat) (m : mstate) : option mstate :=
  match fuel with
  | O => Some m
  | S f =>
      if (Z.ltb (st_niter (ms_st m)) (pb_max_iter pb) && negb (st_conv (ms_st m)))%bool then
        match mono_step pb inner q P2_base lam_factor lam_max m with
        | None => None
        | Some m' => mono_loop pb inner q P2_base lam_factor lam_max f m'
        end
      else Some m
  end.
(** Result: final state, "failed to converge" warning, "max constraint violation" warning.
    [None] = exception (b_ineq <> 0, bounds, singular system). *)
Definition monotonic_irls_solver (pb : problem) (inner : inner_solver) (q : ineq) (P2_base : P2t)
    (lam_start lam_max lam_factor : R) (c : nat -> R) : option (mstate * bool * bool) :=
  if existsb (fun r => negb (Reqb (iq_b q r) 0)) (seq 0 (iq_m q)) then None
  else
    let '(P2, base, _) := update_constraint_penalty pb q P2_base false c lam_start in
    match mono_loop pb inner q P2_base lam_factor lam_max (S (Z.to_nat (pb_max_iter pb)))
            (mkMs (init_state pb P2 true c) lam_start base) with
    | None => None
    | Some m => Some (m, negb (st_conv (ms_st m)), any_gt pb q (st_coef (ms_st m)) (1 / 1000000))
    end.

(** ** Objective of the quasi-Newton solvers *)

(** _solvers.py 850-871 with _distribution.py 252-298: objective and gradient handed to
    fmin_l_bfgs_b and to trust-constr (objp has nc entries). *)
Definition get_obj_and_derivative (pb : problem) (P2 : P2t) (c : nat -> R) : R * (nat -> R) :=
  let lin i := lin_pred pb c i + pb_off pb i in
  let mu i := inverse1 (pb_link pb) (lin i) in
  let d1 i := inverse_derivative (pb_link pb) (lin i) in
  let temp i := d1 i * (pb_w pb i * unit_deviance_derivative (pb_fam pb) (pb_y pb i) (mu i)) in
  let devp k := xt_vec pb temp k in
  let dev := deviance (pb_fam pb) (map (fun i => mkobs (pb_y pb i) (pb_w pb i) (mu i)) (seq 0 (pb_n pb))) in
  let idx := ioff (pb_ic pb) in
  let L2 j := match P2 with
              | P2diag v => v j * c (idx + j)%nat
              | P2mat M => rsum (pb_p pb) (fun l => M j l * c (idx + l)%nat)
              end in
  (/ 2 * dev + / 2 * rsum (pb_p pb) (fun j => c (idx + j)%nat * L2 j),
   fun k => if Nat.ltb k idx then / 2 * devp k else / 2 * devp k + L2 (k - idx)%nat).

(** ** Closed form *)

(** _linalg.py 132-143: [has_l2_penalty] *)
Definition has_l2_penalty (p : nat) (P2 : P2t) : bool :=
  match P2 with
  | P2diag v => existsb (fun i => negb (Reqb (v i) 0)) (seq 0 p)
  | P2mat M => existsb (fun i => existsb (fun j => negb (Reqb (M i j) 0)) (seq 0 p)) (seq 0 p)
  end.

(** _linalg.py 145-163: the system matrix.  The sparse representations of P2 denote the same matrix. *)
Definition tikhonov_matrix (pb : problem) (P2 : P2t) (a b : nat) : R :=
  let idx := ioff (pb_ic pb) in
  let delta := sandwich pb (pb_w pb) (seq 0 (pb_n pb)) (seq 0 (pb_p pb)) a b in
  if negb (has_l2_penalty (pb_p pb) P2) then delta
  else match P2 with
       | P2diag v => if (Nat.eqb a b && Nat.leb idx a)%bool then delta + v (a - idx)%nat else delta
       | P2mat M => if (Nat.leb idx a && Nat.leb idx b)%bool then delta + M (a - idx)%nat (b - idx)%nat else delta
       end.

(** _linalg.py 126-127, 147-149, 158: the right-hand side *)
Definition tikhonov_rhs (pb : problem) (k : nat) : R :=
  xt_vec pb (fun i => pb_w pb i * (pb_y pb i - pb_off pb i)) k.

(** _linalg.py 98-169 [_solve_least_squares_tikhonov] and _solvers.py 357-381.  [solve] is
    linalg.solve with the given assume_a ("pos" iff the flag), [lstsq] the fallback on LinAlgError. *)
Definition tikhonov_solver (pb : problem) (P2 : P2t) (solve : bool -> linear_solver)
    (lstsq : nat -> (nat -> nat -> R) -> (nat -> R) -> (nat -> R)) : nat -> R :=
  let A := tikhonov_matrix pb P2 in
  let b := tikhonov_rhs pb in
  match solve (has_l2_penalty (pb_p pb) P2) (nc pb) A b with
  | Some x => x
  | None => lstsq (nc pb) A b
  end.
