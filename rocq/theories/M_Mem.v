(** Model of the arrays of a fit as mutable memory: which numpy operations allocate, which write in place
    and which hand on the array they were given.  src/glum/_glm.py, _utils.py, _validation.py.
    All other model files work with values; this one keeps the identity of every array, so that aliasing
    (an in-place operation reaching an array the user still holds) can be expressed.
    Shapes are taken as validated (the checks are in M_Std, M_Valid); dtype is float64. *)
From Verif Require Export M_CV.
Local Open Scope R_scope.

(** ** Memory *)

(** one ndarray: 1-d, 2-d, or a vector of bounds (entries may be infinite) *)
Inductive cell := CVec (v : nat -> R) | CMat (M : nat -> nat -> R) | CBnd (b : bounds).
Definition heap := list cell.
Definition loc := nat.
Definition vec_at (h : heap) (l : loc) : nat -> R := match nth_error h l with Some (CVec v) => v | _ => fun _ => 0 end.
Definition mat_at (h : heap) (l : loc) : nat -> nat -> R := match nth_error h l with Some (CMat M) => M | _ => fun _ _ => 0 end.
Definition bnd_at (h : heap) (l : loc) : bounds := match nth_error h l with Some (CBnd b) => b | _ => fun _ => None end.
(** an in-place write *)
Fixpoint upd (h : heap) (l : loc) (c : cell) : heap :=
  match h, l with
  | [], _ => []
  | _ :: r, O => c :: r
  | x :: r, S k => x :: upd r k c
  end.
(** a fresh array *)
Definition new (h : heap) (c : cell) : loc * heap := (length h, h ++ [c]).
(** sklearn.utils.check_array / ndarray.astype(copy=False) / np.asarray: the array itself when dtype and
    layout fit and no copy was requested, a copy otherwise; [cp] says which *)
Definition maybe_copy (cp : bool) (h : heap) (l : loc) : loc * heap :=
  if cp then (length h, h ++ [nth l h (CVec (fun _ => 0))]) else (l, h).

(** ** What the user passes *)

Inductive start_loc := LWarm (c0 : R) (l : loc) | LNone | LParams (l : loc).
Inductive p2_loc := L2Identity | L2Vec (l : loc) | L2Mat (l : loc).
(** places where a conversion may or may not copy *)
Inductive site := AtX | AtY | AtW | AtOff | AtP1 | AtLb | AtUb.
Record margs := mkArgs {
  g_n : nat; g_p : nat; g_X : loc; g_y : loc; g_w : option loc; g_off : option loc;
  g_ic : bool; g_fam : family; g_link : link; g_scale : bool; g_l1 : R;
  g_P1 : option loc; g_P2 : p2_loc; g_lb : option loc; g_ub : option loc; g_start : start_loc;
  g_copies : site -> bool }.

(** ** Preparation *)

(** the arrays after _set_up_and_check_fit_args, setup_p1/p2, check_bounds *)
Record prepared := mkPrep {
  q_X : loc; q_y : loc; q_w : loc; q_off : option loc; q_P1 : loc; q_P2 : loc; q_P2d : bool;
  q_lb : option loc; q_ub : option loc; q_m : loc; q_s : loc }.

(** _glm.py 2108-2146 and _validation.py 155-217: X, y, offset may be handed on uncopied; the weights are
    divided by their sum into a new array (2155-2156) *)
Definition mem_data (a : margs) (h : heap) : (loc * loc * loc * option loc) * heap :=
  let '(X, h) := maybe_copy (g_copies a AtX) h (g_X a) in
  let '(y, h) := maybe_copy (g_copies a AtY) h (g_y a) in
  let '(w0, h) := match g_w a with
                  | None => new h (CVec (fun _ => 1))
                  | Some l => maybe_copy (g_copies a AtW) h l
                  end in
  let '(off, h) := match g_off a with
                   | None => (None, h)
                   | Some l => let '(o, h) := maybe_copy (g_copies a AtOff) h l in (Some o, h)
                   end in
  let '(w, h) := new h (CVec (fun i => vec_at h w0 i / rsum (g_n a) (vec_at h w0))) in
  ((X, y, w, off), h).
(** _glm.py 3227-3264, [setup_p1] with alpha = 1: a conversion that may not copy, then a product (new) *)
Definition mem_p1 (a : margs) (h : heap) : loc * heap :=
  let '(l, h) := match g_P1 a with
                 | None => new h (CVec (fun _ => 1))
                 | Some l => maybe_copy (g_copies a AtP1) h l
                 end in
  new h (CVec (fun j => 1 * g_l1 a * vec_at h l j)).
(** _glm.py 3267-3332, [setup_p2] with alpha = 1: a copy, a product, for matrices the symmetrised sum;
    the flag says that the result is 1-d (dense X; a sparse X keeps a diagonal in a sparse matrix) *)
Definition mem_p2 (a : margs) (h : heap) : (loc * bool) * heap :=
  match g_P2 a with
  | L2Identity => let '(l, h) := new h (CVec (fun j => 1 * (1 - g_l1 a) * 1)) in ((l, true), h)
  | L2Vec l => let '(c, h) := maybe_copy true h l in
               let '(r, h) := new h (CVec (fun j => 1 * (1 - g_l1 a) * vec_at h c j)) in ((r, true), h)
  | L2Mat l => let '(c, h) := maybe_copy true h l in
               let '(r, h) := new h (CMat (fun i j => 1 * (1 - g_l1 a) * mat_at h c i j)) in
               let '(t, h) := new h (CMat (fun i j => 1 / 2 * (mat_at h r i j + mat_at h r j i))) in ((t, false), h)
  end.
(** _validation.py 91-115, [check_bounds] *)
Definition mem_bounds (cp : bool) (b : option loc) (h : heap) : option loc * heap :=
  match b with
  | None => (None, h)
  | Some l => let '(r, h) := maybe_copy cp h l in (Some r, h)
  end.
(** _utils.py 249-256: bounds / inv_col_stds, a new array *)
Definition mem_std_bounds (b : option loc) (s : loc) (h : heap) : option loc * heap :=
  match b with
  | None => (None, h)
  | Some l => let '(r, h) := new h (CBnd (std_bounds (bnd_at h l) (vec_at h s))) in (Some r, h)
  end.
(** _utils.py 260-269: P1 *= inv_col_stds and P2 *= inv_col_stds**2 IN PLACE, a matrix P2 into a new array *)
Definition mem_std_penalties (scale : bool) (P1 P2 s : loc) (P2d : bool) (h : heap) : loc * heap :=
  if scale then (P2, h)
  else
    let h := upd h P1 (CVec (fun j => vec_at h P1 j * one_over (vec_at h s j))) in
    if P2d then (P2, upd h P2 (CVec (fun j => vec_at h P2 j * one_over (vec_at h s j) ^ 2)))
    else new h (CMat (fun i j => one_over (vec_at h s i) * mat_at h P2 i j * one_over (vec_at h s j))).
(** _glm.py 2737-2812 *)
Definition mem_prepare (a : margs) (h : heap) : prepared * heap :=
  let '((X, y, w, off), h) := mem_data a h in
  let '(P1, h) := mem_p1 a h in
  let '((P2, P2d), h) := mem_p2 a h in
  let '(lb, h) := mem_bounds (g_copies a AtLb) (g_lb a) h in
  let '(ub, h) := mem_bounds (g_copies a AtUb) (g_ub a) h in
  let '(m, h) := new h (CVec (col_means (g_n a) (vec_at h w) (mat_at h X) (g_ic a))) in
  let '(s, h) := new h (CVec (col_stds (g_n a) (vec_at h w) (mat_at h X))) in
  let '(lb, h) := mem_std_bounds lb s h in
  let '(ub, h) := mem_std_bounds ub s h in
  let '(P2, h) := mem_std_penalties (g_scale a) P1 P2 s P2d h in
  (mkPrep X y w off P1 P2 P2d lb ub m s, h).

(** ** Start *)

(** _utils.py 274-283, [standardize_warm_start], IN PLACE: first coef[1:] *= col_stds, then coef[0] += ... *)
Definition mem_warm (p : nat) (m s l : loc) (h : heap) : heap :=
  let h := upd h l (CVec (fun k => match k with O => vec_at h l O | S j => vec_at h l (S j) * vec_at h s j end)) in
  upd h l (CVec (fun k => match k with
                          | O => vec_at h l O + rsum p (fun j => vec_at h m j * one_over (vec_at h s j) * vec_at h l (S j))
                          | S j => vec_at h l (S j) end)).
(** _glm.py 302-315: clipping to the bounds of the USER, IN PLACE, when an entry is outside *)
Definition obnd (h : heap) (b : option loc) : bounds := match b with Some l => bnd_at h l | None => fun _ => None end.
Definition mem_clip_lo (ic : bool) (p : nat) (lb : option loc) (l : loc) (h : heap) : heap :=
  match lb with
  | None => h
  | Some b => if existsb (fun j => match bnd_at h b j with Some x => Rltb (vec_at h l (ioff ic + j)%nat) x | None => false end) (seq 0 p)
              then upd h l (CVec (fun k => if Nat.ltb k (ioff ic) then vec_at h l k else clip_lo (bnd_at h b (k - ioff ic)%nat) (vec_at h l k)))
              else h
  end.
Definition mem_clip_hi (ic : bool) (p : nat) (ub : option loc) (l : loc) (h : heap) : heap :=
  match ub with
  | None => h
  | Some b => if existsb (fun j => match bnd_at h b j with Some x => Rltb x (vec_at h l (ioff ic + j)%nat) | None => false end) (seq 0 p)
              then upd h l (CVec (fun k => if Nat.ltb k (ioff ic) then vec_at h l k else clip_hi (bnd_at h b (k - ioff ic)%nat) (vec_at h l k)))
              else h
  end.
(** _glm.py 248-317, [_get_start_coef]: concatenate, zeros and check_array(copy=True) allocate; a warm start
    without intercept is the stored coef_ ITSELF.  [guess] is the value of guess_intercept. *)
Definition mem_start (a : margs) (q : prepared) (guess : R) (h : heap) : loc * heap :=
  let '(l, h) := match g_start a with
                 | LWarm c0 l => if g_ic a
                                 then let '(r, h) := new h (CVec (pack true c0 (vec_at h l))) in
                                      (r, mem_warm (g_p a) (q_m q) (q_s q) r h)
                                 else (l, h)
                 | LNone => new h (CVec (pack (g_ic a) guess (fun _ => 0)))
                 | LParams l => let '(r, h) := maybe_copy true h l in
                                (r, if g_ic a then mem_warm (g_p a) (q_m q) (q_s q) r h else h)
                 end in
  (l, mem_clip_hi (g_ic a) (g_p a) (g_ub a) l (mem_clip_lo (g_ic a) (g_p a) (g_lb a) l h)).

(** ** Solving *)

(** the problem a solver reads from memory (IRLSData and the other solvers' arguments) *)
Definition p2_at (h : heap) (P2 : loc) (P2d : bool) : P2t := if P2d then P2diag (vec_at h P2) else P2mat (mat_at h P2).
Definition problem_at (a : margs) (se : settings) (q : prepared) (h : heap) : problem :=
  mkPb (g_n a) (g_p a) (std_X (mat_at h (q_X q)) (vec_at h (q_m q)) (vec_at h (q_s q))) (vec_at h (q_y q)) (vec_at h (q_w q))
       (match q_off q with Some l => vec_at h l | None => fun _ => 0 end) (g_ic a) (g_fam a) (g_link a) (vec_at h (q_P1 q))
       (se_max_iter se) (se_max_inner se) (se_gtol se) (se_stol se) (se_approx se) (se_fixed_tol se) (se_random se)
       (obnd h (q_lb q)) (obnd h (q_ub q)) (se_has_bounds se) (se_large se) (se_eps se).
(** a solver never writes into the arrays it is given (every update of state.coef rebinds, coordinate descent
    works on state.coef.copy()); it returns a new array or ([share]), when it made no step, the very array
    it was given.  P1_no_alpha * alpha and P2_no_alpha * alpha are new arrays. *)
Definition mem_solve (solve : path_solver) (share : sol -> bool) (a : margs) (se : settings) (q : prepared) (alpha : R)
    (c : loc) (h : heap) : option (loc * sol * heap) :=
  let '(P1, h) := new h (CVec (p1_scale alpha (vec_at h (q_P1 q)))) in
  let '(P2, h) := new h (if q_P2d q then CVec (fun j => vec_at h (q_P2 q) j * alpha)
                         else CMat (fun i j => mat_at h (q_P2 q) i j * alpha)) in
  match solve (set_P1 (problem_at a se q h) (vec_at h P1)) (p2_at h P2 (q_P2d q)) (vec_at h c) with
  | None => None
  | Some s => if share s then Some (c, s, h)
              else let '(r, h) := new h (CVec (so_coef s)) in Some (r, s, h)
  end.
(** _glm.py 684-713: the loop; each solution is written into its row of coef_path_ *)
Fixpoint mem_loop (solve : path_solver) (share : sol -> bool) (a : margs) (se : settings) (q : prepared) (alphas : list R)
    (k : nat) (path c : loc) (h : heap) : option (list sol * heap) :=
  match alphas with
  | [] => Some ([], h)
  | al :: r =>
      match mem_solve solve share a se q al c h with
      | None => None
      | Some (c', s, h) =>
          let h := upd h path (CMat (fun i j => if Nat.eqb i k then vec_at h c' j else mat_at h path i j)) in
          match mem_loop solve share a se q r (S k) path c' h with
          | None => None
          | Some (l, h) => Some (s :: l, h)
          end
      end
  end.

(** ** Back to the user's scale, IN PLACE *)

(** _utils.py 286-300, [unstandardize] on coef[:, 0], coef[:, 1:], which are views of [path]:
    first the intercepts, then the coefficients *)
Definition mem_unstd_path (p : nat) (m s path : loc) (h : heap) : heap :=
  let h := upd h path (CMat (fun i k => match k with
     | O => mat_at h path i O - rsum p (fun j => vec_at h m j * one_over (vec_at h s j) * mat_at h path i (S j))
     | S j => mat_at h path i (S j) end)) in
  upd h path (CMat (fun i k => match k with O => mat_at h path i O | S j => mat_at h path i (S j) * one_over (vec_at h s j) end)).
(** the same without intercept: intercepts start as np.zeros (new), coef is [path] itself *)
Definition mem_unstd_path0 (p : nat) (m s path : loc) (h : heap) : loc * heap :=
  let '(i0, h) := new h (CVec (fun _ => 0)) in
  let h := upd h i0 (CVec (fun i => vec_at h i0 i - rsum p (fun j => vec_at h m j * one_over (vec_at h s j) * mat_at h path i j))) in
  (i0, upd h path (CMat (fun i j => mat_at h path i j * one_over (vec_at h s j)))).
(** one coefficient vector: coef[0] is a number (not a view), coef[1:] a view; without intercept 0.0 and coef *)
Definition mem_unstd (ic : bool) (p : nat) (m s c : loc) (h : heap) : R * heap :=
  let c0 := if ic then vec_at h c O else 0 in
  let b h j := vec_at h c (ioff ic + j)%nat in
  let i := c0 - rsum p (fun j => vec_at h m j * one_over (vec_at h s j) * b h j) in
  (i, upd h c (CVec (fun k => if Nat.ltb k (ioff ic) then vec_at h c k else vec_at h c k * one_over (vec_at h s (k - ioff ic)%nat)))).

(** ** fit *)

(** what fit leaves in the estimator: coef_ (and coef_path_) as arrays, intercepts, n_iter_ *)
Inductive mem_out :=
| OutOne (c : loc) (intercept : R) (s : sol)
| OutPath (path : loc) (ints : option loc) (sols : list sol).
(** read coef_/intercept_ or the entries of the path from memory *)
Definition read_one (ic : bool) (h : heap) (c : loc) (intercept : R) : R * (nat -> R) :=
  (intercept, fun j => vec_at h c (ioff ic + j)%nat).
Definition read_entry (ic : bool) (h : heap) (path : loc) (ints : option loc) (k : nat) : R * (nat -> R) :=
  (match ints with None => mat_at h path k O | Some l => vec_at h l k end, fun j => mat_at h path k (ioff ic + j)%nat).

Definition mem_guess (a : margs) (q : prepared) (h : heap) : option R :=
  match g_start a, g_ic a with
  | LNone, true =>
      guess_intercept (g_fam a) (g_link a) (match q_off q with Some _ => true | None => false end)
        (map (fun i => mkgrow (vec_at h (q_y q) i) (vec_at h (q_w q) i) (match q_off q with Some l => vec_at h l i | None => 0 end)) (seq 0 (g_n a)))
  | _, _ => Some 0
  end.

(** _glm.py 2737-2906, [fit]: [inl alpha] a single alpha, [inr alphas] a search *)
Definition mem_fit (solve : path_solver) (share : sol -> bool) (a : margs) (se : settings) (alphas : R + list R) (h : heap)
    : option (mem_out * heap) :=
  let '(q, h) := mem_prepare a h in
  match mem_guess a q h with
  | None => None
  | Some g =>
      let '(c, h) := mem_start a q g h in
      match alphas with
      | inl al =>
          match mem_solve solve share a se q al c h with
          | None => None
          | Some (c', s, h) =>
              let '(i, h) := mem_unstd (g_ic a) (g_p a) (q_m q) (q_s q) c' h in
              Some (OutOne c' i s, h)
          end
      | inr als =>
          let '(path, h) := new h (CMat (fun _ _ => 0)) in
          match mem_loop solve share a se q als O path c h with
          | None => None
          | Some (sols, h) =>
              if g_ic a then Some (OutPath path None sols, mem_unstd_path (g_p a) (q_m q) (q_s q) path h)
              else let '(i0, h) := mem_unstd_path0 (g_p a) (q_m q) (q_s q) path h in Some (OutPath path (Some i0) sols, h)
          end
      end
  end.

(** ** predict *)

(** _glm.py 882-926, 986-994: X @ coef + intercept (new), xb += offset IN PLACE on it, link.inverse (new),
    times the weights (new) *)
Definition mem_predict (n p : nat) (lk : link) (X : loc) (ic : bool) (c : loc) (intercept : R) (off w : option loc) (h : heap) : loc * heap :=
  let '(xb, h) := new h (CVec (fun i => rsum p (fun j => mat_at h X i j * vec_at h c (ioff ic + j)%nat) + intercept)) in
  let h := match off with None => h | Some o => upd h xb (CVec (fun i => vec_at h xb i + vec_at h o i)) end in
  let '(mu, h) := new h (CVec (fun i => inverse1 lk (vec_at h xb i))) in
  match w with
  | None => (mu, h)
  | Some l => new h (CVec (fun i => vec_at h mu i * vec_at h l i))
  end.
