(** Model of /repo/src/glum/_cd_fast.pyx: random generator, coordinate descent,
    minimum-norm subgradient.  Reals stand for doubles; the 32-bit generator is exact. *)
From Coq Require Export NArith.
From Verif Require Import Base.

(** ** The xorshift generator *)

(** _cd_fast.pyx 37-51, [our_rand_r]: the seed is a UINT32; [<<] on UINT32 drops the
    bits above 2^32 (the [<UINT32_t>] casts).  Returns (value, new seed). *)
Definition u32 (x : N) : N := N.modulo x (2 ^ 32).
Definition our_rand_r (seed : N) : N * N :=
  let s0 := if N.eqb seed 0 then 1%N else seed in
  let s1 := N.lxor s0 (u32 (N.shiftl s0 13)) in
  let s2 := N.lxor s1 (u32 (N.shiftr s1 17)) in
  let s3 := N.lxor s2 (u32 (N.shiftl s2 5)) in
  (N.modulo s3 (2147483647 + 1), s3).

(** _cd_fast.pyx 54-56, [rand_int]: a draw in [0, end). [end] > 0 in every call. *)
Definition rand_int (endv : nat) (seed : N) : nat * N :=
  let (v, s) := our_rand_r seed in (N.to_nat (N.modulo v (N.of_nat endv)), s).

(** ** Scalars *)

(** _cd_fast.pyx 59-62 *)
Definition fmax (x y : R) : R := if Rltb y x then x else y.
(** _cd_fast.pyx 65-71 *)
Definition fsign (f : R) : R := if Reqb f 0 then 0 else if Rltb 0 f then 1 else -1.

(** array assignment a[i] = v *)
Definition upd (f : nat -> R) (i : nat) (v : R) : nat -> R :=
  fun j => if Nat.eqb j i then v else f j.

(** Bounds: [has_lower_bounds = False] and the entry -inf are both [None]; same for
    upper bounds and +inf (comparisons with infinities are never true in either place
    where the code reads the arrays). *)
Definition bounds := nat -> option R.
Definition below (x : R) (b : option R) : bool := match b with Some l => Rltb x l | None => false end.
Definition above (x : R) (b : option R) : bool := match b with Some u => Rltb u x | None => false end.
Definition at_bound (x : R) (b : option R) : bool := match b with Some l => Reqb x l | None => false end.
Definition bnd_val (b : option R) (x : R) : R := match b with Some l => l | None => x end.

(** Arguments of [enet_coordinate_descent_gram] that never change during the call
    (_cd_fast.pyx 109-120). [cd_Q] is indexed by positions in the active set.
    [cd_ic] is the intercept flag (0 or 1 in the index arithmetic). *)
Record cd_args := mkCD {
  cd_act : list nat;
  cd_P1 : nat -> R;
  cd_Q : nat -> nat -> R;
  cd_max_iter : nat;
  cd_tol : R;
  cd_ic : bool;
  cd_random : bool;
  cd_lb : bounds;
  cd_ub : bounds;
  cd_eps : R }.

Definition ioff (b : bool) : nat := if b then 1%nat else 0%nat.

(** The mutable state of one sweep: w, q, w_max, d_w_max. *)
Record cd_state := mkCS { cs_w : nat -> R; cs_q : nat -> R; cs_wmax : R; cs_dwmax : R }.

(** _cd_fast.pyx 160-163 *)
Definition cd_pen (P1 : nat -> R) (ic : bool) (ii : nat) : R :=
  if Nat.ltb ii (ioff ic) then 0 else P1 (ii - ioff ic)%nat.

(** _cd_fast.pyx 173-179: clipping of a non-intercept coefficient *)
Definition cd_clip (a : cd_args) (ii : nat) (x : R) : R :=
  if Nat.leb (ioff (cd_ic a)) ii then
    let l := cd_lb a (ii - ioff (cd_ic a))%nat in
    let u := cd_ub a (ii - ioff (cd_ic a))%nat in
    let x1 := if below x l then bnd_val l x else x in
    if above x1 u then bnd_val u x1 else x1
  else x.

(** _cd_fast.pyx 183-185: q[jj] += dw * Q[ii,jj] over the active set *)
Definition cd_update_q (a : cd_args) (k : nat) (dw : R) (q : nat -> R) : nat -> R :=
  fold_left (fun q kj => let jj := nth kj (cd_act a) 0%nat in upd q jj (q jj + dw * cd_Q a k kj))
            (seq 0 (length (cd_act a))) q.

(** _cd_fast.pyx 158-193: visit position [k] of the active set *)
Definition cd_visit (a : cd_args) (k : nat) (s : cd_state) : cd_state :=
  let ii := nth k (cd_act a) 0%nat in
  let p := cd_pen (cd_P1 a) (cd_ic a) ii in
  let Qk := cd_Q a k k in
  if Rleb Qk (cd_eps a) then s
  else
    let w_ii := cs_w s ii in
    let qt := cs_q s ii - cs_w s ii * Qk in
    let w1 := fsign (- qt) * fmax (Rabs qt - p) 0 / Qk in
    let w2 := cd_clip a ii w1 in
    let q' := if negb (Reqb w2 0) || negb (Reqb w_ii 0)
              then cd_update_q a k (w2 - w_ii) (cs_q s) else cs_q s in
    let dw := Rabs (w2 - w_ii) in
    mkCS (upd (cs_w s) ii w2) q'
         (if Rltb (cs_wmax s) (Rabs w2) then Rabs w2 else cs_wmax s)
         (if Rltb (cs_dwmax s) dw then dw else cs_dwmax s).

(** _cd_fast.pyx 153-193: one sweep; [m] coordinates remain, the current loop index is [f].
    The generator state is threaded when selection is random. *)
Fixpoint cd_sweep (a : cd_args) (m f : nat) (seed : N) (s : cd_state) : N * cd_state :=
  match m with
  | O => (seed, s)
  | S m' =>
      let (k, seed') := if cd_random a then rand_int (length (cd_act a)) seed else (f, seed) in
      cd_sweep a m' (S f) seed' (cd_visit a k s)
  end.

(** _cd_fast.pyx 276-284: the minimum-norm subgradient entry of a non-intercept feature *)
Definition subgrad_term (coef grad P1 : R) (l u : option R) : R :=
  let t0 := if Reqb coef 0 then fsign grad * fmax (Rabs grad - P1) 0
            else grad + fsign coef * P1 in
  let t1 := if at_bound coef l && Rltb 0 t0 then 0 else t0 in
  if at_bound coef u && Rltb t1 0 then 0 else t1.

(** _cd_fast.pyx 266-287, [cython_norm_min_subgrad]: the loop; max_out = INFINITY is [None].
    [absterm > INFINITY] is false, so an infinite max stays infinite. *)
Fixpoint norm_loop (act : list nat) (coef grad P1 : nat -> R) (ic : bool) (lb ub : bounds)
    (norm : R) (mx : option R) : R * option R :=
  match act with
  | [] => (norm, mx)
  | i :: act' =>
      if Nat.ltb i (ioff ic) then
        norm_loop act' coef grad P1 ic lb ub (Rabs (grad 0%nat)) (Some (Rabs (grad 0%nat)))
      else
        let j := (i - ioff ic)%nat in
        let t := Rabs (subgrad_term (coef i) (grad i) (P1 j) (lb j) (ub j)) in
        let mx' := match mx with Some m => if Rltb m t then Some t else Some m | None => None end in
        norm_loop act' coef grad P1 ic lb ub (norm + t) mx'
  end.
Definition norm_min_subgrad (act : list nat) (coef grad P1 : nat -> R) (ic : bool) (lb ub : bounds)
    : R * option R := norm_loop act coef grad P1 ic lb ub 0 None.

(** Result of the call: w, norm_min_subgrad, n_iter + 1, and whether the non-convergence
    warning was raised (for/else). *)
Record cd_result := mkCR { cr_w : nat -> R; cr_q : nat -> R; cr_norm : R; cr_cycles : nat; cr_warn : bool }.

(** _cd_fast.pyx 150-215: the outer loop, [m] iterations remain, current index [n].
    [norm] is the last computed norm_min_subgrad (0 initially).
    The test [d_w_max / w_max < d_w_tol] is only evaluated when w_max <> 0. *)
Fixpoint cd_loop (a : cd_args) (m n : nat) (seed : N) (norm : R) (w q : nat -> R) : cd_result :=
  match m with
  | O => mkCR w q norm n true
  | S m' =>
      let (seed', s) := cd_sweep a (length (cd_act a)) 0 seed (mkCS w q 0 0) in
      if Reqb (cs_wmax s) 0 || Rltb (cs_dwmax s / cs_wmax s) (cd_tol a) || Nat.eqb m' 0 then
        let nm := fst (norm_min_subgrad (cd_act a) (cs_w s) (cs_q s) (cd_P1 a) (cd_ic a) (cd_lb a) (cd_ub a)) in
        if Rleb nm (cd_tol a) then mkCR (cs_w s) (cs_q s) nm (S n) false
        else cd_loop a m' (S n) seed' nm (cs_w s) (cs_q s)
      else cd_loop a m' (S n) seed' norm (cs_w s) (cs_q s)
  end.
(** _cd_fast.pyx 109-215. [max_iter] >= 1 in every call from [_cd_solver]
    (max_inner_iter is 100000); for max_iter = 0 the reported cycle count would be 1. *)
Definition enet_coordinate_descent_gram (a : cd_args) (seed : N) (w q : nat -> R) : cd_result :=
  cd_loop a (cd_max_iter a) 0 seed 0 w q.
