(** Property theorems C20-C23 (coordinate descent). *)
From Verif Require Import Base M_CD S_CD L_CDrng L_CD L_CDb L_KKT.

(** C20: every coefficient stays in its box, for any matrix, penalties, visiting order
    (cyclic or random, any seed), any number of sweeps. *)
Theorem C20_bounds_kept : forall (a : cd_args) (seed : N) (w q : nat -> R),
  (forall i, within (bnd_of (cd_ic a) (cd_lb a) i) (bnd_of (cd_ic a) (cd_ub a) i) (w i)) ->
  forall i, within (bnd_of (cd_ic a) (cd_lb a) i) (bnd_of (cd_ic a) (cd_ub a) i)
                   (cr_w (enet_coordinate_descent_gram a seed w q) i).
Proof. intros a seed w q H i. exact (cd_feas (fun _ => True) a seed w q (fun j _ => H j) i I). Qed.
Print Assumptions C20_bounds_kept.

(** A concrete instance: two features, intercept, box [-1,1] on the first, [0,inf) on the second. *)
Definition ex_args (rnd : bool) : cd_args :=
  mkCD [0;1;2]%nat (fun _ => 1/10) (fun i j => if Nat.eqb i j then 2 else 1/2) 100 (1/1000) true rnd
       (fun j => match j with O => Some (-1) | _ => Some 0 end)
       (fun j => match j with O => Some 1 | _ => None end) 0.
Example C20_nonvacuous : forall i,
  within (bnd_of true (cd_lb (ex_args true)) i) (bnd_of true (cd_ub (ex_args true)) i) (1/2).
Proof. intros [|[|i]]; split; cbn; intros b [=]; subst; lra. Qed.

(** C21: a visit of coordinate nth k active replaces it by the exact minimiser of the
    penalised quadratic model along that coordinate within its bounds (with a quadratic
    margin), touches no other coordinate, provided the maintained q is the model gradient
    at the current point. *)
Theorem C21_visit_is_exact_minimiser :
  forall (a : cd_args) (w0 q0 : nat -> R) (s : cd_state) (k : nat),
  NoDup (cd_act a) -> symmetric (length (cd_act a)) (cd_Q a) -> 0 <= cd_eps a ->
  (forall j, 0 <= cd_P1 a j) -> (k < length (cd_act a))%nat ->
  cs_q s (nth k (cd_act a) 0%nat) = quad_grad (cd_act a) (cd_Q a) q0 w0 (cs_w s) k ->
  cd_eps a < cd_Q a k k ->
  let i := nth k (cd_act a) 0%nat in
  let l := bnd_of (cd_ic a) (cd_lb a) i in let u := bnd_of (cd_ic a) (cd_ub a) i in
  let model := quad_model (cd_act a) (cd_Q a) q0 (pen_of (cd_ic a) (cd_P1 a)) w0 in
  let w' := cs_w (cd_visit a k s) in
  within l u (cs_w s i) ->
  within l u (w' i) /\ (forall j, j <> i -> w' j = cs_w s j) /\
  forall t, within l u t ->
    model w' + cd_Q a k k / 2 * ((t - w' i) * (t - w' i)) <= model (subst1 (cs_w s) i t).
Proof. intros a w0 q0 s k H1 H2 H3 H4. exact (visit_exact a w0 q0 s k (conj H1 (conj H2 (conj H3 H4)))). Qed.
Print Assumptions C21_visit_is_exact_minimiser.

(** C21: over a whole call (any order, any number of sweeps) the model value never exceeds
    the starting one, the maintained q is the model gradient on the active set, coordinates
    outside the active set are untouched, and the cycle count respects the limit. *)
Theorem C21_call_descends : forall (a : cd_args) (seed : N) (w q : nat -> R),
  NoDup (cd_act a) -> symmetric (length (cd_act a)) (cd_Q a) -> 0 <= cd_eps a ->
  (forall j, 0 <= cd_P1 a j) -> (seed < 2 ^ 32)%N ->
  (forall i, In i (cd_act a) ->
     within (bnd_of (cd_ic a) (cd_lb a) i) (bnd_of (cd_ic a) (cd_ub a) i) (w i)) ->
  let r := enet_coordinate_descent_gram a seed w q in
  let model := quad_model (cd_act a) (cd_Q a) q (pen_of (cd_ic a) (cd_P1 a)) w in
  model (cr_w r) <= model w
  /\ (forall l, (l < length (cd_act a))%nat ->
        cr_q r (nth l (cd_act a) 0%nat) = quad_grad (cd_act a) (cd_Q a) q w (cr_w r) l)
  /\ (forall i, ~ In i (cd_act a) -> cr_w r i = w i)
  /\ (cr_cycles r <= cd_max_iter a)%nat.
Proof.
  intros a seed w q H1 H2 H3 H4 Hs F r model.
  destruct (cd_total a seed w q (conj H1 (conj H2 (conj H3 H4))) Hs) as [[I1 I2 I3 I4] [C _]].
  exact (conj (I4 F) (conj I1 (conj I3 C))).
Qed.
Print Assumptions C21_call_descends.

Example C21_nonvacuous : NoDup (cd_act (ex_args true)) /\ symmetric 3 (cd_Q (ex_args true)) /\
  (forall j, 0 <= cd_P1 (ex_args true) j) /\ cd_eps (ex_args true) < cd_Q (ex_args true) 1 1.
Proof.
  repeat split.
  - repeat constructor; simpl; intuition discriminate.
  - intros i j _ _. cbn. rewrite Nat.eqb_sym. reflexivity.
  - intros j; cbn; lra.
  - cbn. lra.
Qed.

(** C22: the reported norm is zero exactly when no admissible coordinate move decreases the
    linearised penalised objective (KKT), intercept unpenalised and unbounded. *)
Theorem C22_norm_zero_iff_kkt : forall n coef grad P1 ic (lb ub : bounds),
  (forall j, 0 <= P1 j) ->
  (forall i, (i < n)%nat -> within (bnd_of ic lb i) (bnd_of ic ub i) (coef i)) ->
  (fst (norm_min_subgrad (seq 0 n) coef grad P1 ic lb ub) = 0 <->
   forall i, (i < n)%nat ->
     coord_stationary (grad i) (pen_of ic P1 i) (bnd_of ic lb i) (bnd_of ic ub i) (coef i)).
Proof. exact norm_zero_iff. Qed.
Print Assumptions C22_norm_zero_iff_kkt.

(** C22: if grad supports the smooth objective at coef, the penalised objective at coef is
    within norm * D of the value at every feasible v at sup-distance at most D.  In particular
    norm = 0 means global optimality over the box. *)
Theorem C22_suboptimality : forall n f coef grad P1 ic (lb ub : bounds) v D,
  (forall j, 0 <= P1 j) ->
  (forall i, (i < n)%nat -> within (bnd_of ic lb i) (bnd_of ic ub i) (coef i)) ->
  (forall i, (i < n)%nat -> within (bnd_of ic lb i) (bnd_of ic ub i) (v i)) ->
  supports n f coef grad ->
  (forall i, (i < n)%nat -> Rabs (v i - coef i) <= D) ->
  f coef + rsum n (fun i => pen_of ic P1 i * Rabs (coef i))
  <= f v + rsum n (fun i => pen_of ic P1 i * Rabs (v i))
     + fst (norm_min_subgrad (seq 0 n) coef grad P1 ic lb ub) * D.
Proof. exact subopt. Qed.
Print Assumptions C22_suboptimality.

(** C22 for the inner solver: a call that does not warn returns a point whose KKT violation
    for the quadratic model, summed over the active set, is at most tol. *)
Theorem C22_inner_solver_converged : forall (a : cd_args) (seed : N) (w q : nat -> R),
  NoDup (cd_act a) -> symmetric (length (cd_act a)) (cd_Q a) -> 0 <= cd_eps a ->
  (forall j, 0 <= cd_P1 a j) -> (seed < 2 ^ 32)%N ->
  let r := enet_coordinate_descent_gram a seed w q in
  cr_warn r = false ->
  cr_norm r <= cd_tol a /\
  cr_norm r = fst (norm_min_subgrad (cd_act a) (cr_w r) (cr_q r) (cd_P1 a) (cd_ic a) (cd_lb a) (cd_ub a)) /\
  (forall l, (l < length (cd_act a))%nat ->
     cr_q r (nth l (cd_act a) 0%nat) = quad_grad (cd_act a) (cd_Q a) q w (cr_w r) l).
Proof.
  intros a seed w q H1 H2 H3 H4 Hs r Hw.
  destruct (cd_total a seed w q (conj H1 (conj H2 (conj H3 H4))) Hs) as [I [_ C]].
  destruct (C Hw) as [C1 C2]. exact (conj C1 (conj C2 (inv_q _ _ _ _ _ I))).
Qed.
Print Assumptions C22_inner_solver_converged.

(** Non-vacuity: f(w) = (w0-1)^2 + (w1-3)^2, box w1 <= 2, penalty 1 on w1; w = (1,2) is KKT:
    gradient (0,-2), and it is supported. *)
Example C22_nonvacuous :
  let f := fun w : nat -> R => (w 0%nat - 1)^2 + (w 1%nat - 3)^2 in
  let w := fun i : nat => match i with O => 1 | _ => 2 end in
  let g := fun i : nat => match i with O => 0 | _ => -2 end in
  supports 2 f w g /\
  fst (norm_min_subgrad (seq 0 2) w g (fun _ => 1) true (fun _ => None) (fun _ => Some 2)) = 0 /\
  fst (norm_min_subgrad (seq 0 2) w g (fun _ => 1) true (fun _ => None) (fun _ => None)) <> 0.
Proof.
  cbv zeta. split; [|split].
  - intros v. cbn. assert (H1 := Rle_0_sqr (v 0%nat - 1)). assert (H2 := Rle_0_sqr (v 1%nat - 2)).
    unfold Rsqr in *. nra.
  - apply norm_zero_iff; [intros; lra| |].
    + intros [|[|i]] Hi; try lia; split; cbn; intros b [=]; subst; lra.
    + intros [|[|i]] Hi t [_ Ht]; try lia; cbn in *; [lra|]. specialize (Ht 2 eq_refl). rabs.
  - intros E. apply norm_zero_iff with (i := 1%nat) in E; [|intros; lra| |lia].
    + specialize (E 3). cbn in E. assert (W : within None None 3) by (split; intros b [=]). specialize (E W). rabs.
    + intros [|[|i]] Hi; try lia; split; cbn; intros b [=].
Qed.

(** C23: every draw gives an index in [0, n) and a new non-zero 32-bit state; distinct
    non-zero states have distinct successors. *)
Theorem C23_rand_int_valid : forall (n : nat) (seed : N), (0 < n)%nat -> (seed < 2 ^ 32)%N ->
  let (k, s) := rand_int n seed in (k < n)%nat /\ (s < 2 ^ 32)%N /\ s <> 0%N.
Proof. exact rand_int_ok. Qed.
Print Assumptions C23_rand_int_valid.

Theorem C23_state_map_injective : forall x y : N,
  (x < 2 ^ 32)%N -> (y < 2 ^ 32)%N -> x <> 0%N -> y <> 0%N ->
  snd (our_rand_r x) = snd (our_rand_r y) -> x = y.
Proof. exact our_rand_r_inj. Qed.
Print Assumptions C23_state_map_injective.

Example C23_nonvacuous : rand_int 7 2463534242 = (1%nat, 723471715%N).
Proof. vm_compute. reflexivity. Qed.
