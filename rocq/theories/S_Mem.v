(** Vocabulary for the theorems about memory (C73). *)
From Verif Require Export M_Mem.
Local Open Scope R_scope.

(** an array the caller can see before the call still has its contents afterwards *)
Definition untouched (h h' : heap) (l : loc) : Prop := forall c, nth_error h l = Some c -> nth_error h' l = Some c.
(** [l] exists in memory *)
Definition held (h : heap) (l : loc) : Prop := (l < length h)%nat.
Definition held_opt (h : heap) (o : option loc) : Prop := match o with Some l => held h l | None => True end.
(** every array passed to fit exists *)
Definition args_held (a : margs) (h : heap) : Prop :=
  held h (g_X a) /\ held h (g_y a) /\ held_opt h (g_w a) /\ held_opt h (g_off a) /\ held_opt h (g_P1 a) /\
  match g_P2 a with L2Identity => True | L2Vec l | L2Mat l => held h l end /\
  held_opt h (g_lb a) /\ held_opt h (g_ub a) /\
  match g_start a with LWarm _ l | LParams l => held h l | LNone => True end.
(** the array stored as coef_ by an earlier fit serves as start without being copied *)
Definition reused (a : margs) (l : loc) : Prop := g_ic a = false /\ exists c0, g_start a = LWarm c0 l.
(** ... and is not at the same time passed as data *)
Definition reused_apart (a : margs) : Prop := forall l, reused a l ->
  g_X a <> l /\ g_y a <> l /\ g_off a <> Some l /\ g_lb a <> Some l /\ g_ub a <> Some l.

(** bounds have one entry per column *)
Definition bounds_shaped (a : margs) (h : heap) : Prop :=
  forall j, (g_p a <= j)%nat -> obnd h (g_lb a) j = None /\ obnd h (g_ub a) j = None.

(** the values a fit is called with, read from memory before the call *)
Definition values_of (a : margs) (h : heap) : user :=
  let w := match g_w a with Some l => vec_at h l | None => fun _ => 1 end in
  mkUser (g_n a) (g_p a) (mat_at h (g_X a)) (vec_at h (g_y a)) (fun i => w i / rsum (g_n a) w)
    (match g_off a with Some l => vec_at h l | None => fun _ => 0 end) (g_ic a) (g_fam a) (g_link a)
    (fun j => 1 * g_l1 a * match g_P1 a with Some l => vec_at h l j | None => 1 end)
    (match g_P2 a with
     | L2Identity => P2diag (fun j => 1 * (1 - g_l1 a) * 1)
     | L2Vec l => P2diag (fun j => 1 * (1 - g_l1 a) * vec_at h l j)
     | L2Mat l => P2mat (fun i j => 1 / 2 * (1 * (1 - g_l1 a) * mat_at h l i j + 1 * (1 - g_l1 a) * mat_at h l j i))
     end)
    (obnd h (g_lb a)) (obnd h (g_ub a)) (g_scale a).
Definition start_of (a : margs) (h : heap) : start_arg :=
  match g_start a with LWarm c0 l => StartWarm c0 (vec_at h l) | LNone => StartNone | LParams l => StartParams (vec_at h l) end.
Definition has_offset (a : margs) : bool := match g_off a with Some _ => true | None => false end.

(** what the caller reads after the call *)
Definition observe (a : margs) (k : nat) (r : mem_out * heap) : list (R * (nat -> R)) * list sol :=
  match r with
  | (OutOne c i s, h) => ([read_one (g_ic a) h c i], [s])
  | (OutPath path ints sols, h) => (map (read_entry (g_ic a) h path ints) (seq 0 k), sols)
  end.
(** the arrays a fit returns *)
Definition returned (o : mem_out) (l : loc) : Prop :=
  match o with OutOne c _ _ => l = c | OutPath p i _ => l = p \/ i = Some l end.

(** the same fit on values: the chain of solves of M_Path and M_Std *)
Definition value_fit (solve : path_solver) (u : user) (se : settings) (has_off : bool) (a : start_arg) (alphas : list R)
    : option (list (R * (nat -> R)) * list sol) :=
  match start_guess u has_off a with
  | None => None
  | Some g =>
      match solve_path solve (std_problem u se) (std_problem_P2 u) alphas (path_start u g a) with
      | None => None
      | Some sols => Some (map (fun s => user_result u (so_coef s)) sols, sols)
      end
  end.
