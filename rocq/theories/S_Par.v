(** Specification for C75: which runs of a parallel loop are considered and what a data race is. *)
From Verif Require Export M_Par.
From Coq Require Export Permutation.
Local Open Scope R_scope.

(** the iterations 0..n-1 are divided among any number of threads, each exactly once, in any order
    (static, dynamic and guided scheduling are all of this form) *)
Definition division (n : nat) (chunks : list (list nat)) : Prop := Permutation (concat chunks) (seq 0 n).
(** the loop is over *)
Definition over (t : thread) : Prop := th_cur t = Done /\ th_todo t = [].
Definition all_over (ts : list thread) : Prop := List.Forall over ts.
(** the first n entries of an array after the loop *)
Definition read (m : memory) (a : arr) (n : nat) : list R := map (m a) (seq 0 n).
(** the arguments of the kernels hold the given rows *)
Definition line_search_args (m : memory) (l : list srow) : Prop :=
  forall i s, nth_error l i = Some s -> m ACurEta i = s_eta s /\ m AXDotD i = s_xd s /\ m AY i = s_y s /\ m AWeights i = s_w s.
Definition obs_args (m : memory) (l : list obs) : Prop :=
  forall i o, nth_error l i = Some o -> m AY i = oy o /\ m AWeights i = ow o /\ m AMu i = omu o.

(** what a thread is about to do to shared memory: location, and whether it writes *)
Definition next_access (t : thread) : option (arr * nat * bool) :=
  match th_cur t with
  | Load a i _ => Some (a, i, false)
  | Store a i _ _ => Some (a, i, true)
  | Accum _ _ _ | Done => None
  end.
(** two threads are about to access the same location and one of them writes *)
Definition race (ts : list thread) : Prop :=
  exists j k t u a i w1 w2, j <> k /\ nth_error ts j = Some t /\ nth_error ts k = Some u /\
    next_access t = Some (a, i, w1) /\ next_access u = Some (a, i, w2) /\ (w1 = true \/ w2 = true).
(** every entry of the schedule picks a thread that can still do something *)
Fixpoint effective (loop : nat -> body) (sched : list nat) (s : memory * list thread) : Prop :=
  match sched with
  | [] => True
  | k :: r => (exists t, nth_error (snd s) k = Some t /\ ~ over t) /\ effective loop r (par_step loop s k)
  end.
(** the loops of the code *)
Inductive loop_of_glum : (nat -> body) -> Prop :=
| loop_emd f lk factor K : emd_kernel f lk factor = Some K -> loop_of_glum (k_loop K)
| loop_rows f lk K : rows_kernel f lk = Some K -> loop_of_glum (k_loop K)
| loop_deviance f K : deviance_kernel f = Some K -> loop_of_glum (k_loop K)
| loop_ll lg tw f phi K : ll_kernel lg tw f phi = Some K -> loop_of_glum (k_loop K)
| loop_active C mx : loop_of_glum (k_loop (k_active_rows C mx)).
