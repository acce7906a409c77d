(** Specification for C74: what a job returns when it is alone, and which runs are considered. *)
From Verif Require Export M_Jobs.
From Coq Require Export Permutation.
Local Open Scope R_scope.

(** what start_params and warm_start make of [coef], written down once more *)
Definition begins (kind : start_kind) (coef : nat -> R) : start_arg :=
  match kind with KWarm c0 => StartWarm c0 coef | KNone => StartNone | KParams v => StartParams v end.
(** the result of one split and one l1_ratio as a function of its data: path, test and train deviances.
    Nothing here mentions other jobs, a schedule or attributes of self ([coef] is coef_ of an earlier fit,
    used by warm starts) *)
Definition alone (solve : path_solver) (se : settings) (has_off : bool) (kind : start_kind) (coef : nat -> R) (j : cvjob) : option outcome :=
  let a := begins kind coef in
  if Reqb (lsum (map r_w (jb_train j))) 0 then None
  else match rows_path solve (jb_u j) se has_off a (jb_alphas j) (jb_train j),
             train_deviances solve (jb_u j) se has_off a (jb_alphas j) (jb_train j) with
       | Some fp, Some tr => Some (fp_path fp, map (test_deviance (jb_u j) (jb_test j)) (fp_path fp), tr)
       | _, _ => None
       end.

(** the beginning: batches of jobs handed to workers in any way, every worker with a copy of self in any
    state (stale attributes of earlier fits included) except that coef_ is the same *)
Definition idle_worker (coef : nat -> R) (w : worker) : Prop :=
  sf_coef (wk_self w) = coef /\ wk_run w = None /\ wk_done w = [] /\ wk_failed w = false.
Definition dispatched (coef : nat -> R) (jobs : list cvjob) (ws : list worker) : Prop :=
  List.Forall (idle_worker coef) ws /\ Permutation (flat_map wk_todo ws) (combine (seq 0 (length jobs)) jobs).
(** the end: every batch is finished, or an exception has occurred *)
Definition finished (w : worker) : Prop := wk_run w = None /\ wk_todo w = [].
Definition ended (ws : list worker) : Prop := List.Forall finished ws \/ List.Exists (fun w => wk_failed w = true) ws.
(** one family of hyper-parameters: jobs differ in rows, penalties and alphas, not in intercept and bounds *)
Definition same_model (j1 j2 : cvjob) : Prop :=
  u_ic (jb_u j1) = u_ic (jb_u j2) /\ u_lb (jb_u j1) = u_lb (jb_u j2) /\ u_ub (jb_u j1) = u_ub (jb_u j2).
