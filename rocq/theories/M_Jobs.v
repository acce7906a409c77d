(** Model of how cross-validation runs its jobs: src/glum/_glm_cv.py 637-818 ([_fit_path] and joblib.Parallel).
    M_CV treats a job as a function; here a job is a sequence of steps that read and write attributes of
    [self] (col_means_, col_stds_, coef_path_, coef_) and an array in memory, so that schedules can be
    expressed.  joblib (external): a worker process unpickles a batch of jobs, which share one copy of
    [self], and runs them one after the other; n_jobs=1 is one worker with all jobs. *)
From Verif Require Export M_CV.
Local Open Scope R_scope.

(** the attributes of [self] a job touches, and the two-dimensional arrays with their number of rows;
    [sf_coef] is coef_ of an earlier fit *)
Record selfst := mkSelf {
  sf_means : nat -> R; sf_stds : nat -> R; sf_path : nat; sf_coef : nat -> R;
  sf_mats : list (nat * (nat -> nat -> R)) }.
Definition set_means (m : nat -> R) (s : selfst) := mkSelf m (sf_stds s) (sf_path s) (sf_coef s) (sf_mats s).
Definition set_stds (v : nat -> R) (s : selfst) := mkSelf (sf_means s) v (sf_path s) (sf_coef s) (sf_mats s).
Definition set_coef (v : nat -> R) (s : selfst) := mkSelf (sf_means s) (sf_stds s) (sf_path s) v (sf_mats s).
(** self.coef_path_ = np.empty(...) *)
Definition new_path (n : nat) (s : selfst) :=
  mkSelf (sf_means s) (sf_stds s) (length (sf_mats s)) (sf_coef s) (sf_mats s ++ [(n, fun _ _ => 0)]).
(** an in-place write into an array *)
Fixpoint put {A} (l : list A) (k : nat) (x : A) : list A :=
  match l, k with [], _ => [] | _ :: r, O => x :: r | y :: r, S j => y :: put r j x end.
Definition write_mat (l : nat) (m : nat * (nat -> nat -> R)) (s : selfst) :=
  mkSelf (sf_means s) (sf_stds s) (sf_path s) (sf_coef s) (put (sf_mats s) l m).
Definition get_mat (s : selfst) (l : nat) : nat * (nat -> nat -> R) := nth l (sf_mats s) (0%nat, fun _ _ => 0).

(** where _get_start_coef takes the start from; the warm start reads self.coef_ *)
Inductive start_kind := KWarm (c0 : R) | KNone | KParams (v : nat -> R).
Definition start_with (k : start_kind) (coef : nat -> R) : start_arg :=
  match k with KWarm c0 => StartWarm c0 coef | KNone => StartNone | KParams v => StartParams v end.

(** _glm_cv.py 785-801: the arguments of one job; [jb_u] carries the penalties of its l1_ratio *)
Record cvjob := mkJob { jb_u : user; jb_alphas : list R; jb_train : list row; jb_test : list row }.
Definition job_user (j : cvjob) : user := with_rows (jb_u j) (jb_train j).

(** where a job is *)
Inductive jstate :=
| JBegin                                     (* before the assignment of standardize's results *)
| JStds                                      (* self.col_means_ assigned *)
| JStart                                     (* self.col_stds_ assigned *)
| JAlloc (c : nat -> R)                      (* start coefficients computed *)
| JSolve (k : nat) (rest : list R) (c : nat -> R)   (* at the head of the loop over the alphas *)
| JWrite (k : nat) (rest : list R) (c : nat -> R)   (* solution k found *)
| JTrain (l : nat)                           (* _solve_regularization_path has returned array l *)
| JUnstd (l : nat) (tr : list R)             (* train deviances computed *)
| JTest (l : nat) (ints : option (nat -> R)) (tr : list R)   (* unstandardized *)
| JDone (l : nat) (ints : option (nat -> R)) (dev : list (option R)) (tr : list R)
| JRaise.

(** _glm_cv.py 719-726: [_get_train_deviance] of one row of coef *)
Definition job_train_dev (se : settings) (j : cvjob) (c : nat -> R) : R :=
  let u := job_user j in
  deviance (u_fam u)
    (map (fun i => mkobs (u_y u i) (u_w u i) (inverse1 (u_link u) (lin_pred (std_problem u se) c i + u_off u i))) (seq 0 (u_n u))).
(** the rows of an array as (intercept, coefficients): with [None] the intercept is column 0 *)
Definition mat_rows (ic : bool) (ints : option (nat -> R)) (m : nat * (nat -> nat -> R)) : list (R * (nat -> R)) :=
  map (fun i => (match ints with None => snd m i O | Some v => v i end, fun j => snd m i (ioff ic + j)%nat)) (seq 0 (fst m)).

(** one step of a job.  The weights of the training rows are divided by their sum (all zero gives NaN, not
    modelled: raises). *)
Definition jstep (solve : path_solver) (se : settings) (has_off : bool) (kind : start_kind) (j : cvjob) (st : jstate) (s : selfst)
    : jstate * selfst :=
  let u := job_user j in
  match st with
  | JBegin =>                                                    (* 649-656, 687-705: self.col_means_ = *)
      if Reqb (lsum (map r_w (jb_train j))) 0 then (JRaise, s) else (JStds, set_means (u_means u) s)
  | JStds => (JStart, set_stds (u_stds u) s)                     (* self.col_stds_ = *)
  | JStart =>                                                    (* 728-736, _glm.py 248-317 *)
      match start_guess u has_off (start_with kind (sf_coef s)) with
      | None => (JRaise, s)
      | Some g =>
          let c := get_start_coef (u_p u) (u_ic u) (sf_means s) (sf_stds s) g (u_lb u) (u_ub u) (start_with kind (sf_coef s)) in
          (* without intercept the warm start is the array self.coef_ itself, clipped in place *)
          (JAlloc c, match kind with KWarm _ => if u_ic u then s else set_coef c s | _ => s end)
      end
  | JAlloc c => (JSolve O (jb_alphas j) c, new_path (length (jb_alphas j)) s)           (* _glm.py 684 *)
  | JSolve k [] c => (JTrain (sf_path s), s)                                            (* _glm.py 715: return self.coef_path_ *)
  | JSolve k (al :: r) c =>                                                             (* _glm.py 686-704 *)
      match solve_alpha solve (std_problem u se) (std_problem_P2 u) al c with
      | None => (JRaise, s)
      | Some x => (JWrite k r (so_coef x), s)
      end
  | JWrite k r c =>                                                                     (* _glm.py 713: self.coef_path_[k, :] = coef *)
      let m := get_mat s (sf_path s) in
      if Nat.ltb k (fst m) then (JSolve (S k) r c, write_mat (sf_path s) (fst m, fun i => if Nat.eqb i k then c else snd m i) s)
      else (JRaise, s)
  | JTrain l => (JUnstd l (map (fun i => job_train_dev se j (snd (get_mat s l) i)) (seq 0 (fst (get_mat s l)))), s)   (* 750 *)
  | JUnstd l tr =>                                                                      (* 754-769, _utils.py 286-300, in place *)
      let m := get_mat s l in
      if u_ic u then
        (JTest l None tr,
         write_mat l (fst m, fun i k => match k with
           | O => snd m i O - rsum (u_p u) (fun q => sf_means s q * one_over (sf_stds s q) * snd m i (S q))
           | S q => snd m i (S q) * one_over (sf_stds s q) end) s)
      else
        (JTest l (Some (fun i => 0 - rsum (u_p u) (fun q => sf_means s q * one_over (sf_stds s q) * snd m i q))) tr,
         write_mat l (fst m, fun i q => snd m i q * one_over (sf_stds s q)) s)
  | JTest l ints tr =>                                           (* 760, 769: without intercept only coef_path_ is used *)
      (JDone l ints (map (test_deviance (jb_u j) (jb_test j))
                         (mat_rows (u_ic u) (if u_ic u then None else Some (fun _ => 0)) (get_mat s l))) tr, s)
  | JDone _ _ _ _ | JRaise => (st, s)
  end.

(** what a finished job returned: intercept_path_, coef_path_ (references into memory), deviances *)
Record jresult := mkRes { re_loc : nat; re_ints : option (nat -> R); re_dev : list (option R); re_train : list R }.
(** a worker process: its copy of self, the running job, the jobs of its batch still to run, the results *)
Record worker := mkWorker {
  wk_self : selfst; wk_run : option (nat * cvjob * jstate); wk_todo : list (nat * cvjob);
  wk_done : list (nat * cvjob * jresult); wk_failed : bool }.
Definition wstep (solve : path_solver) (se : settings) (has_off : bool) (kind : start_kind) (w : worker) : worker :=
  if wk_failed w then w
  else match wk_run w with
  | None => match wk_todo w with
            | [] => w
            | (id, j) :: r => mkWorker (wk_self w) (Some (id, j, JBegin)) r (wk_done w) false
            end
  | Some (id, j, JDone l ints dev tr) => mkWorker (wk_self w) None (wk_todo w) (wk_done w ++ [(id, j, mkRes l ints dev tr)]) false
  | Some (id, j, JRaise) => mkWorker (wk_self w) None (wk_todo w) (wk_done w) true
  | Some (id, j, st) => let '(st', s) := jstep solve se has_off kind j st (wk_self w) in
                        mkWorker s (Some (id, j, st')) (wk_todo w) (wk_done w) false
  end.
(** an arbitrary schedule: at each moment some worker makes a step *)
Fixpoint step_at (f : worker -> worker) (i : nat) (ws : list worker) : list worker :=
  match ws, i with [], _ => [] | w :: r, O => f w :: r | w :: r, S k => w :: step_at f k r end.
Definition run (solve : path_solver) (se : settings) (has_off : bool) (kind : start_kind) (sched : list nat) (ws : list worker) : list worker :=
  fold_left (fun ws i => step_at (wstep solve se has_off kind) i ws) sched ws.

(** what the caller sees of a job, read from memory when all jobs have ended (803-825) *)
Definition outcome := (list (R * (nat -> R)) * list (option R) * list R)%type.
Definition read_result (s : selfst) (j : cvjob) (r : jresult) : outcome :=
  (mat_rows (u_ic (job_user j)) (re_ints r) (get_mat s (re_loc r)), re_dev r, re_train r).
Definition results_of (w : worker) : list (nat * outcome) :=
  map (fun x => let '(id, j, r) := x in (id, read_result (wk_self w) j r)) (wk_done w).
Definition lookup {A} (id : nat) (l : list (nat * A)) : option A :=
  option_map snd (find (fun x => Nat.eqb (fst x) id) l).
(** joblib returns the results in the order of submission; an exception in any job is raised in the caller *)
Definition collect (n : nat) (ws : list worker) : option (list outcome) :=
  if existsb wk_failed ws then None
  else all_opt (map (fun id => lookup id (flat_map results_of ws)) (seq 0 n)).

(** _glm_cv.py 785-801: the jobs, folds in the outer loop, l1_ratios in the inner *)
Definition cv_jobs (us : list user) (grid : list (list R)) (folds : list fold) (rows : list row) : list cvjob :=
  flat_map (fun f => map (fun ug => mkJob (fst ug) (snd ug) (pick rows (fd_train f)) (pick rows (fd_test f))) (combine us grid)) folds.
(** np.reshape(l, (., k)): rows of length k *)
Fixpoint chunks {A} (n k : nat) (l : list A) : list (list A) :=
  match n with O => [] | S m => firstn k l :: chunks m k (skipn k l) end.

(** the same jobs as threads: all work on ONE self (joblib's prefer="processes" is a hint, which a
    parallel_backend("threading") context overrides) *)
Definition thread_step (solve : path_solver) (se : settings) (has_off : bool) (kind : start_kind)
    (ts : list (cvjob * jstate)) (s : selfst) (i : nat) : list (cvjob * jstate) * selfst :=
  match nth_error ts i with
  | None => (ts, s)
  | Some (j, st) => let '(st', s') := jstep solve se has_off kind j st s in (put ts i (j, st'), s')
  end.
Fixpoint run_threads (solve : path_solver) (se : settings) (has_off : bool) (kind : start_kind) (sched : list nat)
    (ts : list (cvjob * jstate)) (s : selfst) : list (cvjob * jstate) * selfst :=
  match sched with
  | [] => (ts, s)
  | i :: r => let '(ts', s') := thread_step solve se has_off kind ts s i in run_threads solve se has_off kind r ts' s'
  end.
