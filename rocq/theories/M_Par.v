(** Model of the parallel loops of the compiled kernels: src/glum/_functions.pyx (all 26 [prange] loops)
    and src/glum/_cd_fast.pyx 97-102.  M_Dist and M_Solver give the kernels as functions; here the body of
    a loop is a sequence of single loads, stores and updates of a reduction variable, and the loop is run
    by several threads in any interleaving.
    OpenMP/Cython semantics (external): the iterations 0..n-1 are divided among the threads, each exactly
    once; scalars assigned in the body are private to the iteration (here: bound by [fun] and [let]);
    scalars updated with += or -= are reductions, i.e. each thread has an accumulator that starts at 0 and
    the accumulators are added to the initial value (0) at the end; everything else is shared.
    Numbers are reals: the order in which the accumulators are added does not matter (in floating point it
    changes the last bits).  Arrays with different names do not overlap: the _out arrays are allocated by
    the callers (_distribution.py 331-408, np.empty_like) just before the call. *)
From Verif Require Export M_Dist M_Solver.
Local Open Scope R_scope.

(** the arguments of the kernels that are arrays *)
Inductive arr := ACurEta | AXDotD | AY | AWeights | AEta | AMu | AEtaOut | AMuOut | AGradOut | AHessOut
               | AHess | AOldHess | ADiff.
Definition arr_eq_dec : forall a b : arr, {a = b} + {a <> b}.
Proof. decide equality. Defined.
Definition memory := arr -> nat -> R.

(** what one iteration still has to do *)
Inductive body :=
| Done
| Load (a : arr) (i : nat) (k : R -> body)
| Store (a : arr) (i : nat) (v : R) (k : body)
| Accum (r : nat) (v : R) (k : body).
Declare Scope body_scope.
Delimit Scope body_scope with body.
Notation "x <- a @ i ;; k" := (Load a i (fun x => k)) (at level 61, a at next level, i at next level, right associativity) : body_scope.
Notation "a @ i ::= v ;; k" := (Store a i v k) (at level 61, i at next level, v at next level, right associativity) : body_scope.
Notation "'red' r '+=' v ;; k" := (Accum r v k) (at level 61, r at next level, v at next level, right associativity) : body_scope.
Local Open Scope body_scope.

(** ** Threads *)
Record thread := mkTh { th_cur : body; th_todo : list nat; th_acc : nat -> R }.
Definition store (m : memory) (a : arr) (i : nat) (v : R) : memory :=
  fun b j => if arr_eq_dec b a then (if Nat.eqb j i then v else m b j) else m b j.
Definition add_acc (acc : nat -> R) (r : nat) (v : R) : nat -> R := fun s => if Nat.eqb s r then acc s + v else acc s.

(** one access of one thread; [None]: the thread has finished *)
Definition thread_step (loop : nat -> body) (m : memory) (t : thread) : option (memory * thread) :=
  match th_cur t with
  | Done => match th_todo t with
            | [] => None
            | i :: r => Some (m, mkTh (loop i) r (th_acc t))
            end
  | Load a i k => Some (m, mkTh (k (m a i)) (th_todo t) (th_acc t))
  | Store a i v k => Some (store m a i v, mkTh k (th_todo t) (th_acc t))
  | Accum r v k => Some (m, mkTh k (th_todo t) (add_acc (th_acc t) r v))
  end.
Fixpoint set_nth {A} (l : list A) (k : nat) (x : A) : list A :=
  match l, k with [], _ => [] | _ :: r, O => x :: r | y :: r, S j => y :: set_nth r j x end.
(** thread number k is scheduled *)
Definition par_step (loop : nat -> body) (s : memory * list thread) (k : nat) : memory * list thread :=
  match nth_error (snd s) k with
  | None => s
  | Some t => match thread_step loop (fst s) t with
              | None => s
              | Some (m', t') => (m', set_nth (snd s) k t')
              end
  end.
Definition par_run (loop : nat -> body) (sched : list nat) (s : memory * list thread) := fold_left (par_step loop) sched s.
(** the threads at the beginning, for a division of the iterations *)
Definition threads_of (chunks : list (list nat)) : list thread := map (fun c => mkTh Done c (fun _ => 0)) chunks.
(** the value of a reduction variable after the loop *)
Definition reduced (ts : list thread) (r : nat) : R := 0 + lsumf (fun t => th_acc t r) ts.

(** a kernel: the loop body and what the function returns, given the reduction variables *)
Record kernel := mkKernel { k_loop : nat -> body; k_return : (nat -> R) -> R }.

(** ** eta_mu_deviance kernels *)
(** _functions.pyx 29-45 *)
Definition k_normal_identity_emd (factor : R) : kernel := mkKernel (fun i =>
  e <- ACurEta @ i ;; d <- AXDotD @ i ;; AEtaOut @ i ::= (e + factor * d) ;;
  t <- AEtaOut @ i ;; AMuOut @ i ::= t ;;
  w <- AWeights @ i ;; y <- AY @ i ;; m <- AMuOut @ i ;; red 0 += (w * (y - m) ^ 2) ;; Done)
  (fun acc => acc 0%nat).
(** _functions.pyx 99-115 *)
Definition k_poisson_log_emd (factor : R) : kernel := mkKernel (fun i =>
  e <- ACurEta @ i ;; d <- AXDotD @ i ;; AEtaOut @ i ::= (e + factor * d) ;;
  t <- AEtaOut @ i ;; AMuOut @ i ::= (exp t) ;;
  w <- AWeights @ i ;; y <- AY @ i ;; t2 <- AEtaOut @ i ;; m <- AMuOut @ i ;; red 0 += (w * (y * t2 - m)) ;; Done)
  (fun acc => -2 * acc 0%nat).
(** _functions.pyx 167-183 *)
Definition k_gamma_log_emd (factor : R) : kernel := mkKernel (fun i =>
  e <- ACurEta @ i ;; d <- AXDotD @ i ;; AEtaOut @ i ::= (e + factor * d) ;;
  t <- AEtaOut @ i ;; AMuOut @ i ::= (exp t) ;;
  w <- AWeights @ i ;; y <- AY @ i ;; m <- AMuOut @ i ;; t2 <- AEtaOut @ i ;; red 0 += (w * (y / m + t2)) ;; Done)
  (fun acc => 2 * acc 0%nat).
(** _functions.pyx 238-261 *)
Definition k_inv_gaussian_log_emd (factor : R) : kernel := mkKernel (fun i =>
  e <- ACurEta @ i ;; d <- AXDotD @ i ;; AEtaOut @ i ::= (e + factor * d) ;;
  t <- AEtaOut @ i ;; AMuOut @ i ::= (exp t) ;;
  y <- AY @ i ;; m <- AMuOut @ i ;; let sq_err := (y / m - 1) ^ 2 in
  w <- AWeights @ i ;; y2 <- AY @ i ;; red 0 += (w * sq_err / y2) ;; Done)
  (fun acc => acc 0%nat).
(** _functions.pyx 327-346 *)
Definition k_tweedie_log_emd (p factor : R) : kernel := mkKernel (fun i =>
  e <- ACurEta @ i ;; d <- AXDotD @ i ;; AEtaOut @ i ::= (e + factor * d) ;;
  t <- AEtaOut @ i ;; AMuOut @ i ::= (exp t) ;;
  m <- AMuOut @ i ;; let mu1mp := Rpower m (1 - p) in
  w <- AWeights @ i ;; m2 <- AMuOut @ i ;; y <- AY @ i ;; red 0 += (w * mu1mp * (m2 / (2 - p) - y / (1 - p))) ;; Done)
  (fun acc => 2 * acc 0%nat).
(** _functions.pyx 473-506 *)
Definition k_binomial_logit_emd (factor : R) : kernel := mkKernel (fun i =>
  e <- ACurEta @ i ;; d <- AXDotD @ i ;; AEtaOut @ i ::= (e + factor * d) ;;
  t <- AEtaOut @ i ;;
  if Rlt_dec 0 t then
    t1 <- AEtaOut @ i ;; let expnegeta := exp (- t1) in
    w <- AWeights @ i ;; y <- AY @ i ;; t2 <- AEtaOut @ i ;; t3 <- AEtaOut @ i ;;
    let unit_deviance := w * (y * t2 - t3 - ln (1 + expnegeta)) in
    AMuOut @ i ::= (1 / (1 + expnegeta)) ;; red 0 += unit_deviance ;; Done
  else
    t1 <- AEtaOut @ i ;; let expposeta := exp t1 in
    w <- AWeights @ i ;; y <- AY @ i ;; t2 <- AEtaOut @ i ;;
    let unit_deviance := w * (y * t2 - ln (1 + expposeta)) in
    AMuOut @ i ::= (expposeta / (expposeta + 1)) ;; red 0 += unit_deviance ;; Done)
  (fun acc => -2 * acc 0%nat).
(** _functions.pyx 522-541 *)
Definition k_negative_binomial_log_emd (theta factor : R) : kernel := let r := 1 / theta in mkKernel (fun i =>
  e <- ACurEta @ i ;; d <- AXDotD @ i ;; AEtaOut @ i ::= (e + factor * d) ;;
  t <- AEtaOut @ i ;; AMuOut @ i ::= (exp t) ;;
  w <- AWeights @ i ;; y <- AY @ i ;; t2 <- AEtaOut @ i ;; y2 <- AY @ i ;; m <- AMuOut @ i ;;
  red 0 += (w * (- y * t2 + (y2 + r) * ln (m + r))) ;; Done)
  (fun acc => 2 * acc 0%nat).
(** which kernel _eta_mu_deviance calls: _distribution.py 684-713, 828-846, 942-960, 1055-1073,
    1165-1183, 1293-1311, 1432-1456; [None] = the NumPy default 331-356 *)
Definition emd_kernel (f : family) (lk : link) (factor : R) : option kernel :=
  match f, lk with
  | TweedieF p, IdentityL => if Req_EM_T p 0 then Some (k_normal_identity_emd factor) else None
  | TweedieF p, LogL =>
      if Req_EM_T p 1 then Some (k_poisson_log_emd factor)
      else if Req_EM_T p 2 then Some (k_gamma_log_emd factor)
      else if Rlt_dec 1 p then
        (if Rlt_dec p 2 then Some (k_tweedie_log_emd p factor)
         else if Req_EM_T p 3 then Some (k_inv_gaussian_log_emd factor) else None)
      else None
  | NormalF, IdentityL => Some (k_normal_identity_emd factor)
  | PoissonF, LogL => Some (k_poisson_log_emd factor)
  | GammaF, LogL => Some (k_gamma_log_emd factor)
  | InvGaussF, LogL => Some (k_inv_gaussian_log_emd factor)
  | BinomialF, LogitL => Some (k_binomial_logit_emd factor)
  | NegBinF theta, LogL => Some (k_negative_binomial_log_emd theta factor)
  | _, _ => None
  end.

(** ** rowwise gradient and Hessian kernels: they return nothing *)
(** _functions.pyx 48-63 *)
Definition k_normal_identity_rows : kernel := mkKernel (fun i =>
  w <- AWeights @ i ;; y <- AY @ i ;; m <- AMu @ i ;; AGradOut @ i ::= (w * (y - m)) ;;
  w2 <- AWeights @ i ;; AHessOut @ i ::= w2 ;; Done) (fun _ => 0).
(** _functions.pyx 117-129 *)
Definition k_poisson_log_rows : kernel := mkKernel (fun i =>
  w <- AWeights @ i ;; y <- AY @ i ;; m <- AMu @ i ;; AGradOut @ i ::= (w * (y - m)) ;;
  w2 <- AWeights @ i ;; m2 <- AMu @ i ;; AHessOut @ i ::= (w2 * m2) ;; Done) (fun _ => 0).
(** _functions.pyx 185-197 *)
Definition k_gamma_log_rows : kernel := mkKernel (fun i =>
  w <- AWeights @ i ;; y <- AY @ i ;; m <- AMu @ i ;; AGradOut @ i ::= (w * (y / m - 1)) ;;
  w2 <- AWeights @ i ;; y2 <- AY @ i ;; m2 <- AMu @ i ;; AHessOut @ i ::= (w2 * (y2 / m2)) ;; Done) (fun _ => 0).
(** _functions.pyx 263-284 *)
Definition k_inv_gaussian_log_rows : kernel := mkKernel (fun i =>
  m <- AMu @ i ;; let inv_mu := 1 / m in let inv_mu2 := inv_mu ^ 2 in
  w <- AWeights @ i ;; y <- AY @ i ;; AGradOut @ i ::= (w * (y * inv_mu2 - inv_mu)) ;;
  w2 <- AWeights @ i ;; AHessOut @ i ::= (w2 * inv_mu) ;; Done) (fun _ => 0).
(** _functions.pyx 348-366 *)
Definition k_tweedie_log_rows (p : R) : kernel := mkKernel (fun i =>
  m <- AMu @ i ;; let mu1mp := Rpower m (1 - p) in
  y <- AY @ i ;; m1 <- AMu @ i ;; let ymm := y - m1 in
  w <- AWeights @ i ;; AGradOut @ i ::= (w * mu1mp * ymm) ;;
  w2 <- AWeights @ i ;; m2 <- AMu @ i ;; AHessOut @ i ::= (w2 * mu1mp * (m2 - (1 - p) * ymm)) ;; Done) (fun _ => 0).
(** _functions.pyx 508-520 *)
Definition k_binomial_logit_rows : kernel := mkKernel (fun i =>
  w <- AWeights @ i ;; y <- AY @ i ;; m <- AMu @ i ;; AGradOut @ i ::= (w * (y - m)) ;;
  w2 <- AWeights @ i ;; m2 <- AMu @ i ;; m3 <- AMu @ i ;; AHessOut @ i ::= (w2 * m2 * (1 - m3)) ;; Done) (fun _ => 0).
(** _functions.pyx 543-556 *)
Definition k_negative_binomial_log_rows (theta : R) : kernel := mkKernel (fun i =>
  w <- AWeights @ i ;; y <- AY @ i ;; m <- AMu @ i ;; m1 <- AMu @ i ;; AGradOut @ i ::= (w * (y - m) / (1 + theta * m1)) ;;
  w2 <- AWeights @ i ;; m2 <- AMu @ i ;; m3 <- AMu @ i ;; AHessOut @ i ::= (w2 * m2 / (1 + theta * m3)) ;; Done) (fun _ => 0).
(** which kernel _rowwise_gradient_hessian calls: _distribution.py 661-682, 816-826, 930-940, 1043-1053,
    1153-1163, 1282-1291, 1421-1430; [None] = the NumPy default 390-408 *)
Definition rows_kernel (f : family) (lk : link) : option kernel :=
  match f, lk with
  | TweedieF p, IdentityL => if Req_EM_T p 0 then Some k_normal_identity_rows else None
  | TweedieF p, LogL =>
      if Req_EM_T p 1 then Some k_poisson_log_rows
      else if Req_EM_T p 2 then Some k_gamma_log_rows
      else if Rlt_dec 1 p then
        (if Rlt_dec p 2 then Some (k_tweedie_log_rows p)
         else if Req_EM_T p 3 then Some k_inv_gaussian_log_rows else None)
      else None
  | NormalF, IdentityL => Some k_normal_identity_rows
  | PoissonF, LogL => Some k_poisson_log_rows
  | GammaF, LogL => Some k_gamma_log_rows
  | InvGaussF, LogL => Some k_inv_gaussian_log_rows
  | BinomialF, LogitL => Some k_binomial_logit_rows
  | NegBinF theta, LogL => Some (k_negative_binomial_log_rows theta)
  | _, _ => None
  end.

(** ** deviance kernels *)
(** _functions.pyx 83-97 *)
Definition k_normal_deviance : kernel := mkKernel (fun i =>
  w <- AWeights @ i ;; y <- AY @ i ;; m <- AMu @ i ;; red 0 += (w * (y - m) ^ 2) ;; Done) (fun acc => acc 0%nat).
(** _functions.pyx 149-165 *)
Definition k_poisson_deviance : kernel := mkKernel (fun i =>
  w <- AWeights @ i ;; m <- AMu @ i ;; red 0 += (w * m) ;;
  y <- AY @ i ;; if Rlt_dec 0 y then
    w2 <- AWeights @ i ;; y2 <- AY @ i ;; y3 <- AY @ i ;; m2 <- AMu @ i ;; red 0 += (w2 * y2 * (ln y3 - ln m2 - 1)) ;; Done
  else Done) (fun acc => 2 * acc 0%nat).
(** _functions.pyx 222-236 *)
Definition k_gamma_deviance : kernel := mkKernel (fun i =>
  w <- AWeights @ i ;; m <- AMu @ i ;; y <- AY @ i ;; y2 <- AY @ i ;; m2 <- AMu @ i ;;
  red 0 += (w * (ln m - ln y + y2 / m2 - 1)) ;; Done) (fun acc => 2 * acc 0%nat).
(** _functions.pyx 310-325 *)
Definition k_inv_gaussian_deviance : kernel := mkKernel (fun i =>
  y <- AY @ i ;; m <- AMu @ i ;; let sq_err := (y / m - 1) ^ 2 in
  w <- AWeights @ i ;; y2 <- AY @ i ;; red 0 += (w * sq_err / y2) ;; Done) (fun acc => acc 0%nat).
(** _functions.pyx 368-389 *)
Definition k_tweedie_deviance (p : R) : kernel := mkKernel (fun i =>
  m <- AMu @ i ;; let mu1mp := Rpower m (1 - p) in
  w <- AWeights @ i ;; m2 <- AMu @ i ;; red 0 += (w * (mu1mp * m2) / (2 - p)) ;;
  y <- AY @ i ;; if Rlt_dec 0 y then
    y2 <- AY @ i ;; let yo1mp := y2 / (1 - p) in
    w2 <- AWeights @ i ;; y3 <- AY @ i ;; red 0 += (w2 * (Rpower y3 (1 - p) * yo1mp / (2 - p) - yo1mp * mu1mp)) ;; Done
  else Done) (fun acc => 2 * acc 0%nat).
(** _functions.pyx 582-599 *)
Definition k_negative_binomial_deviance (theta : R) : kernel := let r := 1 / theta in mkKernel (fun i =>
  w <- AWeights @ i ;; y <- AY @ i ;; y1 <- AY @ i ;; m <- AMu @ i ;; red 0 += (- w * (y + r) * ln ((y1 + r) / (m + r))) ;;
  y2 <- AY @ i ;; if Rlt_dec 0 y2 then
    w2 <- AWeights @ i ;; y3 <- AY @ i ;; y4 <- AY @ i ;; m2 <- AMu @ i ;; red 0 += (w2 * y3 * ln (y4 / m2)) ;; Done
  else Done) (fun acc => 2 * acc 0%nat).
(** which kernel deviance calls: _distribution.py 625-641, 804, 917, 1031, 1144, 1407; [None] = 231-254 *)
Definition deviance_kernel (f : family) : option kernel :=
  match f with
  | TweedieF p =>
      if Req_EM_T p 0 then Some k_normal_deviance
      else if Req_EM_T p 1 then Some k_poisson_deviance
      else if Req_EM_T p 2 then Some k_gamma_deviance
      else if Req_EM_T p 3 then Some k_inv_gaussian_deviance
      else Some (k_tweedie_deviance p)
  | NormalF => Some k_normal_deviance
  | PoissonF => Some k_poisson_deviance
  | GammaF => Some k_gamma_deviance
  | InvGaussF => Some k_inv_gaussian_deviance
  | NegBinF theta => Some (k_negative_binomial_deviance theta)
  | GHSF | BinomialF => None
  end.

(** ** log-likelihood kernels *)
Section LL.
Variable lgamma : R -> R.
Variable tw_norm : R -> R -> R -> R.
(** _functions.pyx 65-81 *)
Definition k_normal_ll (phi : R) : kernel := mkKernel (fun i =>
  w <- AWeights @ i ;; y <- AY @ i ;; m <- AMu @ i ;; red 0 += (- (w * (y - m) ^ 2)) ;;
  w2 <- AWeights @ i ;; red 1 += (- w2) ;; Done)
  (fun acc => acc 0%nat / (2 * phi) + acc 1%nat * ln (2 * PI * phi) / 2).
(** _functions.pyx 131-147 *)
Definition k_poisson_ll : kernel := mkKernel (fun i =>
  w <- AWeights @ i ;; m <- AMu @ i ;; red 0 += (- (w * m)) ;;
  y <- AY @ i ;; if Rlt_dec 0 y then
    w2 <- AWeights @ i ;; y2 <- AY @ i ;; y3 <- AY @ i ;; m2 <- AMu @ i ;; red 0 += (- (w2 * (lgamma (1 + y2) - y3 * ln m2))) ;; Done
  else Done) (fun acc => acc 0%nat).
(** _functions.pyx 199-220 *)
Definition k_gamma_ll (phi : R) : kernel :=
  let inv_dispersion := 1 / phi in let normalization := ln phi * inv_dispersion + lgamma inv_dispersion in
  mkKernel (fun i =>
  y <- AY @ i ;; let ln_y := ln y in
  w <- AWeights @ i ;; m <- AMu @ i ;; y2 <- AY @ i ;; m2 <- AMu @ i ;; red 0 += (w * (inv_dispersion * (ln_y - ln m - y2 / m2) - ln_y)) ;;
  w2 <- AWeights @ i ;; red 1 += w2 ;; Done)
  (fun acc => acc 0%nat - normalization * acc 1%nat).
(** _functions.pyx 286-308 *)
Definition k_inv_gaussian_ll (phi : R) : kernel := let scale := 1 / (2 * phi) in mkKernel (fun i =>
  y <- AY @ i ;; m <- AMu @ i ;; let sq_err := (y / m - 1) ^ 2 in
  w <- AWeights @ i ;; y2 <- AY @ i ;; y3 <- AY @ i ;; red 0 += (- (w * (scale * sq_err / y2 + ln y3 * 3 / 2))) ;;
  w2 <- AWeights @ i ;; red 1 += w2 ;; Done)
  (fun acc => acc 0%nat + acc 1%nat * ln (scale / PI) / 2).
(** _functions.pyx 391-419; the called functions work on private values only *)
Definition k_tweedie_ll (p phi : R) : kernel := mkKernel (fun i =>
  w <- AWeights @ i ;; y <- AY @ i ;; m <- AMu @ i ;; red 0 += (w * tweedie_unit_ll tw_norm y m p phi) ;; Done) (fun acc => acc 0%nat).
(** _functions.pyx 558-580 *)
Definition k_negative_binomial_ll (theta : R) : kernel := let r := 1 / theta in mkKernel (fun i =>
  w <- AWeights @ i ;; y <- AY @ i ;; m <- AMu @ i ;; y1 <- AY @ i ;; m1 <- AMu @ i ;; y2 <- AY @ i ;; y3 <- AY @ i ;;
  red 0 += (w * (y * ln (theta * m) - (y1 + r) * ln (1 + theta * m1) + lgamma (y2 + r) - lgamma r - lgamma (y3 + 1))) ;; Done)
  (fun acc => acc 0%nat).
(** which kernel log_likelihood calls: _distribution.py 715-757, 848-871, 962-985, 1075-1098, 1185-1208,
    1458-1479; [None] = no kernel (NumPy code, 1313-1331) or NotImplementedError *)
Definition ll_kernel (f : family) (phi : R) : option kernel :=
  match f with
  | TweedieF p =>
      if Req_EM_T p 0 then Some (k_normal_ll phi)
      else if Req_EM_T p 1 then Some k_poisson_ll
      else if Req_EM_T p 2 then Some (k_gamma_ll phi)
      else if Rlt_dec p 2 then Some (k_tweedie_ll p phi)
      else if Req_EM_T p 3 then Some (k_inv_gaussian_ll phi)
      else None
  | NormalF => Some (k_normal_ll phi)
  | PoissonF => Some k_poisson_ll
  | GammaF => Some (k_gamma_ll phi)
  | InvGaussF => Some (k_inv_gaussian_ll phi)
  | NegBinF theta => Some (k_negative_binomial_ll theta)
  | GHSF | BinomialF => None
  end.
End LL.

(** ** identify_active_rows, _cd_fast.pyx 74-106 *)
(** the sequential loop 88-95: diff[i] = h[i] - old[i] and the running maximum *)
Fixpoint diff_loop (n : nat) (m : memory) : memory * R :=
  match n with
  | O => (m, 0)
  | S k => let '(m1, mx) := diff_loop k m in
           let m2 := store m1 ADiff k (m1 AHess k - m1 AOldHess k) in
           let abs_val := Rabs (m2 ADiff k) in
           (m2, if Rltb mx abs_val then abs_val else mx)
  end.
(** the parallel loop 97-102 *)
Definition k_active_rows (C max_diff : R) : kernel := mkKernel (fun i =>
  v <- ADiff @ i ;; let abs_val := Rabs v in let exclude := Rltb abs_val (C * max_diff) in
  if exclude then ADiff @ i ::= 0 ;; o <- AOldHess @ i ;; AHess @ i ::= o ;; Done else Done) (fun _ => 0).
(** np.where(diff != 0), 104 *)
Definition where_nonzero (n : nat) (m : memory) : list nat := filter (fun i => negb (Reqb (m ADiff i) 0)) (seq 0 n).
