(** Model of cross-validation: src/glum/_glm_cv.py [GeneralizedLinearRegressorCV.fit] and
    scikit-learn's KFold (external; the splitter check_cv builds from cv=None or an integer).
    dtype is float64, arithmetic is over R; NaN is modelled by [None] where it can arise from valid
    input (a fold whose test weights are all zero). *)
From Verif Require Export M_Path.
Local Open Scope R_scope.

(** positions of the training and of the test rows of a split *)
Record fold := mkFold { fd_train : list nat; fd_test : list nat }.

(** sklearn.model_selection.KFold without shuffling (_split.py KFold._iter_test_indices,
    BaseCrossValidator.split): sizes n // k, the first n % k folds one larger, consecutive blocks;
    [None] = ValueError *)
Definition fold_size (n k i : nat) : nat := (n / k + (if Nat.ltb i (n mod k) then 1 else 0))%nat.
Fixpoint fold_start (n k i : nat) : nat :=
  match i with O => O | S j => (fold_start n k j + fold_size n k j)%nat end.
Definition kfold (n k : nat) : option (list fold) :=
  if (Nat.leb k 1 || Nat.ltb n k)%bool then None
  else Some (map (fun i =>
         let a := fold_start n k i in let s := fold_size n k i in
         let mask r := (Nat.leb a r && Nat.ltb r (a + s))%bool in
         mkFold (filter (fun r => negb (mask r)) (seq 0 n)) (filter mask (seq 0 n))) (seq 0 k)).

(** numpy.sort(...)[::-1] *)
Fixpoint insert_asc (x : R) (l : list R) : list R :=
  match l with [] => [x] | y :: r => if Rleb x y then x :: l else y :: insert_asc x r end.
Definition sort_asc (l : list R) : list R := fold_right insert_asc [] l.
Definition sort_desc (l : list R) : list R := rev (sort_asc l).

(** _glm_cv.py 599-600, 684-685, 816-817: penalties for one l1_ratio, with alpha = 1 *)
Definition set_penalties (u : user) (P1 : nat -> R) (P2 : P2t) : user :=
  mkUser (u_n u) (u_p u) (u_X u) (u_y u) (u_w u) (u_off u) (u_ic u) (u_fam u) (u_link u) P1 P2 (u_lb u) (u_ub u) (u_scale u).
Definition at_l1 (u : user) (P1 : p1_arg) (P2 : p2_arg) (l1 : R) : option user :=
  match setup_p1 P1 (u_p u) 1 l1, setup_p2 P2 (u_p u) 1 l1 with
  | Some a, Some b => Some (set_penalties u a b)
  | _, _ => None
  end.

(** sample_weight as returned by _set_up_and_check_fit_args: divided by its sum *)
Definition norm_rows (rows : list row) : list row :=
  map (fun r => mkRow (r_x r) (r_y r) (r_w r / lsum (map r_w rows)) (r_off r)) rows.
(** X[idx, :], y[idx], sample_weight[idx], offset[idx] *)
Definition pick (rows : list row) (idx : list nat) : list row := map (fun i => nth i rows row0) idx.

(** _glm_cv.py 594-621: one alpha grid per l1_ratio *)
Definition cv_grid (us : list user) (se : settings) (rows : list row) (alphas : option (list R))
    (min_alpha ratio : option R) (n_alphas : nat) : option (list (list R)) :=
  match alphas with
  | None => all_opt (map (fun u => get_alpha_path (std_problem (with_rows u rows) se) min_alpha ratio n_alphas) us)
  | Some l => Some (map (fun _ => sort_desc l) us)
  end.

(** guess_intercept in _get_start_coef (as in fit_rows, M_Std) *)
Definition start_guess (u : user) (has_off : bool) (a : start_arg) : option R :=
  match a, u_ic u with
  | StartNone, true =>
      guess_intercept (u_fam u) (u_link u) has_off
        (map (fun i => mkgrow (u_y u i) (u_w u i) (u_off u i)) (seq 0 (u_n u)))
  | _, _ => Some 0
  end.
(** _solve_regularization_path between standardize and unstandardize, on given rows:
    _glm_cv.py 687-748, 753-769 for a fold, 820-887 for the refit *)
Definition rows_path (solve : path_solver) (u : user) (se : settings) (has_off : bool) (a : start_arg)
    (alphas : list R) (rows : list row) : option fitted_path :=
  let u' := with_rows u rows in
  match start_guess u' has_off a with
  | None => None
  | Some g => fit_path solve u' se alphas (path_start u' g a)
  end.

(** _glm_cv.py 658-676: [_get_deviance] on the test rows, weights divided by their sum.
    0/0 = NaN ([None]) when all test weights are zero; an empty test set gives 0. *)
Definition test_deviance (u : user) (test : list row) (b : R * (nat -> R)) : option R :=
  let W := lsum (map r_w test) in
  if (Reqb W 0 && negb (Nat.eqb (length test) 0))%bool then None
  else Some (deviance (u_fam u)
         (map (fun r => mkobs (r_y r) (r_w r / W) (inverse1 (u_link u) (row_eta (u_p u) b (r_x r) + r_off r))) test)).

(** _glm_cv.py 637-771, [_fit_path] for one split and one l1_ratio: the deviance path.
    All-zero training weights (NaN data) are not modelled: [None]. *)
Definition fold_deviances (solve : path_solver) (u : user) (se : settings) (has_off : bool) (a : start_arg)
    (rows : list row) (f : fold) (alphas : list R) : option (list (option R)) :=
  let train := pick rows (fd_train f) in
  if Reqb (lsum (map r_w train)) 0 then None
  else match rows_path solve u se has_off a alphas train with
       | None => None
       | Some fp => Some (map (test_deviance u (pick rows (fd_test f))) (fp_path fp))
       end.

(** numpy mean along the folds, numpy argmin of a flattened array: NaN propagates through the mean and
    the first NaN counts as the minimum *)
Definition mean_opt (l : list (option R)) : option R :=
  match all_opt l with None => None | Some v => Some (lsum v / INR (length l)) end.
Fixpoint first_nan (l : list (option R)) (k : nat) : option nat :=
  match l with [] => None | None :: _ => Some k | Some _ :: r => first_nan r (S k) end.
Definition np_argmin (l : list (option R)) : option nat :=
  match first_nan l 0 with
  | Some k => Some k
  | None => argmin (map (fun o => match o with Some x => x | None => 0 end) l)
  end.

(** what fit leaves behind *)
Record cv_model := mkCV {
  cv_l1_ratio : R; cv_alpha : R;                 (* l1_ratio_, alpha_ *)
  cv_best_l1 : nat; cv_best_alpha : nat;         (* positions *)
  cv_alphas : list (list R);                     (* alphas_ (one row per l1_ratio) *)
  cv_table : list (list (list (option R)));      (* deviance_path_: fold, l1_ratio, alpha *)
  cv_refit : fitted_path;                        (* _refit_*_path *)
  cv_coef : R * (nat -> R) }.                    (* intercept_, coef_ *)

(** _glm_cv.py 507-923, [fit]; [u] carries the hyper-parameters (its data fields are replaced by the
    rows), [l1s] the l1_ratios, [folds] = list(cv.split(X, y)); joblib runs the jobs in any order (modelled in M_Jobs, C74)
    without shared state and returns them in the order of submission. *)
Definition cv_fit (solve : path_solver) (u : user) (P1 : p1_arg) (P2 : p2_arg) (l1s : list R)
    (alphas : option (list R)) (min_alpha ratio : option R) (n_alphas : nat)
    (se : settings) (has_off : bool) (a : start_arg) (folds : list fold) (rows0 : list row) : option cv_model :=
  let rows := norm_rows rows0 in
  match all_opt (map (at_l1 u P1 P2) l1s) with
  | None => None
  | Some us =>
  match cv_grid us se rows alphas min_alpha ratio n_alphas with
  | None => None
  | Some grid =>
  match all_opt (map (fun f => all_opt (map (fun ug => fold_deviances solve (fst ug) se has_off a rows f (snd ug))
                                            (combine us grid))) folds) with
  | None => None
  | Some table =>
  match folds with
  | [] => None
  | _ =>
  let na := length (nth 0 grid []) in
  let avg := map (fun i => map (fun j => mean_opt (map (fun ft => nth j (nth i ft []) None) table)) (seq 0 na))
                 (seq 0 (length l1s)) in
  match np_argmin (concat avg) with
  | None => None
  | Some q =>
      let bi := (q / na)%nat in let bj := (q mod na)%nat in
      match nth_error us bi with
      | None => None
      | Some ub =>
          match rows_path solve ub se has_off a (nth bi grid []) rows with
          | None => None
          | Some fp => Some (mkCV (nth bi l1s 0) (nth bj (nth bi grid []) 0) bi bj grid table fp
                                  (nth bj (fp_path fp) (0, fun _ => 0)))
          end
      end
  end
  end
  end
  end
  end.
(** the fitted estimator as seen by linear_predictor and predict (_glm_cv.py 426-490, 906-908) *)
Definition cv_estimator (u : user) (r : cv_model) : fitted_model :=
  mkFM (u_p u) (u_link u) true false (fp_alphas (cv_refit r)) (fp_path (cv_refit r)) (cv_coef r).

(** _glm_cv.py 719-726, 750: [_get_train_deviance], the deviance of every path entry on the training rows,
    computed from the standardized columns and coefficients (train_deviance_path_). *)
Definition train_deviances (solve : path_solver) (u : user) (se : settings) (has_off : bool) (a : start_arg)
    (alphas : list R) (rows : list row) : option (list R) :=
  let u' := with_rows u rows in
  match start_guess u' has_off a with
  | None => None
  | Some g =>
      match solve_path solve (std_problem u' se) (std_problem_P2 u') alphas (path_start u' g a) with
      | None => None
      | Some sols => Some (map (fun s => deviance (u_fam u')
            (map (fun i => mkobs (u_y u' i) (u_w u' i) (inverse1 (u_link u') (lin_pred (std_problem u' se) (so_coef s) i + u_off u' i)))
                 (seq 0 (u_n u')))) sols)
      end
  end.
