(** Model of the convergence diagnostics: _record_iteration (src/glum/_solvers.py 559-588) and
    get_formatted_diagnostics (src/glum/_glm.py 748-788), report_diagnostics (726-746), n_iter_ and diagnostics_
    as set by _solve (_glm.py 519-667).  Run times, n_coef_updated and n_active_rows are not modelled. *)
From Coq Require Import String List ZArith. Import ListNotations.
From Verif Require Import Base M_Std M_Valid M_Fit.
From Verif Require Import M_Solver.
Local Open Scope R_scope.

(** one entry of diagnostics_, _solvers.py 568-588; n_line_search is None before the first line search *)
Record diag_row := mkDiag {
  dg_niter : Z; dg_conv : R; dg_obj : R; dg_l1 : R; dg_l2 : R; dg_step : R; dg_first : R;
  dg_ncols : nat; dg_ncycles : nat; dg_nls : option nat }.
Definition diag_of_state (pb : problem) (s : state) : diag_row :=
  mkDiag (st_niter s) (st_norm s) (st_obj s) (rsum (nc pb) (fun k => Rabs (st_coef s k)))
        (sqrt (rsum (nc pb) (fun k => st_coef s k * st_coef s k)))
        (sqrt (rsum (nc pb) (fun k => st_step s k * st_step s k)))
        (st_coef s O) (length (st_act s)) (st_ncycles s)
        (if Z.eqb (st_niter s) 0 then None else Some (st_nls s)).

(** the records of a run, in order: _solvers.py 305 before the loop and 342 at the end of every iteration *)
Fixpoint irls_rows (pb : problem) (inner : inner_solver) (fuel : nat) (s : state) : list diag_row :=
  diag_of_state pb s ::
  match fuel with
  | O => []
  | S f =>
      if (Z.ltb (st_niter s) (pb_max_iter pb) && negb (st_conv s))%bool then
        match irls_step pb inner s with
        | None => []
        | Some s' => irls_rows pb inner f s'
        end
      else []
  end.
(** _solvers.py 1055 and 1108 *)
Fixpoint mono_rows (pb : problem) (inner : inner_solver) (q : ineq) (P2_base : P2t) (lf lm : R) (fuel : nat) (m : mstate) : list diag_row :=
  diag_of_state pb (ms_st m) ::
  match fuel with
  | O => []
  | S f =>
      if (Z.ltb (st_niter (ms_st m)) (pb_max_iter pb) && negb (st_conv (ms_st m)))%bool then
        match mono_step pb inner q P2_base lf lm m with
        | None => []
        | Some m' => mono_rows pb inner q P2_base lf lm f m'
        end
      else []
  end.

(** _glm.py 519-667: (n_iter_, diagnostics_) after [_solve]; the outer [None] = an exception, the inner one = Python's
    None (closed form: _solvers.py 381; L-BFGS: 915; trust-constr: 985).  The iteration counts of scipy are not
    modelled (0 here). *)
Definition solve_diagnostics (s : solver) (u : user) (se : settings) (q : option ineq) (l : libs) (start : nat -> R)
    : option (Z * option (list diag_row)) :=
  let pb := std_problem u (solve_settings s u se) in
  let P2 := std_problem_P2 u in
  let fuel := S (Z.to_nat (pb_max_iter pb)) in
  let irls inner := match irls_solver pb inner P2 start with
                    | Some (st, _) => Some (st_niter st, Some (irls_rows pb inner fuel (init_state pb P2 false start)))
                    | None => None
                    end in
  match solve s u se q l start with
  | None => None
  | Some _ =>
      match s with
      | SClosed => Some (1%Z, None)
      | SLs => irls (ls_solver pb (lib_pos l))
      | SCd => irls (cd_solver pb (lib_seed l))
      | SMono =>
          match option_map (fun q => std_ineq q (u_stds u)) q with
          | None => None
          | Some q' =>
              let inner := ls_solver pb (lib_pos l) in
              match monotonic_irls_solver pb inner q' P2 100000 1000000000 100 start with
              | Some (m, _, _) =>
                  let '(P2', base, _) := update_constraint_penalty pb q' P2 false start 100000 in
                  Some (st_niter (ms_st m), Some (mono_rows pb inner q' P2 100 1000000000 fuel
                                                  (mkMs (init_state pb P2' true start) 100000 base)))
              | None => None
              end
          end
      | SLbfgs | STrust => Some (0%Z, None)
      | SAuto => None
      end
  end.

(** a cell of the table; [None] is NaN (or None) *)
Definition cell := option R.
Definition base_columns : list string :=
  ["convergence"; "objective_fct"; "L1(coef)"; "L2(coef)"; "L2(step)"; "first_coef"; "n_active_cols"; "n_cycles"; "n_line_search"]%string.
Definition column_cells (name : string) (rows : list diag_row) : option (list cell) :=
  (if String.eqb name "convergence" then Some (map (fun r => Some (dg_conv r)) rows)
  else if String.eqb name "objective_fct" then Some (map (fun r => Some (dg_obj r)) rows)
  else if String.eqb name "L1(coef)" then Some (map (fun r => Some (dg_l1 r)) rows)
  else if String.eqb name "L2(coef)" then Some (map (fun r => Some (dg_l2 r)) rows)
  else if String.eqb name "L2(step)" then Some (map (fun r => Some (dg_step r)) rows)
  else if String.eqb name "first_coef" then Some (map (fun r => Some (dg_first r)) rows)
  else if String.eqb name "n_active_cols" then Some (map (fun r => Some (INR (dg_ncols r))) rows)
  else if String.eqb name "n_cycles" then Some (map (fun r => Some (INR (dg_ncycles r))) rows)
  else if String.eqb name "n_line_search" then Some (map (fun r => option_map INR (dg_nls r)) rows)
  else None)%string.

(** get_formatted_diagnostics, _glm.py 764-788: a message, or the index and the kept columns; a custom column that is
    not there is a KeyError.  [attr]: [None] = no attribute diagnostics_ *)
Inductive formatted := Message (s : string) | Table (index : list Z) (cols : list (string * list cell)) | NoColumn.
Fixpoint keep_columns (ic : bool) (rows : list diag_row) (names : list string) : option (list (string * list cell)) :=
  match names with
  | [] => Some []
  | n :: r =>
      let c := if String.eqb n "intercept" then Some (map (fun x => if ic then Some (dg_first x) else None) rows)
               else column_cells n rows in
      match c, keep_columns ic rows r with Some c, Some l => Some ((n, c) :: l) | _, _ => None end
  end.
Definition get_formatted_diagnostics (ic full_report : bool) (custom : option (list string)) (attr : option (option (list diag_row))) : formatted :=
  match attr with
  | None => Message "Model has not been fit, so no diagnostics exist."
  | Some None => Message "solver does not report diagnostics"
  | Some (Some rows) =>
      (* iteration_runtime, one of the default columns, is a run time: not modelled *)
      let names := match custom with
                   | Some c => c
                   | None => if full_report then base_columns ++ ("intercept"%string :: nil)
                             else ["convergence"; "n_cycles"; "intercept"]%string
                   end in
      match keep_columns ic rows names with
      | Some l => Table (map dg_niter rows) l
      | None => NoColumn
      end
  end.
