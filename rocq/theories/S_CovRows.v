(** Specification vocabulary: the data of covariance_matrix as a list of rows. *)
From Verif Require Export M_Cov S_Cov.
From Coq Require Import Permutation.
Import ListNotations.
Local Open Scope R_scope.

(** one row: regressors, response, sample weight, predicted mean, cluster label *)
Record crow := mkCRow { cvr_x : nat -> R; cvr_y : R; cvr_w : R; cvr_mu : R; cvr_g : Z }.
Definition crow0 : crow := mkCRow (fun _ => 0) 0 0 0 0%Z.
Definition set_cw (w : R) (r : crow) : crow := mkCRow (cvr_x r) (cvr_y r) w (cvr_mu r) (cvr_g r).
(** the call of [c] (model, dispersion, verdict of the conditioning check) on these rows *)
Definition on_rows (c : cov_in) (rows : list crow) : cov_in :=
  let at_row {A} (f : crow -> A) (i : nat) := f (nth i rows crow0) in
  mkCI (length rows) (ci_p c) (ci_ic c) (ci_fam c) (ci_link c) (at_row cvr_x) (at_row cvr_y) (at_row cvr_w) (at_row cvr_mu) (ci_phi c) (ci_ill c).
(** clusters=labels, or no clusters *)
Definition labels (clustered : bool) (rows : list crow) : option (list Z) := if clustered then Some (map cvr_g rows) else None.
(** without the rows of weight zero; frequency weights, and the rows written out *)
Definition drop_zero_rows (rows : list crow) : list crow := filter (fun r => negb (Reqb (cvr_w r) 0)) rows.
Definition frequency (l : list (nat * crow)) : list crow := map (fun kr => set_cw (INR (fst kr)) (snd kr)) l.
Definition written_out (l : list (nat * crow)) : list crow := flat_map (fun kr => repeat (set_cw 1 (snd kr)) (fst kr)) l.
