(** Specification vocabulary for cross-validation. *)
From Verif Require Export M_CV S_Path.
Local Open Scope R_scope.

(** rows at the given positions *)
Definition rows_at (rows : list row) (idx : list nat) : list row := map (fun i => nth i rows row0) idx.

(** Out-of-sample deviance of coefficients [b] on the test rows: the weighted mean, with the user's raw
    weights (any scale). *)
Definition heldout (u : user) (test : list row) (b : R * (nat -> R)) : R :=
  deviance (u_fam u) (map (fun r =>
    mkobs (r_y r) (r_w r / lsum (map r_w test))
      (inverse1 (u_link u) (eta_row (u_p u) (fst b) (snd b) (r_x r) (r_off r)))) test).

(** Every split has weight on both sides. *)
Definition folds_weighted (rows : list row) (folds : list fold) : Prop :=
  lsum (map r_w rows) <> 0 /\
  forall f, In f folds -> lsum (map r_w (rows_at rows (fd_test f))) <> 0.

(** lexicographic order of grid positions: earlier l1_ratio, then earlier alpha *)
Definition before (p q : nat * nat) : Prop :=
  (fst p < fst q)%nat \/ (fst p = fst q /\ (snd p < snd q)%nat).

(** [path f i k]: coefficients of the model trained on fold [f] with the i-th l1_ratio and its k-th alpha *)
Definition cv_score (u : user) (rows : list row) (folds : list fold)
    (path : fold -> nat -> nat -> R * (nat -> R)) (i j : nat) : R :=
  lsum (map (fun f => heldout u (rows_at rows (fd_test f)) (path f i j)) folds) / INR (length folds).

Definition descending (l : list R) : Prop := forall i j, (i <= j)%nat -> (j < length l)%nat -> nth j l 0 <= nth i l 0.

(** multiply every sample weight by c *)
Definition scale_weights (c : R) (rows : list row) : list row := map (fun r => mkRow (r_x r) (r_y r) (c * r_w r) (r_off r)) rows.

(** the penalty weights a user asked for: [P1]/[P2] = identity, an array of per-coefficient weights, or a matrix *)
Definition asked_P1 (a : p1_arg) (j : nat) : R := match a with P1Identity => 1 | P1Array l => nth j l 0 end.
Definition asked_P2 (a : p2_arg) (i j : nat) : R :=
  match a with
  | P2Identity => if Nat.eqb i j then 1 else 0
  | P2Array1 l => if Nat.eqb i j then nth i l 0 else 0
  | P2Array2 _ _ M => (M i j + M j i) / 2
  end.
(** [u'] is the problem of [u] (same data, family, link, bounds) with an elastic-net penalty of the given
    l1_ratio and alpha = 1 *)
Definition with_l1_ratio (u : user) (P1 : p1_arg) (P2 : p2_arg) (l1 : R) (u' : user) : Prop :=
  u' = mkUser (u_n u) (u_p u) (u_X u) (u_y u) (u_w u) (u_off u) (u_ic u) (u_fam u) (u_link u) (u_P1 u') (u_P2 u')
         (u_lb u) (u_ub u) (u_scale u) /\
  (forall j, u_P1 u' j = l1 * asked_P1 P1 j) /\
  (forall i j, p2_entry (u_P2 u') i j = (1 - l1) * asked_P2 P2 i j).

(** [v] is the problem of [u] on these rows: their covariates, responses and offsets, and their weights
    divided by the sum of the weights; everything else as in [u]. *)
Definition on_rows (u : user) (rows : list row) (v : user) : Prop :=
  u_n v = length rows /\ u_p v = u_p u /\
  (forall i, (i < length rows)%nat -> let r := nth i rows row0 in
     u_X v i = r_x r /\ u_y v i = r_y r /\ u_w v i = r_w r / lsum (map r_w rows) /\ u_off v i = r_off r) /\
  u_ic v = u_ic u /\ u_fam v = u_fam u /\ u_link v = u_link u /\ u_P1 v = u_P1 u /\ u_P2 v = u_P2 u /\
  u_lb v = u_lb u /\ u_ub v = u_ub u /\ u_scale v = u_scale u.

(** Admissible data and penalties of a search: responses in the range of the family, weights not negative,
    P1 weights not negative, P2 positive semi-definite, l1_ratios in [0, 1]. *)
Definition cv_inputs_ok (u : user) (P1 : p1_arg) (P2 : p2_arg) (l1s : list R) (rows : list row) : Prop :=
  family_ok (u_fam u) /\ (forall r, In r rows -> support (u_fam u) (r_y r) /\ 0 <= r_w r) /\ 0 < lsum (map r_w rows) /\
  (forall l1, In l1 l1s -> 0 <= l1 <= 1) /\ (forall j, 0 <= asked_P1 P1 j) /\
  (forall v : nat -> R, 0 <= rsum (u_p u) (fun i => rsum (u_p u) (fun j => v i * asked_P2 P2 i j * v j))).
