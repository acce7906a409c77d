(** Bounds are kept whatever the matrix, the penalties, the order and the number of sweeps. *)
From Verif Require Import Base M_CD S_CD L_CDrng L_CD.

Definition feas_on (D : nat -> Prop) (a : cd_args) (w : nat -> R) : Prop :=
  forall i, D i -> within (bnd_of (cd_ic a) (cd_lb a) i) (bnd_of (cd_ic a) (cd_ub a) i) (w i).

Lemma visit_feas D a k s : feas_on D a (cs_w s) -> feas_on D a (cs_w (cd_visit a k s)).
Proof.
  intros H i Di. unfold cd_visit. destruct (Rleb _ _); [apply H; exact Di|]. cbv zeta. cbn [cs_w].
  unfold upd. destruct (Nat.eqb_spec i (nth k (cd_act a) 0%nat)) as [ -> | ]; [|apply H; exact Di].
  rewrite cd_clip_of. apply clip2_within with (cs_w s (nth k (cd_act a) 0%nat)). apply H; exact Di.
Qed.
Lemma sweep_feas D a : forall m f seed s, feas_on D a (cs_w s) -> feas_on D a (cs_w (snd (cd_sweep a m f seed s))).
Proof.
  induction m as [|m IH]; intros f seed s H; cbn [cd_sweep]; [exact H|].
  destruct (if cd_random a then _ else _) as [k seed']. apply IH. apply visit_feas. exact H.
Qed.
Lemma loop_feas D a : forall m n seed norm w q, feas_on D a w -> feas_on D a (cr_w (cd_loop a m n seed norm w q)).
Proof.
  induction m as [|m IH]; intros n seed norm w q H; cbn [cd_loop]; [exact H|].
  pose proof (sweep_feas D a (length (cd_act a)) 0 seed (mkCS w q 0 0) H) as Hs.
  destruct (cd_sweep a (length (cd_act a)) 0 seed (mkCS w q 0 0)) as [seed' s]. cbn in Hs.
  destruct (_ || _ || _); [|apply IH; exact Hs].
  destruct (Rleb _ _); [exact Hs|apply IH; exact Hs].
Qed.
Lemma cd_feas D a seed w q : feas_on D a w -> feas_on D a (cr_w (enet_coordinate_descent_gram a seed w q)).
Proof. apply loop_feas. Qed.
