(** Theorems C50 (validation) and C51 (choice of the solver). *)
From Verif Require Import M_Valid S_Valid S_Path L_Dist L_Pred L_Rows.
From Verif Require Import S_Dist.
From Coq Require Import String List.
Import ListNotations.
From Verif Require Import M_Solver S_Solver.
Local Open Scope R_scope.

Lemma nth_error_repeat_lt {A} (c : A) n i : (i < n)%nat -> nth_error (repeat c n) i = Some c.
Proof. revert i. induction n as [|n IH]; intros [|i] H; try lia; [reflexivity|]. cbn. apply IH. lia. Qed.

(** C50: bounds (one per column) and offsets (one per row).  None stays None, a scalar is broadcast, a vector is
    taken iff it has the right length, anything else raises. *)
Theorem C50_bounds_and_offset : forall (A : Type) (a : array_arg A) n, (1 <= n)%nat ->
  (forall check, check = check_bounds \/ check = check_offset ->
   (check a n <> None <-> fits n a) /\
   (check a n = Some None <-> a = ArgNone) /\
   (forall l, check a n = Some (Some l) -> length l = n /\ forall i, (i < n)%nat -> nth_error l i = entry a i)).
Proof.
  intros A a n Hn check Hc.
  assert (E : check a n = check_bounds a n) by (destruct Hc as [-> | ->]; destruct a; reflexivity). rewrite !E. clear E Hc.
  destruct a as [|c|l|w rows]; cbn.
  - split; [split; [auto|discriminate]|]. split; [split; auto|]. discriminate.
  - split; [split; [auto|discriminate]|]. split; [split; discriminate|]. intros l H. injection H as <-. split; [apply repeat_length|]. intros i Hi. apply nth_error_repeat_lt, Hi.
  - destruct l as [|x l]; cbn [nonempty andb].
    + split; [split; [congruence|intros H; cbn in H; lia]|]. split; [split; discriminate|]. discriminate.
    + destruct (Nat.eqb_spec (length (x :: l)) n) as [EL|NL].
      * split; [split; [auto|discriminate]|]. split; [split; discriminate|]. intros l' H. injection H as <-. split; [exact EL|]. reflexivity.
      * split; [split; [congruence|contradiction]|]. split; [split; discriminate|]. discriminate.
  - split; [split; [congruence|contradiction]|]. split; [split; discriminate|]. discriminate.
Qed.
Print Assumptions C50_bounds_and_offset.

(** sample weights *)
Theorem C50_weights : forall a n, (check_weights a n <> None <-> weights_valid a n) /\
  (forall l, check_weights a n = Some l -> length l = n /\ forall i, (i < n)%nat -> nth i l 0 = weight_at a i).
Proof.
  intros a n. destruct a as [|c|l]; cbn.
  - split; [split; [auto|discriminate]|]. intros l H. injection H as <-. split; [apply repeat_length|]. intros i Hi. rewrite (nth_error_nth _ _ _ (nth_error_repeat_lt 1 n i Hi)). reflexivity.
  - destruct (Rleb c 0) eqn:E.
    + apply Rleb_true in E. split; [split; [congruence|lra]|discriminate].
    + apply Rleb_false in E. split; [split; [lra|discriminate]|]. intros l H. injection H as <-. split; [apply repeat_length|]. intros i Hi. rewrite (nth_error_nth _ _ _ (nth_error_repeat_lt c n i Hi)). reflexivity.
  - destruct (Nat.eqb_spec (length l) n) as [EL|NL]; cbn [negb]; [|split; [split; [congruence|tauto]|discriminate]].
    destruct (existsb (fun x => Rltb x 0) l) eqn:E1.
    + apply existsb_exists in E1. destruct E1 as [x [Hx Lx]]. apply Rltb_true in Lx. split; [|discriminate]. split; [congruence|]. intros [_ [H _]]. specialize (H x Hx). lra.
    + assert (NN : forall x, In x l -> 0 <= x).
      { intros x Hx. destruct (Rle_lt_dec 0 x) as [L|L]; [exact L|]. exfalso. rewrite <- Bool.not_true_iff_false in E1. apply E1, existsb_exists. exists x. split; [exact Hx|]. apply Rltb_true. exact L. }
      destruct (Reqb (lsum l) 0) eqn:E2.
      * apply Reqb_true in E2. split; [|discriminate]. split; [congruence|]. intros [_ [_ [x [Hx N]]]]. exfalso. apply N.
        apply (lsum_zero_all l NN E2 x Hx).
      * apply Reqb_false in E2. split; [|intros l' H; injection H as <-; split; [exact EL|reflexivity]]. split; [intros _|discriminate]. split; [exact EL|]. split; [exact NN|].
        clear -E2. induction l as [|v l IH]; [exfalso; apply E2; reflexivity|]. change (v + lsum l <> 0) in E2. destruct (Req_dec v 0) as [->|N]; [|exists v; split; [left; reflexivity|exact N]].
        destruct IH as [x [Hx Nx]]; [lra|]. exists x. split; [right; exact Hx|exact Nx].
Qed.
Print Assumptions C50_weights.

(** inequality constraints: given in pairs only, A with one column per feature and one row per entry of b *)
Theorem C50_inequalities : forall (A : Type) (a b : array_arg A) p r,
  check_inequality_constraints a b p = Some r <->
  ((a = ArgNone \/ b = ArgNone) /\ r = None) \/
  exists rows l, a = ArgMat p rows /\ b = ArgVec l /\ length rows = length l /\ (1 <= length l)%nat /\ (1 <= p)%nat /\ r = Some (rows, l).
Proof.
  intros A a b p r. destruct a as [|c|v|w rows].
  - cbn. split; [intros H; injection H as <-; left; auto|]. intros [[_ ->]|[? [? [? _]]]]; [reflexivity|discriminate].
  - destruct b; cbn; (split; [first [discriminate|intros H; injection H as <-; left; auto]|]); intros [[[E|E] Hr]|[? [? [E _]]]]; first [discriminate E|rewrite Hr; reflexivity].
  - destruct b; cbn; (split; [first [discriminate|intros H; injection H as <-; left; auto]|]); intros [[[E|E] Hr]|[? [? [E _]]]]; first [discriminate E|rewrite Hr; reflexivity].
  - destruct b as [|c|l|w' rows']; cbn [check_inequality_constraints].
    + split; [intros H; injection H as <-; left; auto|]. intros [[_ ->]|[? [? [_ [? _]]]]]; [reflexivity|discriminate].
    + split; [discriminate|]. intros [[[E|E] _]|[? [? [_ [? _]]]]]; discriminate.
    + split.
      * destruct (nonempty rows && Nat.ltb 0 w && nonempty l)%bool eqn:E; [|discriminate]. apply Bool.andb_true_iff in E. destruct E as [E E3]. apply Bool.andb_true_iff in E. destruct E as [E1 E2]. apply Nat.ltb_lt in E2.
        destruct (Nat.eqb_spec w p) as [->|]; cbn [negb]; [|discriminate]. destruct (Nat.eqb_spec (length rows) (length l)) as [EL|]; cbn [negb]; [|discriminate]. intros H. injection H as <-. right.
        exists rows, l. repeat (split; [first [reflexivity|assumption]|]). split; [destruct l; [discriminate|cbn; lia]|]. split; [lia|reflexivity].
      * intros [[[E|E] _]|[rows' [l' [E1 [E2 [E3 [E4 [E5 E6]]]]]]]]; [discriminate|discriminate|]. injection E1 as -> ->. injection E2 as ->. subst r.
        destruct l' as [|x l']; [cbn in E4; lia|]. destruct rows' as [|y rows']; [cbn in E3; lia|]. destruct p as [|p]; [lia|]. cbn [nonempty andb Nat.ltb Nat.leb]. rewrite Nat.eqb_refl. cbn [negb]. rewrite E3, Nat.eqb_refl. reflexivity.
    + split; [discriminate|]. intros [[[E|E] _]|[? [? [_ [? _]]]]]; discriminate.
Qed.
Print Assumptions C50_inequalities.

(** lower and upper bounds are compared entrywise *)
Theorem C50_bounds_ordered : forall (A : Type) (ltb : A -> A -> bool) lo up p,
  match lo with Some l => length l = p | None => True end -> match up with Some u => length u = p | None => True end ->
  (bounds_ordered ltb lo up = true <->
   forall l u i a b, lo = Some l -> up = Some u -> nth_error l i = Some a -> nth_error u i = Some b -> ltb b a = false).
Proof.
  intros A ltb lo up p Hl Hu. destruct lo as [l|], up as [u|]; cbn; [|split; [intros _ l0 u0 i a b E1 E2; discriminate|reflexivity]..].
  rewrite Bool.negb_true_iff, <- Bool.not_true_iff_false, existsb_exists. split.
  - intros H l' u' i a b E1 E2 Ha Hb. injection E1 as <-. injection E2 as <-. destruct (ltb b a) eqn:E; [|reflexivity]. exfalso. apply H. exists (a, b). split; [|exact E].
    apply (nth_error_In _ i). clear -Ha Hb. revert u i Ha Hb. induction l as [|x l IH]; intros [|y u] [|i] Ha Hb; cbn in *; try discriminate; [congruence|apply IH; assumption].
  - intros H [[a b] [Hin E]]. apply In_nth_error in Hin. destruct Hin as [i Hi]. cbn in E.
    assert (G : nth_error l i = Some a /\ nth_error u i = Some b).
    { clear -Hi. revert u i Hi. induction l as [|x l IH]; intros [|y u] [|i] Hi; cbn in *; try discriminate; [injection Hi as -> ->; auto|apply IH; assumption]. }
    rewrite (H l u i a b eq_refl eq_refl (proj1 G) (proj2 G)) in E. discriminate.
Qed.
Print Assumptions C50_bounds_ordered.

(** the response, and family and link parameters *)
Theorem C50_response_and_parameters :
  (forall f y, family_ok f -> (in_y_range f y = true <-> support f y)) /\
  (forall p, mk_tweedie p <> None <-> p <= 0 \/ 1 <= p) /\ (forall p f, mk_tweedie p = Some f -> f = TweedieF p) /\
  (forall t, mk_negbin t <> None <-> 0 < t) /\ (forall t f, mk_negbin t = Some f -> f = NegBinF t) /\
  (forall p, mk_tweedie_link p <> None <-> p <= 0 \/ 1 <= p) /\ (forall p l, mk_tweedie_link p = Some l -> l = TweedieL p).
Proof.
  split; [intros f y H; apply in_y_range_iff, H|]. unfold mk_tweedie, mk_negbin, mk_tweedie_link.
  repeat split; try (intros p; destruct (Rlt_dec 0 p); [destruct (Rlt_dec p 1)|]; first [split; [congruence|lra] | split; [intros _; lra|discriminate] | intros ? ?; congruence]);
    try (intros t; destruct (Rlt_dec 0 t); first [split; [auto|discriminate]|split; [congruence|lra] | intros ? ?; congruence]).
  all: intros; try (destruct (Rlt_dec 0 _); [try destruct (Rlt_dec _ 1)|]); try congruence; lra.
Qed.
Print Assumptions C50_response_and_parameters.

(** ** C51 *)
Ltac bsplit := repeat match goal with
  | H : (_ && _)%bool = true |- _ => apply Bool.andb_true_iff in H; destruct H
  | H : negb _ = true |- _ => apply Bool.negb_true_iff in H
  | H : (_ && _)%bool = false |- _ => apply Bool.andb_false_iff in H
  | H : (_ || _)%bool = false |- _ => apply Bool.orb_false_iff in H; destruct H
  end.

Lemma existsb_false {A} (f : A -> bool) l : existsb f l = false <-> forall x, In x l -> f x = false.
Proof.
  rewrite <- Bool.not_true_iff_false, existsb_exists. split.
  - intros H x Hx. destruct (f x) eqn:E; [|reflexivity]. exfalso. apply H. eauto.
  - intros H [x [Hx E]]. rewrite (H x Hx) in E. discriminate.
Qed.
Lemma solver_known s : parse_solver s <> None <-> known_solver s.
Proof.
  unfold parse_solver, known_solver. split.
  - repeat match goal with |- context [String.eqb s ?c] => destruct (String.eqb_spec s c) as [->|]; [intros _; cbn; tauto|] end. congruence.
  - cbn. intros H. repeat destruct H as [<-|H]; try (cbn; discriminate). contradiction.
Qed.
Lemma solver_bounds s t : parse_solver s = Some t -> solver_in t [SAuto; SCd] = true <-> s = "auto"%string \/ s = "irls-cd"%string.
Proof.
  unfold parse_solver. repeat match goal with |- context [String.eqb s ?c] => destruct (String.eqb_spec s c) as [->|]; [intros H; injection H as <-; cbn; split; [first [discriminate|auto]|intros [X|X]; first [discriminate|reflexivity]]|] end. discriminate.
Qed.
Lemma solver_constr s t : parse_solver s = Some t -> solver_in t [SAuto; STrust; SMono] = true <-> constrained_solver s.
Proof.
  unfold parse_solver, constrained_solver. repeat match goal with |- context [String.eqb s ?c] => destruct (String.eqb_spec s c) as [->|]; [intros H; injection H as <-; cbn; split; [first [discriminate|tauto]|intros [X|[X|[X|[]]]]; first [discriminate|reflexivity]]|] end. discriminate.
Qed.
Lemma in_unit_spec r : in_unit r = true <-> 0 <= r <= 1.
Proof. unfold in_unit. rewrite Bool.andb_true_iff, !Bool.negb_true_iff, !Rltb_false. lra. Qed.
Lemma mode_spec h : validate_mode h = true <-> admissible_penalty h.
Proof.
  assert (NN : forall l, negb (existsb (fun a => Rltb a 0) l) = true <-> forall a, In a l -> 0 <= a).
  { intros l. rewrite Bool.negb_true_iff, existsb_false. split; intros H a Ha; specialize (H a Ha); [apply Rltb_false in H|apply Rltb_false]; lra. }
  assert (L1 : match h_l1 h with L1Scalar r => in_unit r | L1List _ => false end = true <-> exists r, h_l1 h = L1Scalar r /\ 0 <= r <= 1).
  { destruct (h_l1 h) as [r|l]; [rewrite in_unit_spec|]; split; [eauto|intros [r' [E H]]; injection E as <-; exact H|discriminate|intros [? [? _]]; discriminate]. }
  unfold validate_mode, admissible_penalty. destruct (h_mode h).
  - rewrite Bool.andb_true_iff, L1. assert (E : match h_alpha h with AlphaNone => true | AlphaScalar a => negb (Rltb a 0) | _ => false end = true <-> (h_alpha h = AlphaNone \/ exists a, h_alpha h = AlphaScalar a /\ 0 <= a)); [|rewrite E; reflexivity].
    destruct (h_alpha h) as [|a|l|l]; try (split; [discriminate|intros [?|[? [? _]]]; discriminate]); [split; auto|].
    rewrite Bool.negb_true_iff, Rltb_false. split; [intros H; right; exists a; split; [reflexivity|lra]|]. intros [?|[a' [E H]]]; [discriminate|]. injection E as <-. lra.
  - rewrite Bool.andb_true_iff, L1. assert (E : match h_alpha h with AlphaNone => true | AlphaScalar _ => false | AlphaList l | AlphaArray l => negb (existsb (fun a => Rltb a 0) l) end = true <->
      (h_alpha h = AlphaNone \/ exists l, (h_alpha h = AlphaList l \/ h_alpha h = AlphaArray l) /\ forall a, In a l -> 0 <= a)); [|rewrite E; reflexivity].
    destruct (h_alpha h) as [|a|l|l]; [split; auto| | |].
    + split; [discriminate|]. intros [?|[? [[?|?] _]]]; discriminate.
    + rewrite NN. split; [intros H; right; exists l; auto|]. intros [?|[l' [[E|E] H]]]; try discriminate. injection E as <-. exact H.
    + rewrite NN. split; [intros H; right; exists l; auto|]. intros [?|[l' [[E|E] H]]]; try discriminate. injection E as <-. exact H.
  - rewrite !Bool.andb_true_iff, NN, Bool.negb_true_iff, existsb_false. split.
    + intros [[H1 H2] H3]. split; [intros l E; rewrite E in H1; apply NN, H1|]. intros r Hr. specialize (H2 r Hr). specialize (H3 r Hr). apply Rltb_false in H3. lra.
    + intros [H1 H2]. split; [split|].
      * destruct (h_alphas h) as [l|]; [|reflexivity]. apply NN, H1. reflexivity.
      * intros r Hr. apply H2, Hr.
      * intros r Hr. apply Rltb_false. apply H2, Hr.
Qed.

(** The validation accepts exactly the admissible hyper-parameters. *)
Lemma penalty_l1_nonneg h : admissible_penalty h -> forall r, In r (l1_values (h_l1 h)) -> 0 <= r.
Proof.
  unfold admissible_penalty. destruct (h_mode h); [intros [_ [r0 [E H]]] r Hr; rewrite E in Hr; destruct Hr as [<-|[]]; lra..|]. intros [_ H] r Hr. apply H, Hr.
Qed.
Theorem C51_validation_exact : forall h, validate h = true <-> admissible h.
Proof.
  intros h. unfold validate. rewrite Bool.andb_true_iff, mode_spec. unfold validate_base. split.
  - intros [HM HV]. destruct (parse_solver (h_solver h)) as [t|] eqn:ET; [|discriminate]. cbn zeta in HV.
    apply Bool.andb_true_iff in HV; destruct HV as [HV VP1]. apply Bool.andb_true_iff in HV; destruct HV as [HV VM]. apply Bool.andb_true_iff in HV; destruct HV as [HV VPair].
    apply Bool.andb_true_iff in HV; destruct HV as [HV VIB]. apply Bool.andb_true_iff in HV; destruct HV as [HV VML]. apply Bool.andb_true_iff in HV; destruct HV as [HV VMS].
    apply Bool.andb_true_iff in HV; destruct HV as [HV VIS]. apply Bool.andb_true_iff in HV; destruct HV as [HV VB]. apply Bool.andb_true_iff in HV; destruct HV as [HV VSc].
    apply Bool.andb_true_iff in HV; destruct HV as [HV VSel]. apply Bool.andb_true_iff in HV; destruct HV as [HV VSt]. apply Bool.andb_true_iff in HV; destruct HV as [HV VG].
    constructor.
    + exact HM.
    + apply solver_known. congruence.
    + apply Z.ltb_lt. assumption.
    + intros u E. rewrite E in VG. apply Rltb_true. exact VG.
    + intros u E. rewrite E in VSt. apply Rltb_true. exact VSt.
    + apply Bool.orb_true_iff in VSel. destruct VSel as [VS|VS]; apply String.eqb_eq in VS; auto.
    + intros E. rewrite E in VSc. destruct (h_intercept h); [reflexivity|discriminate].
    + intros E. apply (solver_bounds _ t ET). apply Bool.negb_true_iff in VB. assert (B : (h_lower h || h_upper h)%bool = true) by (apply Bool.orb_true_iff; exact E). rewrite B in VB. apply Bool.negb_false_iff. exact VB.
    + intros E. rewrite E in *. cbn [orb andb] in *. split; [apply (solver_constr _ t ET); apply Bool.negb_true_iff in VIS; apply Bool.negb_false_iff; exact VIS|].
      apply Bool.negb_true_iff, Bool.orb_false_iff in VIB. exact VIB.
    + destruct (h_A h), (h_b h); cbn in VPair; try reflexivity; rewrite ?Bool.orb_true_r in VPair; discriminate.
    + intros m E. rewrite E in *. cbn [andb] in *.
      apply Bool.andb_true_iff in VM; destruct VM as [VM VD]. apply Bool.andb_true_iff in VM; destruct VM as [VM VN]. apply Bool.andb_true_iff in VM; destruct VM as [VI VF].
      split; [apply (solver_constr _ t ET); apply Bool.negb_true_iff in VMS; apply Bool.negb_false_iff; exact VMS|].
      split; [intros r Hr; apply Bool.negb_true_iff in VML; rewrite existsb_false in VML; specialize (VML r Hr); apply Rltb_false in VML; pose proof (penalty_l1_nonneg h HM r Hr); lra|].
      split; [destruct (h_A h); [discriminate|reflexivity]|]. split; [exact VF|]. split; [intros ->; discriminate|].
      intros v d Hvd. rewrite forallb_forall in VD. specialize (VD _ Hvd). apply Bool.orb_true_iff in VD. destruct VD as [VD|VD]; apply String.eqb_eq in VD; auto.
    + intros E. rewrite E in VP1. destruct (h_P1 h) as [| |l]; [auto|discriminate|]. right. exists l. split; [reflexivity|]. intros x Hx. rewrite forallb_forall in VP1. specialize (VP1 x Hx). apply Rleb_true in VP1. exact VP1.
  - intros [A1 A2 A3 A4 A5 A6 A7 A8 A9 A10 A11 A12]. split; [exact A1|]. destruct (parse_solver (h_solver h)) as [t|] eqn:ET; [|exfalso; apply solver_known in A2; congruence]. cbn zeta.
    repeat (apply Bool.andb_true_iff; split).
    + apply Z.ltb_lt. exact A3.
    + destruct (h_gtol h); [apply Rltb_true, A4|]; reflexivity.
    + destruct (h_stol h); [apply Rltb_true, A5|]; reflexivity.
    + destruct A6 as [-> | ->]; reflexivity.
    + destruct (h_scale h); [rewrite A7 by reflexivity|]; reflexivity.
    + apply Bool.negb_true_iff, Bool.andb_false_iff. destruct (h_lower h || h_upper h)%bool eqn:B; [right|left; reflexivity]. apply Bool.negb_false_iff, (solver_bounds _ t ET), A8, Bool.orb_true_iff, B.
    + rewrite <- A10, Bool.orb_diag. apply Bool.negb_true_iff, Bool.andb_false_iff. destruct (h_A h); [right|left; reflexivity]. apply Bool.negb_false_iff, (solver_constr _ t ET), A9. reflexivity.
    + destruct (h_mono h) as [m|]; [|reflexivity]. destruct (A11 m eq_refl) as [B1 _]. cbn [andb]. apply Bool.negb_true_iff, Bool.negb_false_iff, (solver_constr _ t ET), B1.
    + destruct (h_mono h) as [m|]; [|reflexivity]. destruct (A11 m eq_refl) as [_ [B2 _]]. cbn [andb]. apply Bool.negb_true_iff, existsb_false. intros r Hr. apply Rltb_false. rewrite (B2 r Hr). lra.
    + rewrite <- A10, Bool.orb_diag. destruct (h_A h); [|reflexivity]. destruct (A9 eq_refl) as [_ [-> ->]]. reflexivity.
    + rewrite <- A10. destruct (h_A h); reflexivity.
    + destruct (h_mono h) as [m|]; [|reflexivity]. destruct (A11 m eq_refl) as [_ [_ [B3 [B4 [B5 B6]]]]]. rewrite <- A10, B3, B4. cbn. destruct m as [|x m]; [congruence|]. cbn [nonempty andb].
      apply forallb_forall. intros [v d] Hvd. cbn. destruct (B6 v d Hvd) as [-> | ->]; reflexivity.
    + destruct (h_check h); [|reflexivity]. destruct (A12 eq_refl) as [-> |[l [-> H]]]; [reflexivity|]. apply forallb_forall. intros x Hx. apply Rleb_true, H, Hx.
Qed.
Print Assumptions C51_validation_exact.

Lemma configure_inv ap h p s : configure ap h p = Some s ->
  validate h = true /\ choose_solver h = Some s /\
  forall l1 a, In l1 (l1_values (h_l1 h)) -> In a (alphas_used ap h l1) -> l1_refused h s a l1 = false /\ solve_ok h p s a l1 = true.
Proof.
  unfold configure. destruct (validate h); cbn [negb]; [|discriminate]. destruct (choose_solver h) as [t|]; [|discriminate].
  destruct (forallb _ _) eqn:E; [|discriminate]. intros H. injection H as <-. split; [reflexivity|]. split; [reflexivity|].
  intros l1 a Hl Ha. rewrite forallb_forall in E. specialize (E l1 Hl). rewrite forallb_forall in E. specialize (E a Ha). bsplit. auto.
Qed.

Lemma alphas_used_asked ap h l1 a : In a (alphas_used ap h l1) <-> alpha_asked ap h l1 a.
Proof.
  unfold alphas_used, alpha_asked. destruct (h_mode h).
  - destruct (h_alpha h) as [|x|l|l]; cbn [In]; (split; [intros [<-|[]]|intros [H|[H E]]]);
      first [discriminate|left; reflexivity|right; split; [discriminate|reflexivity]|left; symmetry; exact E
            |injection H as E; left; exact E|exfalso; exact (H x eq_refl)].
  - destruct (h_alphas h) as [l|].
    + split; [intros H; left; exists l; auto|]. intros [[l' [E H]]|[[E _]|[E _]]]; [injection E as <-; exact H|discriminate|discriminate].
    + split.
      * intros H. right. destruct (h_alpha h) as [|x|l|l]; [right|right|left|left]; (split; [reflexivity|]); eauto.
      * intros [[l' [E _]]|[[_ [l [E H]]]|[_ [[E|[x E]] H]]]]; [discriminate|destruct E as [-> | ->]; exact H|rewrite E; exact H|rewrite E; exact H].
  - destruct (h_alphas h) as [l|].
    + split; [intros H; left; exists l; auto|]. intros [[l' [E H]]|[E _]]; [injection E as <-; exact H|discriminate].
    + split; [intros H; right; auto|]. intros [[l' [E _]]|[_ H]]; [discriminate|exact H].
Qed.

Lemma l1_zero_values h : l1_all_zero h = true -> no_l1_ratio h.
Proof. intros H r Hr. unfold l1_all_zero in H. rewrite forallb_forall in H. specialize (H r Hr). apply Reqb_true in H. exact H. Qed.

(** A single fit never drops a requested L1 penalty: irls-cd is used or the call raises. *)
Theorem C51_l1_never_ignored : forall ap h p s alpha l1, h_mode h = Single -> configure ap h p = Some s ->
  In l1 (l1_values (h_l1 h)) -> alpha_asked ap h l1 alpha -> l1_requested h p alpha l1 -> handles_l1 s.
Proof.
  intros ap h p s alpha l1 Hm HC Hl Ha [Pa [Pl _]]. apply alphas_used_asked in Ha. destruct (configure_inv _ _ _ _ HC) as [_ [_ HI]]. destruct (HI l1 alpha Hl Ha) as [HR _].
  unfold l1_refused in HR. rewrite Hm in HR. rewrite (proj2 (Rltb_true 0 alpha) Pa), (proj2 (Rltb_true 0 l1) Pl) in HR. cbn in HR.
  destruct s; cbn in HR; try discriminate; reflexivity.
Qed.
Print Assumptions C51_l1_never_ignored.

(** On a path or in cross-validation this holds for solver 'auto', 'irls-cd' and 'closed-form' without
    inequality constraints ... *)
Theorem C51_l1_path_partial : forall ap h p s alpha l1, configure ap h p = Some s ->
  h_solver h = "auto"%string \/ h_solver h = "irls-cd"%string \/ h_solver h = "closed-form"%string -> (h_A h && h_b h)%bool = false ->
  In l1 (l1_values (h_l1 h)) -> alpha_asked ap h l1 alpha -> l1_requested h p alpha l1 -> handles_l1 s.
Proof.
  intros ap h p s alpha l1 HC Hs HAb Hl Ha HR. destruct (h_mode h) eqn:Hm; [apply (C51_l1_never_ignored ap h p s alpha l1); assumption| |]; apply alphas_used_asked in Ha.
  all: destruct (configure_inv _ _ _ _ HC) as [HV [HS HI]]; destruct (HI l1 alpha Hl Ha) as [_ HO]; destruct HR as [Pa [Pl [w [Hw Nw]]]].
  all: assert (NC : s = SClosed -> False) by (intros ->; unfold solve_ok in HO; bsplit; match goal with H : forallb _ _ = true |- _ => rewrite forallb_forall in H; specialize (H w Hw); apply Reqb_true in H; assert (w * l1 * alpha <> 0) by (repeat apply Rmult_integral_contrapositive_currified; lra); contradiction end).
  all: assert (NZ : l1_all_zero h = false) by (destruct (l1_all_zero h) eqn:E; [|reflexivity]; pose proof (l1_zero_values h E l1 Hl); lra).
  all: unfold choose_solver in HS; destruct Hs as [Hs|[Hs|Hs]]; rewrite Hs in HS; cbn [parse_solver String.eqb Ascii.eqb Bool.eqb] in HS; try (injection HS as <-; first [reflexivity|exfalso; apply NC; reflexivity]).
  all: apply C51_validation_exact in HV; destruct (h_mono h) as [m|] eqn:EM; [exfalso; destruct (ad_mono h HV m EM) as [_ [Z _]]; specialize (Z l1 Hl); lra|].
  all: rewrite HAb, NZ in HS; destruct (negb (h_lower h) && negb (h_upper h))%bool; [|injection HS as <-; reflexivity].
  all: unfold alpha_is_zero in HS; rewrite Hm in HS.
  - destruct (h_alpha h) as [|a|lst|lst]; cbn in HS; rewrite ?Bool.andb_false_r in HS; try (injection HS as <-; reflexivity).
    destruct lst as [|a [|a' lst]]; try discriminate. rewrite Bool.andb_false_r in HS. injection HS as <-. reflexivity.
  - injection HS as <-. reflexivity.
Qed.
Print Assumptions C51_l1_path_partial.

Definition ex_hyper (m : mode) (s : string) (al : alpha_arg) (l1 : R) (lo A : bool) (mo : option (list (string * string))) (p1 : pen_arg) : hyper :=
  mkHyper m NormalF IdentityL s al None (L1Scalar l1) p1 true false 100 None None "cyclic" lo false A A mo true true.
Lemma ex_rltb : Rltb 1 0 = false /\ Rltb 0 1 = true /\ Rltb 1 1 = false /\ Reqb 1 0 = false /\ Rltb 0 0 = false /\ Reqb 0 0 = true.
Proof. repeat split; first [apply Rltb_true|apply Rltb_false|apply Reqb_true|apply Reqb_false]; lra. Qed.
Ltac ex_calc := destruct ex_rltb as [E1 [E2 [E3 [E4 [E5 E6]]]]];
  cbv -[Rltb Reqb Rleb IZR repeat Rmult]; rewrite ?E1, ?E2, ?E3, ?E4, ?E5, ?E6; cbv -[Rltb Reqb Rleb IZR repeat Rmult]; rewrite ?E1, ?E2, ?E3, ?E4, ?E5, ?E6; cbv -[Rltb Reqb Rleb IZR repeat Rmult].

(** ... and fails otherwise (finding F11): alpha_search=True, alpha=[1], l1_ratio=1 with 'irls-ls', or with
    inequality constraints and 'auto', is fitted without the L1 penalty. *)
Theorem C51_l1_path_refuted : forall ap p,
  let h1 := ex_hyper Search "irls-ls" (AlphaList [1]) 1 false false None PenIdentity in
  let h2 := ex_hyper Search "auto" (AlphaList [1]) 1 false true None PenIdentity in
  configure ap h1 p = Some SLs /\ configure ap h2 p = Some STrust /\
  forall h, h = h1 \/ h = h2 -> alpha_asked ap h 1 1 /\ ((1 <= p)%nat -> l1_requested h p 1 1).
Proof.
  intros ap p h1 h2. split; [unfold h1, ex_hyper; ex_calc; reflexivity|]. split; [unfold h2, ex_hyper; ex_calc; reflexivity|].
  intros h [-> | ->]; (split; [apply alphas_used_asked; left; reflexivity|]); intros Hp; (split; [lra|split; [lra|]]); exists 1; (split; [|lra]); destruct p; try lia; left; reflexivity.
Qed.
Print Assumptions C51_l1_path_refuted.

(** Inequality constraints are always handed to a solver that respects them; bounds are unless
    monotonic_constraints are given as well. *)
Theorem C51_constraints_honoured : forall ap h p s, configure ap h p = Some s ->
  (inequalities_requested h -> handles_inequalities s) /\
  (bounds_requested h -> h_mono h = None -> handles_bounds s).
Proof.
  intros ap h p s HC. destruct (configure_inv _ _ _ _ HC) as [HV [HS _]]. apply C51_validation_exact in HV. unfold choose_solver in HS.
  destruct (parse_solver (h_solver h)) as [t|] eqn:ET; [|discriminate]. split.
  - intros HR. unfold inequalities_requested in HR. assert (T : solver_in t [SAuto; STrust; SMono] = true).
    { apply (solver_constr _ t ET). destruct HR as [[RA RB]|RM]; [apply (ad_ineq h HV RA)|]. destruct (h_mono h) as [m|] eqn:EM; [|congruence]. apply (ad_mono h HV m EM). }
    destruct t; cbn in T; try discriminate; try (injection HS as <-; unfold handles_inequalities; auto).
    destruct (h_mono h) as [m|]; [injection HS as <-; right; reflexivity|]. destruct HR as [[RA RB]|RM]; [|congruence]. rewrite RA, RB in HS. injection HS as <-. left. reflexivity.
  - intros HB HM. assert (T : solver_in t [SAuto; SCd] = true) by (apply (solver_bounds _ t ET), (ad_bounds h HV HB)).
    destruct t; cbn in T; try discriminate; [|injection HS as <-; reflexivity]. rewrite HM in HS.
    destruct (h_A h) eqn:EA; [destruct (ad_ineq h HV EA) as [_ [L U]]; destruct HB; congruence|]. cbn [andb] in HS.
    destruct HB as [E|E]; rewrite E in HS; cbn in HS; rewrite ?Bool.andb_false_r in HS; injection HS as <-; reflexivity.
Qed.
Print Assumptions C51_constraints_honoured.

(** finding F19: with monotonic_constraints, bounds pass the validation and no solver sees them. *)
Theorem C51_bounds_refuted : forall ap p,
  let h := ex_hyper Single "auto" (AlphaScalar 1) 0 true false (Some [("x", "increasing")])%string PenIdentity in
  configure ap h p = Some SMono /\ bounds_requested h /\ ~ handles_bounds SMono.
Proof.
  intros ap p h. split; [|split; [left; reflexivity|discriminate]]. unfold h, ex_hyper. ex_calc. reflexivity.
Qed.
Print Assumptions C51_bounds_refuted.

(** The rule behind solver='auto', as a case distinction on the documented conditions. *)
Theorem C51_auto_rule : forall h, validate h = true -> h_solver h = "auto"%string -> ~ alpha_is_array h ->
  let nopen := no_l1_ratio h \/ unpenalised h in
  (choose_solver h = Some SMono <-> h_mono h <> None) /\
  (choose_solver h = Some STrust <-> h_mono h = None /\ h_A h = true /\ h_b h = true) /\
  (choose_solver h = Some SClosed <-> unconstrained h /\ h_family h = NormalF /\ h_link h = IdentityL /\ nopen) /\
  (choose_solver h = Some SLs <-> unconstrained h /\ ~ (h_family h = NormalF /\ h_link h = IdentityL) /\ nopen) /\
  (choose_solver h = Some SCd <-> h_mono h = None /\ h_A h = false /\ h_b h = false /\ (bounds_requested h \/ ~ nopen)) /\
  choose_solver h <> None /\ choose_solver h <> Some SAuto /\ choose_solver h <> Some SLbfgs.
Proof.
  intros h HV Hs NA. cbn zeta. unfold choose_solver. rewrite Hs. cbn [parse_solver String.eqb Ascii.eqb Bool.eqb].
  pose proof (proj1 (C51_validation_exact h) HV) as AD. assert (AB : h_A h = h_b h) by apply (ad_pair h AD).
  assert (VM0 : validate_mode h = true) by (apply mode_spec, (ad_penalty h AD)).
  assert (NI : is_normal_identity h = true <-> h_family h = NormalF /\ h_link h = IdentityL).
  { unfold is_normal_identity. destruct (h_family h), (h_link h); split; try discriminate; try (intros [? ?]; discriminate); auto. }
  assert (LZ : l1_all_zero h = true <-> no_l1_ratio h).
  { split; [apply l1_zero_values|]. intros H'. apply forallb_forall. intros r Hr. apply Reqb_true, H', Hr. }
  assert (AZ : exists z, alpha_is_zero h = Some z /\ (z = true <-> unpenalised h)).
  { unfold alpha_is_zero, unpenalised. destruct (h_mode h) eqn:EM.
    - pose proof VM0 as VM; unfold validate_mode in VM. rewrite EM in VM. destruct (h_alpha h) as [|a|lst|lst] eqn:EA; cbn in VM; try discriminate.
      + exists false. split; [reflexivity|]. split; [discriminate|intros [_ ?]; discriminate].
      + exists (Reqb a 0). rewrite Bool.andb_true_r. split; [reflexivity|]. rewrite Reqb_true. split; [intros ->; auto|]. intros [_ E]. congruence.
    - exists false. split; [|split; [discriminate|intros [? _]; discriminate]]. destruct (h_alpha h) as [|a|lst|lst] eqn:EA; rewrite ?Bool.andb_false_r; try reflexivity.
      destruct lst as [|a [|b lst]]; try (exfalso; apply NA; eexists; split; [exact EA|cbn; lia]). rewrite Bool.andb_false_r. reflexivity.
    - exists false. split; [reflexivity|]. split; [discriminate|intros [? _]; discriminate]. }
  destruct AZ as [z [EZ HZ]]. rewrite EZ. unfold unconstrained, bounds_requested.
  assert (CL : forall A B : Prop, (A -> False) -> (B -> False) -> (A <-> B)) by tauto.
  destruct (h_mono h) as [m|].
  { split; [split; [discriminate|reflexivity]|]. do 4 (split; [apply CL; [discriminate|intros X; repeat match goal with H : _ /\ _ |- _ => destruct H end; discriminate]|]). repeat split; discriminate. }
  rewrite <- AB. destruct (h_A h) eqn:EA; cbn [andb].
  { split; [apply CL; [discriminate|congruence]|]. split; [split; auto|]. do 3 (split; [apply CL; [discriminate|intros X; repeat match goal with H : _ /\ _ |- _ => destruct H end; discriminate]|]). repeat split; discriminate. }
  split; [apply CL; [destruct (negb (h_lower h) && negb (h_upper h))%bool, (l1_all_zero h), z, (is_normal_identity h); discriminate|congruence]|].
  split; [apply CL; [destruct (negb (h_lower h) && negb (h_upper h))%bool, (l1_all_zero h), z, (is_normal_identity h); discriminate|intros [_ [X _]]; discriminate]|].
  destruct (h_lower h || h_upper h)%bool eqn:EB.
  { assert (NB : (negb (h_lower h) && negb (h_upper h))%bool = false) by (destruct (h_lower h), (h_upper h); cbn in *; congruence). rewrite NB. apply Bool.orb_true_iff in EB.
    do 2 (split; [apply CL; [discriminate|intros X; repeat match goal with H : _ /\ _ |- _ => destruct H end; destruct EB; congruence]|]).
    split; [split; [intros _; auto|reflexivity]|]. repeat split; discriminate. }
  apply Bool.orb_false_iff in EB. destruct EB as [EL EU]. rewrite EL, EU. cbn [negb andb].
  set (nopen := no_l1_ratio h \/ unpenalised h). assert (EN : (if l1_all_zero h then true else z) = true <-> nopen).
  { unfold nopen. destruct (l1_all_zero h) eqn:ELZ; [split; auto; intros _; left; apply LZ; reflexivity|]. rewrite HZ. split; [auto|]. intros [X|X]; [apply LZ in X; discriminate|exact X]. }
  replace (if l1_all_zero h then if is_normal_identity h then Some SClosed else Some SLs else if z then if is_normal_identity h then Some SClosed else Some SLs else Some SCd)
    with (if (if l1_all_zero h then true else z) then if is_normal_identity h then Some SClosed else Some SLs else Some SCd) by (destruct (l1_all_zero h), z; reflexivity).
  clearbody nopen. destruct (if l1_all_zero h then true else z).
  - assert (NO : nopen) by (apply EN; reflexivity). destruct (is_normal_identity h).
    + assert (NI' := proj1 NI eq_refl). split; [split; [intros _; tauto|reflexivity]|]. split; [apply CL; [discriminate|tauto]|]. split; [apply CL; [discriminate|]|repeat split; discriminate]. intros [_ [_ [_ [[X|X]|X]]]]; try discriminate; tauto.
    + assert (NI' : ~ (h_family h = NormalF /\ h_link h = IdentityL)) by (intros X; apply NI in X; discriminate).
      split; [apply CL; [discriminate|tauto]|]. split; [split; [intros _; tauto|reflexivity]|]. split; [apply CL; [discriminate|]|repeat split; discriminate]. intros [_ [_ [_ [[X|X]|X]]]]; try discriminate; tauto.
  - assert (NO : ~ nopen) by (intros X; apply EN in X; discriminate).
    split; [apply CL; [discriminate|tauto]|]. split; [apply CL; [discriminate|tauto]|]. split; [split; [intros _; auto|reflexivity]|]. repeat split; discriminate.
Qed.
Print Assumptions C51_auto_rule.

(** 'auto' never leads to an error of its own: admissible hyper-parameters are fitted, unless an L1
    penalty is combined with explicit inequality constraints. *)
Theorem C51_auto_succeeds : forall ap h p, admissible h -> h_solver h = "auto"%string -> ~ alpha_is_array h ->
  (h_A h = true -> h_mode h = Single -> forall l1 a, In l1 (l1_values (h_l1 h)) -> alpha_asked ap h l1 a -> a <= 0 \/ l1 <= 0) ->
  exists s, configure ap h p = Some s.
Proof.
  intros ap h p AD Hs NA HL. pose proof (proj2 (C51_validation_exact h) AD) as HV. destruct (C51_auto_rule h HV Hs NA) as [R1 [R2 [R3 [R4 [R5 [R6 [R7 R8]]]]]]].
  unfold configure. rewrite HV. cbn [negb]. destruct (choose_solver h) as [s|]; [|congruence]. exists s.
  assert (Z1 : forall r l1 a, no_l1_ratio h \/ unpenalised h -> In l1 (l1_values (h_l1 h)) -> In a (alphas_used ap h l1) -> r * l1 * a = 0 /\ ~ (0 < a /\ 0 < l1)).
  { intros r l1 a [N|[U1 U2]] Hl Ha; [rewrite (N l1 Hl); split; [ring|lra]|]. unfold alphas_used in Ha. rewrite U1, U2 in Ha. destruct Ha as [<-|[]]. split; [ring|lra]. }
  assert (L1R : forall t l1 a, t = SCd \/ ~ (0 < a /\ 0 < l1) -> l1_refused h t a l1 = false).
  { intros t l1 a [-> |N]; unfold l1_refused; destruct (h_mode h); try reflexivity; [cbn; apply Bool.andb_false_r|].
    destruct (Rltb 0 a) eqn:E1; [|reflexivity]. destruct (Rltb 0 l1) eqn:E2; [|reflexivity]. exfalso. apply Rltb_true in E1. apply Rltb_true in E2. tauto. }
  match goal with |- (if ?b then _ else _) = _ => assert (E : b = true); [|rewrite E; reflexivity] end.
  apply forallb_forall. intros l1 Hl. apply forallb_forall. intros a Ha. apply Bool.andb_true_iff. rewrite Bool.negb_true_iff.
  assert (HL' : h_A h = true -> h_mode h = Single -> a <= 0 \/ l1 <= 0) by (intros; apply HL; auto; apply alphas_used_asked, Ha).
  destruct s; try congruence.
  - destruct (proj1 R3 eq_refl) as [[U1 [U2 [U3 [U4 U5]]]] [F1 [F2 N]]]. split; [apply L1R; right; apply (Z1 0 l1 a N Hl Ha)|].
    unfold solve_ok, is_normal_identity. rewrite F1, F2, U1, U2, U3, U5. cbn. rewrite !Bool.andb_true_r. apply forallb_forall. intros w Hw. apply Reqb_true. apply (Z1 w l1 a N Hl Ha).
  - destruct (proj1 R4 eq_refl) as [_ [_ N]]. split; [apply L1R; right; apply (Z1 0 l1 a N Hl Ha)|reflexivity].
  - pose proof (proj1 R1 eq_refl) as M. destruct (h_mono h) as [m|] eqn:EM; [|congruence]. destruct (ad_mono h AD m EM) as [_ [N _]]. split; [apply L1R; right; rewrite (N l1 Hl); lra|].
    unfold solve_ok. rewrite EM. apply Bool.orb_true_r.
  - split; [apply L1R; left; reflexivity|reflexivity].
  - destruct (proj1 R2 eq_refl) as [_ [A _]]. split; [|reflexivity]. destruct (h_mode h) eqn:EM; [|unfold l1_refused; rewrite EM; reflexivity..].
    apply L1R. right. specialize (HL' A eq_refl). lra.
Qed.
Print Assumptions C51_auto_succeeds.

(** An explicitly chosen solver is the one that is used; and the gradient tolerance. *)
Theorem C51_explicit : forall ap h p s, configure ap h p = Some s -> h_solver h <> "auto"%string ->
  parse_solver (h_solver h) = Some s /\
  (forall t, h_gtol h = Some t -> gradient_tol h s = t) /\
  (h_gtol h = None -> gradient_tol h s = match s with STrust => 1 / 100000000 | _ => 1 / 10000 end).
Proof.
  intros ap h p s HC HN. destruct (configure_inv _ _ _ _ HC) as [HV [HS _]]. split.
  - unfold choose_solver in HS. destruct (parse_solver (h_solver h)) as [t|] eqn:ET; [|discriminate]. destruct t; try exact HS. exfalso. apply HN.
    clear -ET. revert ET. unfold parse_solver. destruct (String.eqb_spec (h_solver h) "auto") as [E|]; [intros _; exact E|].
    repeat match goal with |- context [String.eqb ?a ?c] => destruct (String.eqb a c); [discriminate|] end. discriminate.
  - unfold gradient_tol. split; [intros t ->; reflexivity|]. intros ->. destruct s; lra.
Qed.
Print Assumptions C51_explicit.

(** Exactly when a requested L1 penalty is ignored: never in a single fit; on a path or in
    cross-validation if one of four solvers is named, or with 'auto' and A_ineq, b_ineq. *)
Theorem C51_l1_ignored_iff : forall ap h p s alpha l1, configure ap h p = Some s ->
  In l1 (l1_values (h_l1 h)) -> alpha_asked ap h l1 alpha -> l1_requested h p alpha l1 ->
  (~ handles_l1 s <->
   h_mode h <> Single /\
   (In (h_solver h) ["irls-ls"; "irls-ls-monotonic"; "lbfgs"; "trust-constr"]%string \/
    (h_solver h = "auto"%string /\ h_A h = true /\ h_b h = true))).
Proof.
  intros ap h p s alpha l1 HC Hl Ha HR. split.
  - intros NH. split.
    + intros Hm. apply NH. apply (C51_l1_never_ignored ap h p s alpha l1); assumption.
    + destruct (string_dec (h_solver h) "auto") as [EA|NA].
      * right. split; [exact EA|]. destruct (h_A h && h_b h)%bool eqn:AB; [apply Bool.andb_true_iff in AB; tauto|]. exfalso. apply NH.
        apply (C51_l1_path_partial ap h p s alpha l1); auto.
      * left. destruct (C51_explicit ap h p s HC NA) as [EP _]. revert EP. unfold parse_solver.
        destruct (String.eqb_spec (h_solver h) "auto"); [congruence|].
        destruct (String.eqb_spec (h_solver h) "closed-form") as [EC|].
        { intros EP. injection EP as <-. destruct (configure_inv _ _ _ _ HC) as [_ [_ HI]]. apply alphas_used_asked in Ha. destruct (HI l1 alpha Hl Ha) as [_ HO].
          destruct HR as [Pa [Pl [w [Hw Nw]]]]. unfold solve_ok in HO. bsplit.
          match goal with H : forallb _ _ = true |- _ => rewrite forallb_forall in H; specialize (H w Hw); apply Reqb_true in H; assert (w * l1 * alpha <> 0) by (repeat apply Rmult_integral_contrapositive_currified; lra); contradiction end. }
        destruct (String.eqb_spec (h_solver h) "irls-ls") as [->|]; [intros _; cbn; tauto|].
        destruct (String.eqb_spec (h_solver h) "irls-ls-monotonic") as [->|]; [intros _; cbn; tauto|].
        destruct (String.eqb_spec (h_solver h) "lbfgs") as [->|]; [intros _; cbn; tauto|].
        destruct (String.eqb_spec (h_solver h) "irls-cd") as [E|]; [intros EP; injection EP as <-; exfalso; apply NH; reflexivity|].
        destruct (String.eqb_spec (h_solver h) "trust-constr") as [->|]; [intros _; cbn; tauto|]. discriminate.
  - intros [_ H] HH. unfold handles_l1 in HH. subst s. destruct H as [H|[EA [A B]]].
    + assert (NA : h_solver h <> "auto"%string) by (intros E; rewrite E in H; cbn in H; repeat (destruct H as [H|H]; [discriminate|]); exact H).
      destruct (C51_explicit ap h p SCd HC NA) as [EP _]. cbn in H. repeat (destruct H as [H|H]; [rewrite <- H in EP; discriminate|]). exact H.
    + destruct (configure_inv _ _ _ _ HC) as [_ [HS _]]. unfold choose_solver in HS. rewrite EA in HS. cbn [parse_solver String.eqb Ascii.eqb Bool.eqb] in HS.
      rewrite A, B in HS. cbn [andb] in HS. destruct (h_mono h); discriminate.
Qed.
Print Assumptions C51_l1_ignored_iff.

(** Exactly when requested bounds are ignored: if monotonic_constraints are given as well. *)
Theorem C51_bounds_ignored_iff : forall ap h p s, configure ap h p = Some s -> bounds_requested h ->
  (~ handles_bounds s <-> h_mono h <> None).
Proof.
  intros ap h p s HC HB. split.
  - intros N E. apply N. apply (C51_constraints_honoured ap h p s HC); assumption.
  - intros NM HH. unfold handles_bounds in HH. subst s. destruct (configure_inv _ _ _ _ HC) as [HV [HS _]]. apply C51_validation_exact in HV. unfold choose_solver in HS.
    destruct (parse_solver (h_solver h)) as [t|] eqn:ET; [|discriminate]. destruct (h_mono h) as [m|] eqn:EM; [|congruence].
    assert (T : solver_in t [SAuto; STrust; SMono] = true) by (apply (solver_constr _ t ET); apply (ad_mono h HV m EM)).
    destruct t; cbn in T; discriminate.
Qed.
Print Assumptions C51_bounds_ignored_iff.

(** finding F28: a numpy array of alphas with an L1 ratio, alpha_search=True and solver='auto' raises, the same
    alphas as a list are fitted.  finding F27: the documented P1=None is refused. *)
Theorem C51_array_refuted : forall ap p,
  let h al p1 := ex_hyper Search "auto" al 1 false false None p1 in
  configure ap (h (AlphaList [1; 1]) PenIdentity) p = Some SCd /\
  admissible (h (AlphaArray [1; 1]) PenIdentity) /\ configure ap (h (AlphaArray [1; 1]) PenIdentity) p = None /\
  configure ap (h (AlphaList [1; 1]) PenNone) p = None.
Proof.
  intros ap p h. split; [unfold h, ex_hyper; ex_calc; reflexivity|]. split; [apply C51_validation_exact; unfold h, ex_hyper; ex_calc; reflexivity|].
  split; unfold h, ex_hyper; ex_calc; reflexivity.
Qed.
Print Assumptions C51_array_refuted.

Example C51_nonvacuous : forall ap p,
  configure ap (ex_hyper Single "auto" (AlphaScalar 1) 1 false false None PenIdentity) p = Some SCd /\
  configure ap (ex_hyper Single "irls-ls" (AlphaScalar 1) 1 false false None PenIdentity) p = None /\
  configure ap (ex_hyper Single "auto" (AlphaScalar 0) 1 false false None PenIdentity) 3 = Some SClosed /\
  configure ap (ex_hyper Search "closed-form" (AlphaList [1]) 1 false false None PenIdentity) 3 = None /\
  configure ap (ex_hyper Single "auto" (AlphaScalar 1) 0 false false (Some [("x", "increasing")])%string PenIdentity) p = Some SMono.
Proof.
  intros ap p. assert (Reqb (1 * 1 * 0) 0 = true) by (apply Reqb_true; ring). assert (Reqb (1 * 1 * 1) 0 = false) by (apply Reqb_false; lra).
  repeat split; unfold ex_hyper; ex_calc; cbn [repeat]; rewrite ?H, ?H0; cbv -[Rltb Reqb Rleb IZR Rmult]; try reflexivity.
Qed.
