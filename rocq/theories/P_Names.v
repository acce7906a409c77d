(** Theorems C52: names of families and links. *)
From Verif Require Import M_Names S_Names.
From Verif Require Import L_Link L_Dist.
From Coq Require Import String Ascii List.
Import ListNotations.
From Verif Require Import M_Solver S_Solver.
Local Open Scope R_scope.

Local Arguments newline : simpl never.
Local Arguments lpar : simpl never.
Local Arguments rpar : simpl never.
Fixpoint pword (pat : list pchar) (w : string) : Prop :=
  match pat, w with
  | [], EmptyString => True
  | p :: pat', String c w' => pmatch p c = true /\ pword pat' w'
  | _, _ => False
  end.
Lemma pword_lits s w : pword (lits s) w <-> w = s.
Proof.
  revert w. induction s as [|c s IH]; intros [|d w]; cbn; try (split; [tauto|discriminate]); try tauto.
  rewrite IH, Ascii.eqb_eq. split; [intros [-> ->]; reflexivity|]. intros H. injection H as -> ->. auto.
Qed.
Lemma pword_app p q w : pword (p ++ q) w <-> exists u v, pword p u /\ pword q v /\ w = (u ++ v)%string.
Proof.
  revert w. induction p as [|a p IH]; intros w; cbn [app].
  - split; [intros H; exists EmptyString, w; repeat split; auto|]. intros [u [v [H1 [H2 ->]]]]. destruct u; [exact H2|contradiction].
  - destruct w as [|c w]; cbn.
    + split; [contradiction|]. intros [u [v [H1 [H2 E]]]]. destruct u; [contradiction|discriminate].
    + rewrite IH. split.
      * intros [H [u [v [H1 [H2 ->]]]]]. exists (String c u), v. repeat split; auto.
      * intros [u [v [H1 [H2 E]]]]. destruct u as [|d u]; [contradiction|]. cbn in E. injection E as -> ->. destruct H1. split; [assumption|]. eauto.
Qed.
Lemma tweedie_pword w : pword tweedie_pat w <-> tweedie_word w.
Proof. apply pword_lits. Qed.
Lemma negbin_pword w : pword negbin_pat w <-> negbin_word w.
Proof.
  unfold negbin_pat, negbin_word. rewrite pword_app. setoid_rewrite pword_app. split.
  - intros [u [v [H1 [[u2 [v2 [H2 [H3 ->]]]] ->]]]]. apply pword_lits in H1. apply pword_lits in H3. subst. destruct u2 as [|c [|d u2]]; try (cbn in H2; tauto).
    exists c. split; [|reflexivity]. cbn in H2. destruct H2 as [H2 _]. intros ->. rewrite Ascii.eqb_refl in H2. discriminate.
  - intros [c [N ->]]. exists "negative"%string, (String c "binomial"). split; [apply pword_lits; reflexivity|]. split; [|reflexivity].
    exists (String c EmptyString), "binomial"%string. split; [|split; [apply pword_lits; reflexivity|reflexivity]]. split; [|exact I]. unfold pmatch. destruct (Ascii.eqb_spec c newline); [contradiction|reflexivity].
Qed.
Lemma match_prefix_spec pat s r : match_prefix pat s = Some r <-> exists w, pword pat w /\ s = (w ++ r)%string.
Proof.
  revert s. induction pat as [|p pat IH]; intros s; cbn.
  - split; [intros H; exists EmptyString; split; [exact I|cbn; congruence]|]. intros [w [H E]]. destruct w; [cbn in E; congruence|contradiction].
  - destruct s as [|c s].
    + split; [discriminate|]. intros [w [H E]]. destruct w; [contradiction|discriminate].
    + destruct (pmatch p c) eqn:EP.
      * rewrite IH. split; [intros [w [H ->]]; exists (String c w); cbn; auto|]. intros [w [H E]]. destruct w as [|d w]; [contradiction|]. cbn in E. injection E as -> ->. exists w. split; [apply H|reflexivity].
      * split; [discriminate|]. intros [w [H E]]. destruct w as [|d w]; [contradiction|]. cbn in E. injection E as -> ->. destruct H as [H _]. congruence.
Qed.
Lemma match_open_spec s r : match_open s = Some r <-> exists sp, opt_space sp /\ s = (sp ++ String lpar r)%string.
Proof.
  unfold match_open. destruct s as [|c s].
  - split; [discriminate|]. intros [sp [[->|[c [_ ->]]] E]]; discriminate.
  - destruct (is_space c) eqn:ES.
    + destruct s as [|d s].
      * split; [discriminate|]. intros [sp [[->|[c' [_ ->]]] E]]; cbn in E; [|discriminate]. injection E as -> _. discriminate.
      * destruct (Ascii.eqb_spec d lpar) as [->|N].
        -- split; [intros H; injection H as ->; exists (String c EmptyString); split; [right; exists c; auto|reflexivity]|]. intros [sp [[->|[c' [_ ->]]] E]]; cbn in E; [injection E as -> _; discriminate|]. injection E as _ ->. reflexivity.
        -- split; [discriminate|]. intros [sp [[->|[c' [_ ->]]] E]]; cbn in E; [injection E as -> _; discriminate|]. injection E as _ E _. contradiction.
    + destruct (Ascii.eqb_spec c lpar) as [->|N].
      * split; [intros H; injection H as ->; exists EmptyString; split; [left; reflexivity|reflexivity]|]. intros [sp [[->|[c' [S' ->]]] E]]; cbn in E; [congruence|]. injection E as <- _. discriminate.
      * split; [discriminate|]. intros [sp [[->|[c' [S' ->]]] E]]; cbn in E; injection E as E _; congruence.
Qed.
Lemma body_sound s g : match_body s = Some g -> ~ has_char newline g /\ exists post, s = (g ++ String rpar post)%string.
Proof.
  revert g. induction s as [|c s IH]; intros g; cbn; [discriminate|].
  assert (LAST : (if Ascii.eqb c rpar then Some EmptyString else None) = Some g -> ~ has_char newline g /\ exists post, String c s = (g ++ String rpar post)%string).
  { destruct (Ascii.eqb_spec c rpar) as [->|]; [|discriminate]. intros H. injection H as <-. split; [cbn; tauto|]. exists s. reflexivity. }
  destruct (Ascii.eqb_spec c newline) as [->|N]; [exact LAST|]. destruct (match_body s) as [g'|]; cbn [option_map]; [|exact LAST]. intros H. injection H as <-.
  destruct (IH g' eq_refl) as [H1 [post ->]]. split; [cbn; intros [E|E]; [congruence|tauto]|]. exists post. reflexivity.
Qed.
Lemma body_complete g post : ~ has_char newline g -> match_body (g ++ String rpar post)%string <> None.
Proof.
  induction g as [|c g IH]; cbn; intros H.
  - destruct (Ascii.eqb rpar newline); [|destruct (option_map _ _)]; discriminate.
  - destruct (Ascii.eqb_spec c newline) as [->|N]; [tauto|]. destruct (match_body (g ++ String rpar post)%string); [discriminate|]. exfalso. apply IH; [tauto|reflexivity].
Qed.
Lemma body_last g : ~ has_char newline g -> match_body (g ++ String rpar EmptyString)%string = Some g.
Proof.
  induction g as [|c g IH]; intros H; [reflexivity|]. cbn. cbn in H. destruct (Ascii.eqb_spec c newline) as [->|N]; [tauto|]. rewrite IH by tauto. reflexivity.
Qed.
Lemma group_sound s g : match_group s = Some g -> param_text g /\ exists post, s = (g ++ String rpar post)%string.
Proof.
  unfold match_group. destruct s as [|c s]; [discriminate|]. destruct (Ascii.eqb_spec c newline) as [->|N]; [discriminate|]. destruct (match_body s) as [g'|] eqn:E; [|discriminate]. intros H. injection H as <-.
  destruct (body_sound s g' E) as [H1 [post ->]]. split; [split; [discriminate|cbn; intros [X|X]; [congruence|tauto]]|]. exists post. reflexivity.
Qed.
Lemma group_complete g post : param_text g -> match_group (g ++ String rpar post)%string <> None.
Proof.
  intros [H1 H2]. destruct g as [|c g]; [congruence|]. cbn. cbn in H2. destruct (Ascii.eqb_spec c newline) as [->|N]; [tauto|]. pose proof (body_complete g post) as B. destruct (match_body _); [discriminate|]. exfalso. apply B; [tauto|reflexivity].
Qed.
Lemma group_last g : param_text g -> match_group (g ++ String rpar EmptyString)%string = Some g.
Proof.
  intros [H1 H2]. destruct g as [|c g]; [congruence|]. cbn. cbn in H2. destruct (Ascii.eqb_spec c newline) as [->|N]; [tauto|]. rewrite body_last by tauto. reflexivity.
Qed.
Definition call_at (pat : list pchar) (s g : string) : Prop :=
  exists w sp post, pword pat w /\ opt_space sp /\ param_text g /\ s = (w ++ sp ++ String lpar (g ++ String rpar post))%string.
Lemma match_at_sound pat s g : match_at pat s = Some g -> call_at pat s g.
Proof.
  unfold match_at. destruct (match_prefix pat s) as [s1|] eqn:E1; [|discriminate]. destruct (match_open s1) as [s2|] eqn:E2; [|discriminate]. intros E3.
  apply match_prefix_spec in E1. destruct E1 as [w [H1 ->]]. apply match_open_spec in E2. destruct E2 as [sp [H2 ->]]. apply group_sound in E3. destruct E3 as [H3 [post ->]].
  exists w, sp, post. auto.
Qed.
Lemma prefix_fun pat w r : pword pat w -> match_prefix pat (w ++ r)%string = Some r.
Proof. intros H. apply match_prefix_spec. exists w. auto. Qed.
Lemma match_at_complete pat s g : call_at pat s g -> match_at pat s <> None.
Proof.
  intros [w [sp [post [H1 [H2 [H3 ->]]]]]]. unfold match_at. rewrite (prefix_fun pat w _ H1). rewrite (proj2 (match_open_spec _ _) (ex_intro _ sp (conj H2 eq_refl))). apply group_complete, H3.
Qed.
Lemma match_at_last pat w sp g : pword pat w -> opt_space sp -> param_text g -> match_at pat (w ++ sp ++ String lpar (g ++ String rpar EmptyString))%string = Some g.
Proof.
  intros H1 H2 H3. unfold match_at. rewrite (prefix_fun pat w _ H1). rewrite (proj2 (match_open_spec _ _) (ex_intro _ sp (conj H2 eq_refl))). apply group_last, H3.
Qed.
Lemma search_first pat s g : match_at pat s = Some g -> re_search pat s = Some g.
Proof. intros H. destruct s; cbn [re_search]; rewrite H; reflexivity. Qed.
Lemma search_sound pat s g : re_search pat s = Some g -> exists pre s', s = (pre ++ s')%string /\ call_at pat s' g.
Proof.
  induction s as [|c s IH]; cbn [re_search]; destruct (match_at pat _) as [g'|] eqn:E; intros H; try discriminate.
  - injection H as <-. exists EmptyString, EmptyString. split; [reflexivity|apply match_at_sound, E].
  - injection H as <-. exists EmptyString, (String c s). split; [reflexivity|apply match_at_sound, E].
  - destruct (IH H) as [pre [s' [-> HC]]]. exists (String c pre), s'. auto.
Qed.
Lemma search_complete pat pre s g : call_at pat s g -> re_search pat (pre ++ s)%string <> None.
Proof.
  intros HC. induction pre as [|c pre IH]; cbn [append].
  - pose proof (match_at_complete pat s g HC). destruct s; cbn [re_search]; destruct (match_at pat _); congruence.
  - cbn [re_search]. destruct (match_at pat _); [discriminate|exact IH].
Qed.
Lemma search_calls pat word s : (forall w, pword pat w <-> word w) ->
  (forall g, re_search pat s = Some g -> contains_call word s g) /\ (re_search pat s = None -> forall g, ~ contains_call word s g).
Proof.
  intros HW. split.
  - intros g H. apply search_sound in H. destruct H as [pre [s' [-> [w [sp [post [H1 [H2 [H3 ->]]]]]]]]]. exists pre, w, sp, post. repeat split; auto; [apply HW, H1|apply H3|apply H3].
  - intros HN g [pre [w [sp [post [H1 [H2 [H3 ->]]]]]]]. apply (search_complete pat pre (w ++ sp ++ String lpar (g ++ String rpar post))%string g); [|exact HN]. exists w, sp, post. repeat split; auto; [apply HW, H1|apply H3|apply H3].
Qed.

(** C52: the documented names, and instances. *)
Theorem C52_family_names : forall pf,
  (forall f, get_family pf (FInst f) = Some f) /\
  (forall s f, In (s, f) family_table -> get_family pf (FName s) = Some f) /\
  (forall l f, get_link pf (LInst l) f = Some l) /\
  (forall s l f, In (s, l) link_table -> get_link pf (LName s) f = Some l).
Proof.
  intros pf. split; [reflexivity|]. split; [|split; [reflexivity|]].
  - intros s f H. unfold family_table in H. repeat destruct H as [H|H]; try (injection H as <- <-; reflexivity). contradiction.
  - intros s l f H. unfold link_table in H. repeat destruct H as [H|H]; try (injection H as <- <-; reflexivity). contradiction.
Qed.
Print Assumptions C52_family_names.

(** Every other string: a call "tweedie(p)" or "negative.binomial(theta)" somewhere in the string, whose
    parameter is a number in the admissible range; everything else raises. *)
Theorem C52_other_names : forall pf s,
  (~ (exists f, In (s, f) family_table) ->
   (forall f, get_family pf (FName s) = Some f ->
      (exists g p, contains_call tweedie_word s g /\ pf g = Some p /\ (p <= 0 \/ 1 <= p) /\ f = TweedieF p) \/
      ((forall g, ~ contains_call tweedie_word s g) /\ exists g t, contains_call negbin_word s g /\ pf g = Some t /\ 0 < t /\ f = NegBinF t)) /\
   ((forall g, ~ contains_call tweedie_word s g /\ ~ contains_call negbin_word s g) -> get_family pf (FName s) = None)) /\
  (forall f, s <> "auto"%string -> ~ (exists l, In (s, l) link_table) ->
   (forall l, get_link pf (LName s) f = Some l -> exists g p, contains_call tweedie_word s g /\ pf g = Some p /\ (p <= 0 \/ 1 <= p) /\ l = TweedieL p) /\
   ((forall g, ~ contains_call tweedie_word s g) -> get_link pf (LName s) f = None)).
Proof.
  intros pf s. destruct (search_calls tweedie_pat tweedie_word s tweedie_pword) as [TS TN]. destruct (search_calls negbin_pat negbin_word s negbin_pword) as [NS NN]. split.
  - intros HT. unfold get_family.
    repeat match goal with |- context [String.eqb s ?c] => destruct (String.eqb_spec s c) as [E|_]; [exfalso; apply HT; eexists; rewrite E; unfold family_table; cbn [In]; eauto 12|] end.
    destruct (re_search tweedie_pat s) as [g|].
    + split; [|intros H; exfalso; refine (proj1 (H g) _); apply TS; reflexivity]. intros f H. left. exists g. destruct (pf g) as [p|]; [|discriminate]. exists p. unfold mk_tweedie in H.
      split; [apply TS; reflexivity|]. split; [reflexivity|]. destruct (Rlt_dec 0 p); [destruct (Rlt_dec p 1); [discriminate|]|]; injection H as <-; split; try reflexivity; lra.
    + destruct (re_search negbin_pat s) as [g|].
      * split; [|intros H; exfalso; refine (proj2 (H g) _); apply NS; reflexivity]. intros f H. right. split; [apply TN; reflexivity|]. exists g. destruct (pf g) as [t|]; [|discriminate]. exists t. unfold mk_negbin in H.
        split; [apply NS; reflexivity|]. split; [reflexivity|]. destruct (Rlt_dec 0 t); [|discriminate]. injection H as <-. auto.
      * split; [discriminate|reflexivity].
  - intros f HA HT. unfold get_link. destruct (String.eqb_spec s "auto") as [E|_]; [contradiction|].
    repeat match goal with |- context [String.eqb s ?c] => destruct (String.eqb_spec s c) as [E|_]; [exfalso; apply HT; eexists; rewrite E; unfold link_table; cbn [In]; eauto 12|] end.
    destruct (re_search tweedie_pat s) as [g|].
    + split; [|intros H; exfalso; refine (H g _); apply TS; reflexivity]. intros l H. exists g. destruct (pf g) as [p|]; [|discriminate]. exists p. unfold mk_tweedie_link in H.
      split; [apply TS; reflexivity|]. split; [reflexivity|]. destruct (Rlt_dec 0 p); [destruct (Rlt_dec p 1); [discriminate|]|]; injection H as <-; split; try reflexivity; lra.
    + split; [discriminate|reflexivity].
Qed.
Print Assumptions C52_other_names.

Lemma app_length s t : String.length (s ++ t)%string = (String.length s + String.length t)%nat.
Proof. induction s as [|c s IH]; cbn; [reflexivity|]. rewrite IH. reflexivity. Qed.
Lemma has_char_app c s t : has_char c (s ++ t)%string <-> has_char c s \/ has_char c t.
Proof. induction s as [|d s IH]; cbn; [tauto|]. rewrite IH. tauto. Qed.
Lemma call_not_table s w sp g : s = (w ++ sp ++ String lpar (g ++ String rpar EmptyString))%string -> has_char lpar s.
Proof. intros ->. rewrite !has_char_app. right. right. left. reflexivity. Qed.
Ltac no_paren := exfalso; match goal with E : ?s = _, H : has_char lpar ?s |- _ => rewrite E in H; cbn in H; repeat destruct H as [H|H]; try discriminate H; contradiction end.

Lemma app_assoc_s (a b c : string) : ((a ++ b) ++ c = a ++ b ++ c)%string.
Proof. induction a as [|x a IH]; cbn; [reflexivity|]. rewrite IH. reflexivity. Qed.
Lemma cut_after A B P c rest : ~ has_char c A -> (A ++ B = P ++ String c rest)%string -> exists Q, B = (Q ++ String c rest)%string.
Proof.
  revert P. induction A as [|a A IH]; intros P HN E; [exists P; exact E|]. destruct P as [|d P]; cbn in E.
  - injection E as -> _. exfalso. apply HN. left. reflexivity.
  - injection E as _ E. apply (IH P); [intros X; apply HN; right; exact X|exact E].
Qed.

(** The parametrised names themselves, for every parameter text. *)
Theorem C52_parametrised : forall pf w sp g f, opt_space sp -> param_text g ->
  let s := (w ++ sp ++ String lpar (g ++ String rpar EmptyString))%string in
  (tweedie_word w -> get_family pf (FName s) = match pf g with Some p => mk_tweedie p | None => None end) /\
  (tweedie_word w -> get_link pf (LName s) f = match pf g with Some p => mk_tweedie_link p | None => None end) /\
  (w = "negative.binomial"%string -> ~ has_char lpar g -> get_family pf (FName s) = match pf g with Some t => mk_negbin t | None => None end).
Proof.
  intros pf w sp g f Hsp Hg s. pose proof (call_not_table s w sp g eq_refl) as HP.
  assert (SF : forall o, re_search tweedie_pat s = o -> get_family pf (FName s) = match o with Some g => match pf g with Some p => mk_tweedie p | None => None end | None => match re_search negbin_pat s with
              | Some g => match pf g with Some t => mk_negbin t | None => None end | None => None end end).
  { intros o <-. unfold get_family. repeat match goal with |- context [String.eqb s ?c] => destruct (String.eqb_spec s c) as [E|_]; [no_paren|] end. reflexivity. }
  split; [|split].
  - intros HW. apply tweedie_pword in HW. apply (SF (Some g)). apply search_first, match_at_last; assumption.
  - intros HW. apply tweedie_pword in HW. unfold get_link. repeat match goal with |- context [String.eqb s ?c] => destruct (String.eqb_spec s c) as [E|_]; [no_paren|] end.
    replace (re_search tweedie_pat s) with (Some g) by (symmetry; apply search_first, match_at_last; assumption). reflexivity.
  - intros HW HL. rewrite (SF None).
    + assert (HW' : pword negbin_pat w) by (apply negbin_pword; exists "."%char; split; [discriminate|exact HW]). replace (re_search negbin_pat s) with (Some g) by (symmetry; apply search_first, match_at_last; assumption). reflexivity.
    + destruct (re_search tweedie_pat s) as [g'|] eqn:ES; [|reflexivity]. exfalso.
      destruct (search_sound _ _ _ ES) as [pre [s' [E [w' [sp' [post [H1 [H2 [H3 ->]]]]]]]]]. apply tweedie_pword in H1. unfold tweedie_word in H1. subst w'.
      set (rest := (String "e" "edie" ++ sp' ++ String lpar (g' ++ String rpar post))%string).
      assert (E' : ((w ++ sp) ++ String lpar (g ++ String rpar EmptyString) = (pre ++ "t") ++ String "w" rest)%string) by (rewrite !app_assoc_s; exact E).
      assert (NW : ~ has_char "w" (w ++ sp)%string).
      { rewrite has_char_app, HW. intros [X|X]; [cbn in X; repeat destruct X as [X|X]; try discriminate X; contradiction|]. destruct Hsp as [->|[c [Sc ->]]]; [contradiction|]. destruct X as [<-|[]]. discriminate. }
      destruct (cut_after _ _ _ _ _ NW E') as [Q EQ]. destruct Q as [|d Q]; [discriminate|]. injection EQ as _ EQ.
      apply (f_equal (has_char lpar)) in EQ. assert (X : has_char lpar (g ++ String rpar EmptyString)%string) by (rewrite EQ; rewrite has_char_app; right; right; unfold rest; rewrite !has_char_app; right; right; left; reflexivity).
      rewrite has_char_app in X. destruct X as [X|[X|[]]]; [contradiction|discriminate].
Qed.
Print Assumptions C52_parametrised.

Ltac names := unfold get_family, get_link; cbn [String.eqb Ascii.eqb Bool.eqb];
  repeat match goal with |- context [re_search ?p ?s] => let v := eval vm_compute in (re_search p s) in replace (re_search p s) with v by (vm_compute; reflexivity); cbv beta iota end.
(** finding F29: the pattern is searched for anywhere, so misspelt names are accepted. *)
Theorem C52_unknown_refuted : forall pf, pf "1.5"%string = Some (3 / 2) ->
  get_family pf (FName "quasi-tweedie (1.5) with log link"%string) = Some (TweedieF (3 / 2)) /\
  get_link pf (LName "nottweedie(1.5)x"%string) NormalF = Some (TweedieL (3 / 2)).
Proof.
  intros pf H. split; names; rewrite H; [unfold mk_tweedie|unfold mk_tweedie_link]; (destruct (Rlt_dec 0 (3 / 2)); [|lra]); destruct (Rlt_dec (3 / 2) 1); try lra; reflexivity.
Qed.
Print Assumptions C52_unknown_refuted.

(** The automatic link: the documented one; it maps every linear predictor into the range of the mean, except for
    Tweedie powers below 0; it is canonical or the log link. *)
Theorem C52_auto_link : forall pf f, family_ok f ->
  get_link pf LNone f = Some (default_link f) /\ get_link pf (LName "auto"%string) f = Some (default_link f) /\
  (default_link f = LogL \/ canonical_pair f (default_link f) \/ f = GHSF \/ exists p, p < 0 /\ f = TweedieF p) /\
  ((forall p, f = TweedieF p -> 0 <= p) -> forall eta, mean_range f (raw_inverse (default_link f) eta)).
Proof.
  intros pf f Hf. assert (E : auto_link f = Some (default_link f)).
  { unfold auto_link. destruct f; cbn; try reflexivity; destruct (Rle_dec _ 0); try reflexivity; lra. }
  split; [exact E|]. split; [exact E|]. split.
  - destruct f as [p| | | | | | |t]; cbn; auto. destruct (Rle_dec p 0) as [L|L]; [|auto]. destruct (Req_dec p 0) as [->|N]; [right; left; reflexivity|]. right. right. right. exists p. split; [lra|reflexivity].
  - intros HP eta. destruct f as [p| | | | | | |t]; cbn; try exact I; try apply exp_pos.
    + intros N. specialize (HP p eq_refl). destruct (Rle_dec p 0); [lra|]. apply exp_pos.
    + unfold expit. pose proof (exp_pos (- eta)) as X. split; [apply Rdiv_lt_0_compat; lra|]. apply (Rmult_lt_reg_r (1 + exp (- eta))); [lra|]. unfold Rdiv. rewrite Rmult_assoc, Rinv_l by lra. lra.
Qed.
Print Assumptions C52_auto_link.

(** for a power below 0 the automatic link (identity) allows means for which there is no distribution *)
Theorem C52_auto_link_negative_power_refuted : forall pf p, p < 0 ->
  get_link pf LNone (TweedieF p) = Some IdentityL /\ ~ (forall eta, mean_range (TweedieF p) (raw_inverse IdentityL eta)).
Proof.
  intros pf p Hp. split; [cbn; unfold auto_link; cbn; destruct (Rle_dec p 0); [reflexivity|lra]|]. intros H. specialize (H (-1)). cbn in H. assert (p <> 0) by lra. specialize (H H0). lra.
Qed.
Print Assumptions C52_auto_link_negative_power_refuted.

Example C52_nonvacuous : forall pf, pf "2"%string = Some 2 ->
  opt_space " "%string /\ param_text "2"%string /\ get_family pf (FName "tweedie (2)"%string) = Some (TweedieF 2) /\
  get_family pf (FName "negative.binomial(2)"%string) = Some (NegBinF 2) /\ get_family pf (FName "student"%string) = None.
Proof.
  intros pf H. split; [right; exists " "%char; auto|]. split; [split; [discriminate|cbn; intros [X|[]]; discriminate]|].
  split; [names; rewrite H; unfold mk_tweedie; destruct (Rlt_dec 0 2); [destruct (Rlt_dec 2 1)|]; try lra; reflexivity|].
  split; [names; rewrite H; unfold mk_negbin; destruct (Rlt_dec 0 2); [reflexivity|lra]|names; reflexivity].
Qed.
