(** Lemmas about the chain of solves. *)
From Verif Require Import M_Path S_Path L_Link L_Dist L_Dist2 L_Dist4 L_CD L_KKT L_Hess L_Solver L_Solver2 L_Solver3 L_Obj L_Std L_Fit L_Path P_Solver P_Obj P_Fit.
From Verif Require Import M_Solver S_Solver.
Local Open Scope R_scope.

Lemma solve_path_chained solve pb P2 alphas : forall c sols, solve_path solve pb P2 alphas c = Some sols ->
  chained (solve_alpha solve pb P2) alphas c sols.
Proof.
  induction alphas as [|a r IH]; intros c sols; simpl.
  - intros H. injection H as <-. split; [reflexivity|]. simpl. intros k Hk. lia.
  - destruct (solve_alpha _ _ _ a c) as [s|] eqn:E; [|discriminate].
    destruct (solve_path _ _ _ r _) as [l|] eqn:E2; [|discriminate]. intros H. injection H as <-.
    destruct (IH _ _ E2) as [HL HC]. split; [simpl; lia|]. intros k Hk. destruct k as [|k].
    + exists s. split; [reflexivity|]. simpl. exact E.
    + destruct (HC k ltac:(simpl in Hk; lia)) as [s' [A B]]. exists s'. split; [exact A|].
      cbn [nth]. destruct k as [|k]; cbn [nth_error]; [exact B|].
      destruct (HC k ltac:(simpl in Hk; lia)) as [s'' [A' _]]. rewrite A' in B |- *. exact B.
Qed.
Lemma chained_solve_path solve pb P2 alphas : forall c sols, chained (solve_alpha solve pb P2) alphas c sols ->
  solve_path solve pb P2 alphas c = Some sols.
Proof.
  induction alphas as [|a r IH]; intros c sols [HL HC]; simpl.
  - destruct sols; [reflexivity|discriminate].
  - destruct sols as [|s sols]; [discriminate|]. simpl in HL.
    destruct (HC 0%nat ltac:(simpl; lia)) as [s' [A B]]. cbn in A. injection A as <-. cbn [nth] in B. rewrite B.
    rewrite (IH (so_coef s) sols); [reflexivity|]. split; [lia|]. intros k Hk.
    destruct (HC (S k) ltac:(simpl; lia)) as [s' [A2 B2]]. exists s'. split; [exact A2|]. cbn [nth] in B2.
    destruct k; cbn [nth_error] in B2; [exact B2|].
    destruct (nth_error sols k) eqn:En; [exact B2|]. apply nth_error_None in En. lia.
Qed.
Lemma solve_path_app solve pb P2 l1 l2 : forall c, solve_path solve pb P2 (l1 ++ l2) c =
  match solve_path solve pb P2 l1 c with
  | None => None
  | Some s1 => match solve_path solve pb P2 l2 (match rev s1 with [] => c | s :: _ => so_coef s end) with
               | None => None | Some s2 => Some (s1 ++ s2) end
  end.
Proof.
  induction l1 as [|a l1 IH]; intros c; simpl.
  - destruct (solve_path _ _ _ l2 c); reflexivity.
  - destruct (solve_alpha _ _ _ a c) as [s|]; [|reflexivity]. rewrite IH.
    destruct (solve_path _ _ _ l1 _) as [s1|]; [|reflexivity]. simpl rev.
    assert (E : match rev s1 ++ [s] with [] => c | s0 :: _ => so_coef s0 end = match rev s1 with [] => so_coef s | s0 :: _ => so_coef s0 end)
      by (destruct (rev s1); reflexivity).
    rewrite E. destruct (solve_path _ _ _ l2 _); reflexivity.
Qed.
Lemma rev_last {A} (l : list A) x r : rev l = x :: r -> forall d, last l d = x.
Proof. intros H d. rewrite <- (rev_involutive l), H. simpl. rewrite last_last. reflexivity. Qed.
Lemma rev_nth_error {A} (l : list A) x r : rev l = x :: r -> nth_error l (length l - 1) = Some x.
Proof.
  intros H. rewrite <- (rev_involutive l), H. simpl. rewrite app_length, rev_length. simpl.
  rewrite nth_error_app2; rewrite rev_length; [|lia]. replace (length r + 1 - 1 - length r)%nat with 0%nat by lia. reflexivity.
Qed.

(** one irls-cd solve of the path is the fit with that alpha *)
Lemma solve_alpha_cd u se seed alpha c :
  solve_alpha (cd_path_solver seed) (std_problem u se) (std_problem_P2 u) alpha c =
  match irls_solver (std_problem (with_alpha u alpha) se) (cd_solver (std_problem (with_alpha u alpha) se) seed)
          (std_problem_P2 (with_alpha u alpha)) c with
  | Some (s, w) => Some (mkSol (st_coef s) (st_niter s) w) | None => None end.
Proof. unfold solve_alpha, cd_path_solver. rewrite <- std_problem_alpha, <- std_P2_alpha. reflexivity. Qed.

(** boxes do not depend on alpha *)
Lemma in_box_alpha u se alpha v : in_box (std_problem (with_alpha u alpha) se) v <-> in_box (std_problem u se) v.
Proof. unfold in_box. reflexivity. Qed.

(** all entries are feasible *)
Lemma path_in_box u se seed alphas : user_ok u -> 0 <= se_approx se -> (forall a, In a alphas -> 0 <= a) -> forall c sols,
  in_box (std_problem u se) c ->
  solve_path (cd_path_solver seed) (std_problem u se) (std_problem_P2 u) alphas c = Some sols ->
  forall s, In s sols -> in_box (std_problem u se) (so_coef s).
Proof.
  intros Hok HC. induction alphas as [|a r IH]; intros Ha c sols Hb; simpl.
  - intros H. injection H as <-. simpl. tauto.
  - rewrite solve_alpha_cd. destruct (irls_solver _ _ _ c) as [[s w]|] eqn:E; [|discriminate].
    destruct (solve_path _ _ _ r _) as [l|] eqn:E2; [|discriminate]. intros H. injection H as <-.
    assert (B : in_box (std_problem u se) (st_coef s)).
    { rewrite <- (in_box_alpha u se a). eapply C29_result_in_box; eauto. apply std_ok, with_alpha_ok; auto. apply Ha. left. reflexivity. }
    intros s' [<-|Hs']; [exact B|]. eapply (IH (fun a' H => Ha a' (or_intror H)) (st_coef s) l); eauto.
Qed.
