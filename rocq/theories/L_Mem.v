(** Lemmas about memory (C73). *)
From Verif Require Import S_Mem.
From Coq Require Import FunctionalExtensionality Lia Lra.
Local Open Scope R_scope.

(** cells *)
Lemma upd_length h l c : length (upd h l c) = length h.
Proof. revert l; induction h; intros [|l]; simpl; auto. Qed.
Lemma upd_same (h : heap) l c : (l < length h)%nat -> nth_error (upd h l c) l = Some c.
Proof. revert l; induction h; intros [|l]; simpl; intros; try lia; auto. apply IHh; lia. Qed.
Lemma upd_other (h : heap) l c k : k <> l -> nth_error (upd h l c) k = nth_error h k.
Proof. revert l k; induction h; intros [|l] [|k]; simpl; intros; try congruence; auto. Qed.

Lemma at_app_l (h : heap) c l : (l < length h)%nat -> nth_error (h ++ [c]) l = nth_error h l.
Proof. intros; apply nth_error_app1; auto. Qed.
Lemma at_app_r (h : heap) c : nth_error (h ++ [c]) (length h) = Some c.
Proof. rewrite nth_error_app2, Nat.sub_diag by lia; reflexivity. Qed.

(** everything but the arrays in P is as before *)
Definition pres (P : loc -> Prop) (h h' : heap) : Prop :=
  (length h <= length h')%nat /\ forall l, (l < length h)%nat -> ~ P l -> nth_error h' l = nth_error h l.
Lemma pres_refl P h : pres P h h.
Proof. split; auto. Qed.
Lemma pres_trans P h h' h'' : pres P h h' -> pres P h' h'' -> pres P h h''.
Proof.
  intros [A B] [C D]; split; [lia|]. intros l Hl Hp. rewrite D by (auto; lia). apply B; auto.
Qed.
Lemma pres_weaken (P Q : loc -> Prop) h h' : (forall l, (l < length h)%nat -> P l -> Q l) -> pres P h h' -> pres Q h h'.
Proof. intros A [B C]; split; [exact B|]. intros l Hl Hq. apply C; auto. Qed.
Lemma pres_new P h c : pres P h (h ++ [c]).
Proof. split; [rewrite app_length; simpl; lia|]. intros; apply at_app_l; auto. Qed.
Lemma pres_upd (P : loc -> Prop) h l c : P l -> pres P h (upd h l c).
Proof. intros Hp; split; [rewrite upd_length; auto|]. intros k Hk Hn. apply upd_other. intros ->; auto. Qed.
Lemma pres_copy P b h l : pres P h (snd (maybe_copy b h l)).
Proof. destruct b; simpl; [apply pres_new|apply pres_refl]. Qed.

Lemma vec_pres P h h' l : pres P h h' -> (l < length h)%nat -> ~ P l -> vec_at h' l = vec_at h l.
Proof. intros [A B] Hl Hn. unfold vec_at. rewrite B; auto. Qed.
Lemma mat_pres P h h' l : pres P h h' -> (l < length h)%nat -> ~ P l -> mat_at h' l = mat_at h l.
Proof. intros [A B] Hl Hn. unfold mat_at. rewrite B; auto. Qed.
Lemma bnd_pres P h h' l : pres P h h' -> (l < length h)%nat -> ~ P l -> bnd_at h' l = bnd_at h l.
Proof. intros [A B] Hl Hn. unfold bnd_at. rewrite B; auto. Qed.

Lemma vec_new h v : vec_at (h ++ [CVec v]) (length h) = v.
Proof. unfold vec_at. rewrite at_app_r; reflexivity. Qed.
Lemma mat_new h v : mat_at (h ++ [CMat v]) (length h) = v.
Proof. unfold mat_at. rewrite at_app_r; reflexivity. Qed.
Lemma bnd_new h v : bnd_at (h ++ [CBnd v]) (length h) = v.
Proof. unfold bnd_at. rewrite at_app_r; reflexivity. Qed.
Lemma vec_upd h l v : (l < length h)%nat -> vec_at (upd h l (CVec v)) l = v.
Proof. intros; unfold vec_at. rewrite upd_same; auto. Qed.
Lemma mat_upd h l v : (l < length h)%nat -> mat_at (upd h l (CMat v)) l = v.
Proof. intros; unfold mat_at. rewrite upd_same; auto. Qed.
Lemma vec_upd_o h l v k : k <> l -> vec_at (upd h l v) k = vec_at h k.
Proof. intros; unfold vec_at. rewrite upd_other; auto. Qed.
Lemma mat_upd_o h l v k : k <> l -> mat_at (upd h l v) k = mat_at h k.
Proof. intros; unfold mat_at. rewrite upd_other; auto. Qed.
Lemma bnd_upd_o h l v k : k <> l -> bnd_at (upd h l v) k = bnd_at h k.
Proof. intros; unfold bnd_at. rewrite upd_other; auto. Qed.

(** a conversion yields the same contents, at the same place or at a new one *)
Lemma copy_spec b h l r h' : maybe_copy b h l = (r, h') -> (l < length h)%nat ->
  (r < length h')%nat /\ vec_at h' r = vec_at h l /\ mat_at h' r = mat_at h l /\ bnd_at h' r = bnd_at h l /\
  ((b = true /\ r = length h) \/ (b = false /\ r = l)).
Proof.
  unfold maybe_copy; destruct b; intros E Hl; inversion E; subst; clear E.
  - rewrite app_length; simpl. split; [lia|]. unfold vec_at, mat_at, bnd_at. rewrite at_app_r.
    rewrite (nth_error_nth' h (CVec (fun _ => 0)) Hl). repeat split; auto.
  - repeat split; auto.
Qed.

Definition nothing : loc -> Prop := fun _ => False.
Lemma nothing_not l : ~ nothing l. Proof. intros []. Qed.
#[global] Hint Resolve nothing_not pres_refl pres_new : mem.

(** at the place of the argument or at a new one *)
Definition old_or_new (n : nat) (r l : loc) : Prop := r = l \/ (n <= r)%nat.

Lemma mem_data_spec a h X y w off h' : mem_data a h = ((X, y, w, off), h') -> args_held a h ->
  let u := values_of a h in
  pres nothing h h' /\
  (mat_at h' X = u_X u /\ (X < length h')%nat /\ old_or_new (length h) X (g_X a)) /\
  (vec_at h' y = u_y u /\ (y < length h')%nat /\ old_or_new (length h) y (g_y a)) /\
  (vec_at h' w = u_w u /\ (length h <= w < length h')%nat) /\
  match off, g_off a with
  | None, None => True
  | Some o, Some l => vec_at h' o = vec_at h l /\ (o < length h')%nat /\ old_or_new (length h) o l
  | _, _ => False
  end.
Proof.
  intros E (HX & Hy & Hw & Ho & _) u. unfold mem_data in E.
  destruct (maybe_copy (g_copies a AtX) h (g_X a)) as [X1 h1] eqn:E1.
  pose proof (pres_copy nothing (g_copies a AtX) h (g_X a)) as P1; rewrite E1 in P1; simpl in P1.
  pose proof (copy_spec _ _ _ _ _ E1 HX) as (L1 & _ & M1 & _ & O1).
  destruct (maybe_copy (g_copies a AtY) h1 (g_y a)) as [y1 h2] eqn:E2.
  assert (Hy1 : (g_y a < length h1)%nat) by (destruct P1; unfold held in Hy; lia).
  pose proof (pres_copy nothing (g_copies a AtY) h1 (g_y a)) as P2; rewrite E2 in P2; simpl in P2.
  pose proof (copy_spec _ _ _ _ _ E2 Hy1) as (L2 & V2 & _ & _ & O2).
  destruct (match g_w a with None => new h2 (CVec (fun _ => 1)) | Some l => maybe_copy (g_copies a AtW) h2 l end) as [w0 h3] eqn:E3.
  assert (P12 : pres nothing h h2) by (eapply pres_trans; eauto).
  assert (H3 : pres nothing h2 h3 /\ (w0 < length h3)%nat /\ vec_at h3 w0 = match g_w a with Some l => vec_at h l | None => fun _ => 1 end).
  { destruct (g_w a) as [l|].
    - assert (Hl : (l < length h2)%nat) by (simpl in Hw; unfold held in Hw; destruct P12; lia).
      pose proof (pres_copy nothing (g_copies a AtW) h2 l) as Q; rewrite E3 in Q; simpl in Q.
      pose proof (copy_spec _ _ _ _ _ E3 Hl) as (A & B & _). repeat split; auto; [apply Q|apply Q|].
      rewrite B. apply (vec_pres nothing); auto with mem.
    - unfold new in E3; inversion E3; subst. split; [auto with mem|]. rewrite app_length, vec_new; simpl; split; [lia|auto]. }
  destruct H3 as (P3 & L3 & V3). assert (P13 : pres nothing h h3) by (eapply pres_trans; eauto).
  destruct (match g_off a with None => (None, h3) | Some l => let '(o, h0) := maybe_copy (g_copies a AtOff) h3 l in (Some o, h0) end) as [o1 h4] eqn:E4.
  assert (H4 : pres nothing h3 h4 /\ match o1, g_off a with
     | None, None => True
     | Some o, Some l => vec_at h4 o = vec_at h l /\ (o < length h4)%nat /\ old_or_new (length h) o l
     | _, _ => False end).
  { destruct (g_off a) as [l|].
    - assert (Hl : (l < length h3)%nat) by (simpl in Ho; unfold held in Ho; destruct P13; lia).
      destruct (maybe_copy (g_copies a AtOff) h3 l) as [o h0] eqn:E5.
      pose proof (pres_copy nothing (g_copies a AtOff) h3 l) as Q; rewrite E5 in Q; simpl in Q.
      pose proof (copy_spec _ _ _ _ _ E5 Hl) as (A & B & _ & _ & D). inversion E4; subst. split; [auto|].
      split; [rewrite B; apply (vec_pres nothing); auto with mem|]. split; [auto|].
      destruct D as [[_ ->]|[_ ->]]; [right|left; auto]. destruct P13; lia.
    - inversion E4; subst. split; auto with mem. }
  destruct H4 as (P4 & V4). assert (P14 : pres nothing h h4) by (eapply pres_trans; eauto).
  unfold new in E. inversion E; subst X1 y1 w o1 h'; clear E.
  set (cw := CVec _).
  assert (P5 : pres nothing h4 (h4 ++ [cw])) by auto with mem.
  assert (P15 : pres nothing h (h4 ++ [cw])) by (eapply pres_trans; eauto).
  assert (P25 : pres nothing h2 (h4 ++ [cw])) by (eapply pres_trans; [exact P3|eapply pres_trans; eauto]).
  assert (LL : length (h4 ++ [cw]) = S (length h4)) by (rewrite app_length; simpl; lia).
  split; [auto|]. split; [|split; [|split]].
  - split; [|split].
    + rewrite (mat_pres nothing h1) by (auto with mem; eapply pres_trans; eauto). rewrite M1; reflexivity.
    + destruct P2, P25; lia.
    + destruct O1 as [[_ ->]|[_ ->]]; [right; lia|left; auto].
  - split; [|split].
    + rewrite (vec_pres nothing h2) by auto with mem. rewrite V2. rewrite (vec_pres nothing h) by auto with mem. reflexivity.
    + destruct P25; lia.
    + destruct O2 as [[_ ->]|[_ ->]]; [right; destruct P1; lia|left; auto].
  - split; [|destruct P14; lia].
    unfold cw. rewrite vec_new. rewrite (vec_pres nothing h3 h4) by auto with mem. rewrite V3. reflexivity.
  - destruct off as [o|], (g_off a) as [l|]; auto. destruct V4 as (A & B & C). split; [|split]; auto; [|lia].
    rewrite (vec_pres nothing h4) by auto with mem. auto.
Qed.

Lemma mem_p1_spec a h r h' : mem_p1 a h = (r, h') -> held_opt h (g_P1 a) ->
  pres nothing h h' /\ (length h <= r < length h')%nat /\
  vec_at h' r = (fun j => 1 * g_l1 a * match g_P1 a with Some l => vec_at h l j | None => 1 end).
Proof.
  unfold mem_p1; intros E H.
  destruct (match g_P1 a with None => new h (CVec (fun _ => 1)) | Some l => maybe_copy (g_copies a AtP1) h l end) as [l0 h1] eqn:E1.
  assert (A : pres nothing h h1 /\ vec_at h1 l0 = match g_P1 a with Some l => vec_at h l | None => fun _ => 1 end).
  { destruct (g_P1 a) as [l|].
    - pose proof (pres_copy nothing (g_copies a AtP1) h l) as Q; rewrite E1 in Q; simpl in Q.
      pose proof (copy_spec _ _ _ _ _ E1 H) as (_ & B & _). auto.
    - unfold new in E1; inversion E1; subst. split; [auto with mem|apply vec_new]. }
  destruct A as [P V]. unfold new in E; inversion E; subst. rewrite app_length; simpl.
  split; [eapply pres_trans; eauto with mem|]. split; [destruct P; lia|]. rewrite vec_new, V.
  destruct (g_P1 a); reflexivity.
Qed.

Lemma p2_at_new_m h M : p2_at (h ++ [CMat M]) (length h) false = P2mat M.
Proof. unfold p2_at; rewrite mat_new; reflexivity. Qed.
Lemma mem_p2_spec a h r d h' : mem_p2 a h = ((r, d), h') ->
  match g_P2 a with L2Identity => True | L2Vec l | L2Mat l => held h l end ->
  pres nothing h h' /\ (length h <= r < length h')%nat /\ p2_at h' r d = u_P2 (values_of a h).
Proof.
  unfold mem_p2; intros E H. unfold values_of; simpl u_P2. destruct (g_P2 a) as [|l|l].
  - unfold new in E; inversion E; subst. rewrite app_length; simpl. split; [auto with mem|]. split; [lia|].
    unfold p2_at. rewrite vec_new; auto.
  - destruct (maybe_copy true h l) as [c h1] eqn:E1. pose proof (copy_spec _ _ _ _ _ E1 H) as (_ & B & _).
    pose proof (pres_copy nothing true h l) as Q; rewrite E1 in Q; simpl in Q.
    unfold new in E; inversion E; subst. rewrite app_length; simpl. split; [eapply pres_trans; eauto with mem|].
    split; [destruct Q; lia|]. unfold p2_at. rewrite vec_new, B; auto.
  - destruct (maybe_copy true h l) as [c h1] eqn:E1. pose proof (copy_spec _ _ _ _ _ E1 H) as (_ & _ & B & _).
    pose proof (pres_copy nothing true h l) as Q; rewrite E1 in Q; simpl in Q.
    unfold new in E. set (h2 := h1 ++ [CMat (fun i j => 1 * (1 - g_l1 a) * mat_at h1 c i j)]) in *.
    assert (P2 : pres nothing h h2) by (eapply pres_trans; [exact Q|apply pres_new]).
    inversion E; subst r d h'; clear E.
    split; [eapply pres_trans; [exact P2|apply pres_new]|]. split; [rewrite app_length; simpl; destruct P2; lia|].
    rewrite p2_at_new_m. unfold h2. rewrite mat_new, B. reflexivity.
Qed.

Lemma mem_bounds_spec cp b h r h' : mem_bounds cp b h = (r, h') -> held_opt h b ->
  pres nothing h h' /\ obnd h' r = obnd h b /\ held_opt h' r.
Proof.
  unfold mem_bounds; destruct b as [l|]; simpl; intros E H.
  - destruct (maybe_copy cp h l) as [c h1] eqn:E1. pose proof (copy_spec _ _ _ _ _ E1 H) as (A & _ & _ & B & _).
    pose proof (pres_copy nothing cp h l) as Q; rewrite E1 in Q; simpl in Q. inversion E; subst. simpl. auto.
  - inversion E; subst. auto with mem.
Qed.
Lemma mem_std_bounds_spec b s h r h' : mem_std_bounds b s h = (r, h') -> 
  pres nothing h h' /\ obnd h' r = std_bounds (obnd h b) (vec_at h s) /\ held_opt h' r /\
  (forall l, r = Some l -> (length h <= l)%nat).
Proof.
  unfold mem_std_bounds; destruct b as [l|]; intros E.
  - unfold new in E; inversion E; subst. split; [auto with mem|]. simpl. rewrite bnd_new.
    unfold held; rewrite app_length; simpl. repeat split; try lia. intros l0 E0; inversion E0; lia.
  - inversion E; subst. split; [auto with mem|]. simpl. repeat split; try discriminate.
Qed.

Lemma mem_std_pen_spec scale P1 P2 s d h r h' : mem_std_penalties scale P1 P2 s d h = (r, h') ->
  (P1 < length h)%nat -> (P2 < length h)%nat -> (s < length h)%nat -> P1 <> P2 -> P1 <> s -> P2 <> s ->
  pres (fun l => l = P1 \/ l = P2) h h' /\ (r = P2 \/ (length h <= r)%nat) /\ (r < length h')%nat /\
  vec_at h' P1 = std_P1 scale (vec_at h P1) (vec_at h s) /\
  p2_at h' r d = std_P2 scale (p2_at h P2 d) (vec_at h s).
Proof.
  intros E L1 L2 Ls N12 N1s N2s. unfold mem_std_penalties in E. destruct scale.
  - inversion E; subst. split; [apply pres_refl|]. simpl. auto.
  - set (h1 := upd h P1 (CVec (fun j => vec_at h P1 j * one_over (vec_at h s j)))) in *.
    assert (LE : length h1 = length h) by apply upd_length.
    assert (Q1 : pres (fun l => l = P1 \/ l = P2) h h1) by (apply pres_upd; auto).
    assert (S1 : vec_at h1 s = vec_at h s) by (apply vec_upd_o; auto).
    destruct d.
    + inversion E; subst r h'; clear E. split; [eapply pres_trans; [exact Q1|apply pres_upd; auto]|].
      split; [auto|]. rewrite upd_length. split; [lia|]. split.
      * rewrite vec_upd_o by auto. unfold h1; rewrite vec_upd by auto. reflexivity.
      * unfold p2_at. rewrite vec_upd by lia. rewrite S1. unfold h1. rewrite vec_upd_o by auto. reflexivity.
    + unfold new in E; inversion E; subst r h'; clear E.
      split; [eapply pres_trans; [exact Q1|apply pres_new]|]. split; [right; lia|]. split; [rewrite app_length; simpl; lia|].
      split.
      * rewrite (vec_pres nothing h1) by (auto with mem; lia). unfold h1; rewrite vec_upd by auto. reflexivity.
      * rewrite p2_at_new_m. rewrite S1. unfold h1; rewrite mat_upd_o by auto. reflexivity.
Qed.

Ltac ptr := first [ assumption | apply pres_refl |
  match goal with |- pres ?P ?a ?c => match goal with H : pres P ?b c |- _ =>
    lazymatch b with a => fail | _ => apply (pres_trans P a b c); [ptr | exact H] end end end ].
(** the prepared arrays hold the standardized problem *)
Record prep_ok (a : margs) (h : heap) (q : prepared) (h' : heap) : Prop := mkPok {
  po_pres : pres nothing h h';
  po_X : mat_at h' (q_X q) = u_X (values_of a h) /\ (q_X q < length h')%nat /\ old_or_new (length h) (q_X q) (g_X a);
  po_y : vec_at h' (q_y q) = u_y (values_of a h) /\ (q_y q < length h')%nat /\ old_or_new (length h) (q_y q) (g_y a);
  po_w : vec_at h' (q_w q) = u_w (values_of a h) /\ (length h <= q_w q < length h')%nat;
  po_off : match q_off q, g_off a with
           | None, None => True
           | Some o, Some l => vec_at h' o = vec_at h l /\ (o < length h')%nat /\ old_or_new (length h) o l
           | _, _ => False end;
  po_P1 : vec_at h' (q_P1 q) = std_P1 (g_scale a) (u_P1 (values_of a h)) (u_stds (values_of a h)) /\ (length h <= q_P1 q < length h')%nat;
  po_P2 : p2_at h' (q_P2 q) (q_P2d q) = std_problem_P2 (values_of a h) /\ (length h <= q_P2 q < length h')%nat;
  po_lb : obnd h' (q_lb q) = std_bounds (u_lb (values_of a h)) (u_stds (values_of a h)) /\ held_opt h' (q_lb q) /\
          (forall l, q_lb q = Some l -> (length h <= l)%nat);
  po_ub : obnd h' (q_ub q) = std_bounds (u_ub (values_of a h)) (u_stds (values_of a h)) /\ held_opt h' (q_ub q) /\
          (forall l, q_ub q = Some l -> (length h <= l)%nat);
  po_m : vec_at h' (q_m q) = u_means (values_of a h) /\ (length h <= q_m q < length h')%nat;
  po_s : vec_at h' (q_s q) = u_stds (values_of a h) /\ (length h <= q_s q < length h')%nat }.

Lemma values_pres a h h' : pres nothing h h' -> args_held a h -> values_of a h' = values_of a h.
Proof.
  intros P (HX & Hy & Hw & Ho & H1 & H2 & Hl & Hu & _). unfold values_of.
  rewrite (mat_pres nothing h h'), (vec_pres nothing h h') by auto with mem.
  assert (V : forall o, held_opt h o -> forall d : nat -> R, match o with Some l => vec_at h' l | None => d end = match o with Some l => vec_at h l | None => d end).
  { intros [l|] K d; auto. apply (vec_pres nothing); auto with mem. }
  assert (B : forall o, held_opt h o -> obnd h' o = obnd h o).
  { intros [l|] K; auto. simpl. apply (bnd_pres nothing); auto with mem. }
  rewrite (V _ Hw), (V _ Ho), (B _ Hl), (B _ Hu).
  assert (E1 : (fun j => 1 * g_l1 a * match g_P1 a with Some l => vec_at h' l j | None => 1 end) =
               (fun j => 1 * g_l1 a * match g_P1 a with Some l => vec_at h l j | None => 1 end)).
  { apply functional_extensionality; intros j. destruct (g_P1 a) as [l|]; auto. rewrite (vec_pres nothing h h') by auto with mem. auto. }
  rewrite E1. destruct (g_P2 a) as [|l|l]; auto.
  - rewrite (vec_pres nothing h h') by auto with mem. auto.
  - rewrite (mat_pres nothing h h') by auto with mem. auto.
Qed.
Lemma args_held_pres a h h' P : pres P h h' -> args_held a h -> args_held a h'.
Proof.
  intros [L _] (HX & Hy & Hw & Ho & H1 & H2 & Hl & Hu & Hs). unfold args_held.
  assert (K : forall l, held h l -> held h' l) by (unfold held; intros; lia).
  assert (K' : forall o, held_opt h o -> held_opt h' o) by (intros [l|]; simpl; auto).
  repeat split; auto.
  - destruct (g_P2 a); auto.
  - destruct (g_start a); auto.
Qed.

Lemma mem_prepare_spec a h q h' : mem_prepare a h = (q, h') -> args_held a h -> prep_ok a h q h'.
Proof.
  intros E HA. unfold mem_prepare in E.
  destruct (mem_data a h) as [[[[X y] w] off] h1] eqn:E1.
  destruct (mem_data_spec _ _ _ _ _ _ _ E1 HA) as (P01 & DX & Dy & Dw & Do).
  destruct (mem_p1 a h1) as [P1 h2] eqn:E2.
  pose proof (args_held_pres _ _ _ _ P01 HA) as HA1.
  destruct (mem_p1_spec _ _ _ _ E2) as (P12 & L1 & V1); [apply HA1|].
  pose proof (args_held_pres _ _ _ _ P12 HA1) as HA2.
  destruct (mem_p2 a h2) as [[P2 d] h3] eqn:E3.
  destruct (mem_p2_spec _ _ _ _ _ E3) as (P23 & L2 & V2); [apply HA2|].
  assert (P02 : pres nothing h h2) by (eapply pres_trans; eauto).
  assert (P03 : pres nothing h h3) by (eapply pres_trans; eauto).
  rewrite (values_pres _ _ _ P02 HA) in V2.
  pose proof (args_held_pres _ _ _ _ P03 HA) as HA3.
  destruct (mem_bounds (g_copies a AtLb) (g_lb a) h3) as [lb h4] eqn:E4.
  destruct (mem_bounds_spec _ _ _ _ _ E4) as (P34 & B4 & L4); [apply HA3|].
  assert (P04 : pres nothing h h4) by (eapply pres_trans; eauto).
  pose proof (args_held_pres _ _ _ _ P04 HA) as HA4.
  destruct (mem_bounds (g_copies a AtUb) (g_ub a) h4) as [ub h5] eqn:E5.
  destruct (mem_bounds_spec _ _ _ _ _ E5) as (P45 & B5 & L5); [apply HA4|].
  assert (P05 : pres nothing h h5) by (eapply pres_trans; eauto).
  assert (OB : forall o hh, pres nothing h hh -> held_opt h o -> obnd hh o = obnd h o).
  { intros [l|] hh Ph Hh; simpl; auto. apply (bnd_pres nothing); auto with mem. }
  assert (OB' : forall o hh hh', pres nothing hh hh' -> held_opt hh o -> obnd hh' o = obnd hh o).
  { intros [l|] hh hh2 Ph Hh; simpl; auto. apply (bnd_pres nothing); auto with mem. }
  assert (P15 : pres nothing h1 h5) by (ptr).
  assert (Q1 : (length h1 <= length h5)%nat) by apply P15.
  assert (Q0 : (length h <= length h1)%nat) by apply P01.
  assert (Q2 : (length h1 <= length h2 <= length h5)%nat) by (destruct P12, P23, P34, P45; lia).
  assert (Q3 : (length h2 <= length h3 <= length h5)%nat) by (destruct P12, P23, P34, P45; lia).
  unfold new in E. cbv beta iota zeta in E.
  set (h6 := h5 ++ [CVec (col_means (g_n a) (vec_at h5 w) (mat_at h5 X) (g_ic a))]) in *.
  set (h7 := h6 ++ [CVec (col_stds (g_n a) (vec_at h6 w) (mat_at h6 X))]) in *.
  assert (P56 : pres nothing h5 h6) by apply pres_new. assert (P67 : pres nothing h6 h7) by apply pres_new.
  assert (LE6 : length h6 = S (length h5)) by (unfold h6; rewrite app_length; simpl; lia).
  assert (LE7 : length h7 = S (length h6)) by (unfold h7; rewrite app_length; simpl; lia).
  assert (P17 : pres nothing h1 h7) by (ptr).
  assert (P16 : pres nothing h1 h6) by (ptr).
  assert (W5 : vec_at h5 w = u_w (values_of a h)) by (rewrite (vec_pres nothing h1) by (auto with mem; lia); apply Dw).
  assert (X5 : mat_at h5 X = u_X (values_of a h)) by (rewrite (mat_pres nothing h1) by (auto with mem; apply DX); apply DX).
  assert (W6 : vec_at h6 w = u_w (values_of a h)) by (rewrite (vec_pres nothing h1) by (auto with mem; lia); apply Dw).
  assert (X6 : mat_at h6 X = u_X (values_of a h)) by (rewrite (mat_pres nothing h1) by (auto with mem; apply DX); apply DX).
  assert (Vm6 : vec_at h6 (length h5) = u_means (values_of a h)) by (unfold h6; rewrite vec_new, W5, X5; reflexivity).
  assert (Vs7 : vec_at h7 (length h6) = u_stds (values_of a h)) by (unfold h7; rewrite vec_new, W6, X6; reflexivity).
  destruct (mem_std_bounds lb (length h6) h7) as [lb' h8] eqn:E8.
  destruct (mem_std_bounds_spec _ _ _ _ _ E8) as (P78 & B8 & L8 & N8).
  destruct (mem_std_bounds ub (length h6) h8) as [ub' h9] eqn:E9.
  destruct (mem_std_bounds_spec _ _ _ _ _ E9) as (P89 & B9 & L9 & N9).
  destruct (mem_std_penalties (g_scale a) P1 P2 (length h6) d h9) as [P2' hA] eqn:EA.
  inversion E; subst q h'; clear E.
  assert (Q79 : (length h7 <= length h8 <= length h9)%nat) by (destruct P78, P89; lia).
  destruct (mem_std_pen_spec _ _ _ _ _ _ _ _ EA) as (P9A & R2 & LA & VA1 & VA2); try lia.
  assert (P79 : pres nothing h7 h9) by (eapply pres_trans; eauto).
  assert (Vs9 : vec_at h9 (length h6) = u_stds (values_of a h)) by (rewrite (vec_pres nothing h7) by (auto with mem; lia); auto).
  assert (P29 : pres nothing h2 h9) by (ptr).
  assert (P39 : pres nothing h3 h9) by (ptr).
  assert (P09 : pres nothing h h9) by (ptr).
  assert (P19 : pres nothing h1 h9) by (ptr).
  assert (QA : (length h9 <= length hA)%nat) by apply P9A.
  (* arrays of before the penalties, other than P1 and P2 *)
  assert (VA : forall l, (l < length h9)%nat -> l <> P1 -> l <> P2 -> nth_error hA l = nth_error h9 l).
  { intros l Hl N1 N2. apply P9A; auto. intros [ ? | ? ]; auto. }
  assert (V' : forall l, (l < length h9)%nat -> l <> P1 -> l <> P2 -> vec_at hA l = vec_at h9 l) by (intros; unfold vec_at; rewrite VA; auto).
  assert (M' : forall l, (l < length h9)%nat -> l <> P1 -> l <> P2 -> mat_at hA l = mat_at h9 l) by (intros; unfold mat_at; rewrite VA; auto).
  assert (B' : forall l, (l < length h9)%nat -> l <> P1 -> l <> P2 -> bnd_at hA l = bnd_at h9 l) by (intros; unfold bnd_at; rewrite VA; auto).
  assert (P0A : pres nothing h hA).
  { split; [destruct P09; lia|]. intros l Hl _. rewrite VA by (destruct P09; lia). apply P09; auto with mem. }
  destruct DX as (DX1 & DX2 & DX3). destruct Dy as (Dy1 & Dy2 & Dy3). destruct Dw as (Dw1 & Dw2).
  assert (ND : forall l, (l < length h1)%nat -> l <> P1 /\ l <> P2 /\ (l < length h9)%nat) by (intros; lia).
  constructor; simpl.
  - exact P0A.
  - destruct (ND X DX2) as (a1 & a2 & a3). rewrite M' by auto. split; [|split; [lia|auto]].
    rewrite (mat_pres nothing h1) by auto with mem. auto.
  - destruct (ND y Dy2) as (a1 & a2 & a3). rewrite V' by auto. split; [|split; [lia|auto]].
    rewrite (vec_pres nothing h1) by auto with mem. auto.
  - destruct (ND w ltac:(lia)) as (a1 & a2 & a3). rewrite V' by auto. split; [|lia].
    rewrite (vec_pres nothing h1) by (auto with mem; lia). auto.
  - destruct off as [o|], (g_off a) as [l|]; auto. destruct Do as (A & B & C).
    destruct (ND o B) as (a1 & a2 & a3). rewrite V' by auto. split; [|split; [lia|auto]].
    rewrite (vec_pres nothing h1) by auto with mem. auto.
  - split; [|lia]. rewrite VA1, Vs9. f_equal. rewrite (vec_pres nothing h2) by (auto with mem; lia). rewrite V1.
    apply functional_extensionality; intros j. destruct HA as (_ & _ & _ & _ & H1 & _). destruct (g_P1 a) as [l|]; auto.
    rewrite (vec_pres nothing h) by auto with mem. auto.
  - split; [|destruct R2; lia]. rewrite VA2, Vs9. unfold std_problem_P2. simpl u_scale. f_equal. rewrite <- V2. unfold p2_at.
    destruct d; f_equal; [apply (vec_pres nothing)|apply (mat_pres nothing)]; auto with mem; lia.
  - split; [|split].
    + destruct lb' as [l|].
      * simpl in L8. unfold held in L8. simpl obnd. pose proof (N8 l eq_refl). rewrite B' by lia.
        rewrite (bnd_pres nothing h8) by (auto with mem; lia). simpl in B8. rewrite B8, Vs7. f_equal.
        rewrite (OB' lb h4 h7) by (auto; ptr).
        rewrite B4. apply OB; auto. apply HA.
      * destruct lb as [l|]; simpl in E8; [discriminate|]. simpl.
        assert (K : obnd h (g_lb a) = (fun _ => None)).
        { rewrite <- (OB (g_lb a) h3) by (auto; apply HA). simpl in B4. auto. }
        rewrite K. reflexivity.
    + destruct lb' as [l|]; simpl in *; auto. unfold held in *. lia.
    + intros l El. pose proof (N8 l El). lia.
  - split; [|split].
    + destruct ub' as [l|].
      * simpl in L9. unfold held in L9. simpl obnd. pose proof (N9 l eq_refl). rewrite B' by lia.
        simpl in B9. rewrite B9. rewrite (vec_pres nothing h7 h8) by (auto with mem; lia). rewrite Vs7. f_equal.
        rewrite (OB' ub h5 h8) by (auto; ptr).
        rewrite B5. apply OB; auto. apply HA.
      * destruct ub as [l|]; simpl in E9; [discriminate|]. simpl.
        assert (K : obnd h (g_ub a) = (fun _ => None)).
        { rewrite <- (OB (g_ub a) h4) by (auto; apply HA). simpl in B5. auto. }
        rewrite K. reflexivity.
    + destruct ub' as [l|]; simpl in *; auto. unfold held in *. lia.
    + intros l El. pose proof (N9 l El). lia.
  - split; [|lia]. rewrite V' by lia. rewrite (vec_pres nothing h6) by (first [lia | ptr | auto with mem]). auto.
  - split; [|lia]. rewrite V' by lia. auto.
Qed.

Lemma clip_lo_spec ic p lb l h : (l < length h)%nat -> (forall j, (p <= j)%nat -> obnd h lb j = None) ->
  pres (eq l) h (mem_clip_lo ic p lb l h) /\ length (mem_clip_lo ic p lb l h) = length h /\
  vec_at (mem_clip_lo ic p lb l h) l =
    (fun k => if Nat.ltb k (ioff ic) then vec_at h l k else clip_lo (obnd h lb (k - ioff ic)%nat) (vec_at h l k)).
Proof.
  intros Hl Hb. unfold mem_clip_lo. destruct lb as [b|]; simpl.
  - destruct (existsb _ _) eqn:E.
    + split; [apply pres_upd; auto|]. split; [apply upd_length|]. rewrite vec_upd by auto. reflexivity.
    + split; [apply pres_refl|]. split; [auto|]. apply functional_extensionality; intros k.
      destruct (Nat.ltb k (ioff ic)) eqn:K; auto. apply Nat.ltb_ge in K.
      destruct (Nat.lt_ge_cases (k - ioff ic) p) as [Lp|Lp].
      * assert (N : existsb (fun j => match bnd_at h b j with Some x => Rltb (vec_at h l (ioff ic + j)%nat) x | None => false end) (seq 0 p) <> true) by congruence.
        destruct (bnd_at h b (k - ioff ic)%nat) as [x|] eqn:Ex; simpl; auto. rewrite Rmax_left; auto.
        destruct (Rltb (vec_at h l k) x) eqn:Lt; [|apply Rltb_false in Lt; lra].
        exfalso; apply N. apply existsb_exists. exists (k - ioff ic)%nat. split; [apply in_seq; lia|]. rewrite Ex.
        replace (ioff ic + (k - ioff ic))%nat with k by lia. auto.
      * pose proof (Hb _ Lp) as Z. simpl in Z. rewrite Z. reflexivity.
  - split; [apply pres_refl|]. split; auto. apply functional_extensionality; intros k. destruct (Nat.ltb k (ioff ic)); auto.
Qed.
Lemma clip_hi_spec ic p lb l h : (l < length h)%nat -> (forall j, (p <= j)%nat -> obnd h lb j = None) ->
  pres (eq l) h (mem_clip_hi ic p lb l h) /\ length (mem_clip_hi ic p lb l h) = length h /\
  vec_at (mem_clip_hi ic p lb l h) l =
    (fun k => if Nat.ltb k (ioff ic) then vec_at h l k else clip_hi (obnd h lb (k - ioff ic)%nat) (vec_at h l k)).
Proof.
  intros Hl Hb. unfold mem_clip_hi. destruct lb as [b|]; simpl.
  - destruct (existsb _ _) eqn:E.
    + split; [apply pres_upd; auto|]. split; [apply upd_length|]. rewrite vec_upd by auto. reflexivity.
    + split; [apply pres_refl|]. split; [auto|]. apply functional_extensionality; intros k.
      destruct (Nat.ltb k (ioff ic)) eqn:K; auto. apply Nat.ltb_ge in K.
      destruct (Nat.lt_ge_cases (k - ioff ic) p) as [Lp|Lp].
      * assert (N : existsb (fun j => match bnd_at h b j with Some x => Rltb x (vec_at h l (ioff ic + j)%nat) | None => false end) (seq 0 p) <> true) by congruence.
        destruct (bnd_at h b (k - ioff ic)%nat) as [x|] eqn:Ex; simpl; auto. rewrite Rmin_left; auto.
        destruct (Rltb x (vec_at h l k)) eqn:Lt; [|apply Rltb_false in Lt; lra].
        exfalso; apply N. apply existsb_exists. exists (k - ioff ic)%nat. split; [apply in_seq; lia|]. rewrite Ex.
        replace (ioff ic + (k - ioff ic))%nat with k by lia. auto.
      * pose proof (Hb _ Lp) as Z. simpl in Z. rewrite Z. reflexivity.
  - split; [apply pres_refl|]. split; auto. apply functional_extensionality; intros k. destruct (Nat.ltb k (ioff ic)); auto.
Qed.
Lemma mem_warm_spec p m s l h : (l < length h)%nat -> l <> m -> l <> s ->
  pres (eq l) h (mem_warm p m s l h) /\ length (mem_warm p m s l h) = length h /\
  vec_at (mem_warm p m s l h) l =
    let '(c0, c) := unpack true (vec_at h l) in
    let '(c0', c') := standardize_warm_start p (vec_at h m) (Some (vec_at h s)) c0 c in pack true c0' c'.
Proof.
  intros Hl Nm Ns. unfold mem_warm.
  set (h1 := upd h l _). assert (L1 : length h1 = length h) by apply upd_length.
  assert (V1 : vec_at h1 l = (fun k => match k with O => vec_at h l O | S j => vec_at h l (S j) * vec_at h s j end)) by (apply vec_upd; auto).
  assert (Vm : vec_at h1 m = vec_at h m) by (apply vec_upd_o; auto).
  assert (Vs : vec_at h1 s = vec_at h s) by (apply vec_upd_o; auto).
  split; [eapply pres_trans; [apply pres_upd; reflexivity|apply pres_upd; reflexivity]|].
  split; [rewrite upd_length; auto|]. rewrite vec_upd by lia. rewrite V1, Vm, Vs. simpl.
  apply functional_extensionality; intros [|k]; reflexivity.
Qed.

(** after the preparation, nothing but the array c is written *)
Lemma mem_start_spec a h q h1 g c h2 : prep_ok a h q h1 -> args_held a h -> bounds_shaped a h -> reused_apart a ->
  mem_start a q g h1 = (c, h2) ->
  pres (eq c) h1 h2 /\ (c < length h2)%nat /\ ((length h1 <= c)%nat \/ reused a c) /\
  vec_at h2 c = path_start (values_of a h) g (start_of a h).
Proof.
  intros Hq HA HB HR E. unfold mem_start in E.
  set (lh := match g_start a with LWarm _ _ => _ | LNone => _ | LParams _ => _ end) in E.
  destruct lh as [l hs] eqn:El. subst lh.
  assert (Hm := po_m _ _ _ _ Hq). assert (Hs := po_s _ _ _ _ Hq). assert (P01 := po_pres _ _ _ _ Hq).
  (* before clipping *)
  assert (K : pres (eq l) h1 hs /\ (l < length hs)%nat /\ ((length h1 <= l)%nat \/ reused a l) /\
     vec_at hs l = match start_of a h with
           | StartWarm c0 coef => if g_ic a then let '(c0, c) := unpack true (pack (g_ic a) c0 coef) in
                          let '(c0', c') := standardize_warm_start (g_p a) (u_means (values_of a h)) (Some (u_stds (values_of a h))) c0 c in pack true c0' c' else pack (g_ic a) c0 coef
           | StartNone => pack (g_ic a) g (fun _ => 0)
           | StartParams v => if g_ic a then let '(c0, c) := unpack true v in
                          let '(c0', c') := standardize_warm_start (g_p a) (u_means (values_of a h)) (Some (u_stds (values_of a h))) c0 c in pack true c0' c' else v
           end).
  { unfold start_of. destruct HA as (_ & _ & _ & _ & _ & _ & _ & _ & HA). destruct (g_start a) as [c0 w| |w] eqn:Es.
    - destruct (g_ic a) eqn:Ei.
      + unfold new in El. set (h1' := h1 ++ _) in El. inversion El; subst l hs; clear El.
        assert (L' : length h1' = S (length h1)) by (unfold h1'; rewrite app_length; simpl; lia).
        destruct (mem_warm_spec (g_p a) (q_m q) (q_s q) (length h1) h1') as (A & B & C); try lia.
        split; [eapply pres_trans; [|exact A]; apply pres_new|]. split; [lia|]. split; [left; lia|]. rewrite C.
        rewrite (vec_pres nothing h1 h1' (q_m q)), (vec_pres nothing h1 h1' (q_s q)) by (first [lia | apply pres_new | auto with mem]).
        rewrite (proj1 Hm), (proj1 Hs). unfold h1'. rewrite vec_new. rewrite (vec_pres nothing h h1 w) by auto with mem. reflexivity.
      + inversion El; subst l hs. split; [apply pres_refl|]. assert (Hw : (w < length h1)%nat) by (unfold held in HA; destruct P01; lia).
        split; [auto|]. split; [right; split; auto; exists c0; auto|]. rewrite (vec_pres nothing h h1 w) by auto with mem. reflexivity.
    - unfold new in El. inversion El; subst l hs. rewrite app_length, vec_new; simpl. split; [apply pres_new|]. split; [lia|]. split; [left; lia|auto].
    - assert (Hw : (w < length h1)%nat) by (unfold held in HA; destruct P01; lia).
      destruct (maybe_copy true h1 w) as [r h1'] eqn:Ec. pose proof (copy_spec _ _ _ _ _ Ec Hw) as (A1 & A2 & _ & _ & [[_ A3]|[? _]]); [|discriminate].
      pose proof (pres_copy nothing true h1 w) as Q; rewrite Ec in Q; simpl in Q.
      assert (V : vec_at h1' r = vec_at h w) by (rewrite A2; apply (vec_pres nothing); auto with mem).
      assert (Q' : pres (eq r) h1 h1') by (eapply pres_weaken; [|exact Q]; intros ? ? []).
      destruct (g_ic a) eqn:Ei; inversion El; subst l hs; clear El.
      + destruct (mem_warm_spec (g_p a) (q_m q) (q_s q) r h1') as (A & B & C); try lia.
        split; [eapply pres_trans; [exact Q'|exact A]|]. split; [lia|]. split; [left; lia|]. rewrite C.
        rewrite (vec_pres nothing h1 h1' (q_m q)), (vec_pres nothing h1 h1' (q_s q)) by (first [lia | auto with mem]).
        rewrite (proj1 Hm), (proj1 Hs), V. reflexivity.
      + split; [exact Q'|]. split; [auto|]. split; [left; lia|auto]. }
  destruct K as (Ps & Ls & Ns & Vs). inversion E; subst l h2; clear E.
  (* the user's bounds are as before *)
  assert (OBg : forall o, held_opt h o -> o <> Some c \/ (length h <= c)%nat -> forall hh, pres (eq c) hs hh -> obnd hh o = obnd h o).
  { intros [b|] Ho Hn hh Ph; simpl; auto. simpl in Ho. unfold held in Ho.
    assert (Nb : c <> b) by (destruct Hn; [congruence|lia]).
    rewrite (bnd_pres (eq c) hs hh) by (auto; destruct P01, Ps; lia).
    rewrite (bnd_pres (eq c) h1 hs) by (auto; destruct P01; lia).
    apply (bnd_pres nothing); auto with mem. }
  assert (Hlb : g_lb a <> Some c \/ (length h <= c)%nat).
  { destruct Ns as [?|Rc]; [right; destruct P01; lia|left; apply (HR _ Rc)]. }
  assert (Hub : g_ub a <> Some c \/ (length h <= c)%nat).
  { destruct Ns as [?|Rc]; [right; destruct P01; lia|left; apply (HR _ Rc)]. }
  assert (HAl : held_opt h (g_lb a)) by apply HA. assert (HAu : held_opt h (g_ub a)) by apply HA.
  destruct (clip_lo_spec (g_ic a) (g_p a) (g_lb a) c hs Ls) as (C1 & C2 & C3).
  { intros j Hj. rewrite (OBg (g_lb a)) by (auto using pres_refl). apply HB; auto. }
  set (hl := mem_clip_lo _ _ _ _ _) in *.
  destruct (clip_hi_spec (g_ic a) (g_p a) (g_ub a) c hl) as (D1 & D2 & D3); [lia| |].
  { intros j Hj. rewrite (OBg (g_ub a)) by auto. apply HB; auto. }
  split; [eapply pres_trans; [exact Ps|eapply pres_trans; eauto]|]. split; [lia|].
  split; [auto|].
  rewrite D3. rewrite (OBg (g_ub a)) by auto. rewrite C3. rewrite (OBg (g_lb a)) by (auto using pres_refl). rewrite Vs.
  unfold path_start, get_start_coef, clip_start. apply functional_extensionality; intros k. simpl u_ic; simpl u_p; simpl u_lb; simpl u_ub.
  destruct (Nat.ltb k (ioff (g_ic a))); destruct (start_of a h); auto; destruct (g_ic a); auto.
Qed.

(** the arrays the solvers read *)
Definition is_data (q : prepared) (l : loc) : Prop :=
  l = q_X q \/ l = q_y q \/ l = q_w q \/ q_off q = Some l \/ l = q_P1 q \/ l = q_P2 q \/ q_lb q = Some l \/ q_ub q = Some l \/ l = q_m q \/ l = q_s q.
Lemma data_held a h q h1 l : prep_ok a h q h1 -> is_data q l -> (l < length h1)%nat.
Proof.
  intros Hq H. unfold is_data in H.
  destruct H as [->|[->|[->|[E|[->|[->|[E|[E|[->| ->]]]]]]]]].
  - apply (po_X _ _ _ _ Hq). - apply (po_y _ _ _ _ Hq). - apply (po_w _ _ _ _ Hq).
  - pose proof (po_off _ _ _ _ Hq) as Z. rewrite E in Z. destruct (g_off a); [|easy]. apply Z.
  - apply (po_P1 _ _ _ _ Hq). - apply (po_P2 _ _ _ _ Hq).
  - pose proof (po_lb _ _ _ _ Hq) as Z. rewrite E in Z. apply Z.
  - pose proof (po_ub _ _ _ _ Hq) as Z. rewrite E in Z. apply Z.
  - apply (po_m _ _ _ _ Hq). - apply (po_s _ _ _ _ Hq).
Qed.
Lemma data_where a h q h1 l : prep_ok a h q h1 -> is_data q l -> (length h <= l)%nat \/ l = g_X a \/ l = g_y a \/ g_off a = Some l.
Proof.
  intros Hq H. unfold is_data in H.
  destruct H as [->|[->|[->|[E|[->|[->|[E|[E|[->| ->]]]]]]]]].
  - destruct (po_X _ _ _ _ Hq) as (_ & _ & [->|?]); auto. - destruct (po_y _ _ _ _ Hq) as (_ & _ & [->|?]); auto.
  - left; apply (po_w _ _ _ _ Hq).
  - pose proof (po_off _ _ _ _ Hq) as Z. rewrite E in Z. destruct (g_off a); [|easy]. destruct Z as (_ & _ & [->|?]); auto.
  - left; apply (po_P1 _ _ _ _ Hq). - left; apply (po_P2 _ _ _ _ Hq).
  - left; apply (po_lb _ _ _ _ Hq); auto. - left; apply (po_ub _ _ _ _ Hq); auto.
  - left; apply (po_m _ _ _ _ Hq). - left; apply (po_s _ _ _ _ Hq).
Qed.
(** the standardized problem can be read back from [hh] *)
Definition data_in (a : margs) (h : heap) (q : prepared) (hh : heap) : Prop :=
  (forall se, problem_at a se q hh = std_problem (values_of a h) se) /\
  p2_at hh (q_P2 q) (q_P2d q) = std_problem_P2 (values_of a h) /\
  vec_at hh (q_m q) = u_means (values_of a h) /\ vec_at hh (q_s q) = u_stds (values_of a h) /\
  (forall l, is_data q l -> (l < length hh)%nat).
Lemma data_in_prep a h q h1 : prep_ok a h q h1 -> data_in a h q h1.
Proof.
  intros Hq. split; [|split; [apply (po_P2 _ _ _ _ Hq)|split; [apply (po_m _ _ _ _ Hq)|split; [apply (po_s _ _ _ _ Hq)|intros; eapply data_held; eauto]]]].
  intros se. unfold problem_at, std_problem.
  rewrite (proj1 (po_X _ _ _ _ Hq)), (proj1 (po_y _ _ _ _ Hq)), (proj1 (po_w _ _ _ _ Hq)), (proj1 (po_P1 _ _ _ _ Hq)),
    (proj1 (po_lb _ _ _ _ Hq)), (proj1 (po_ub _ _ _ _ Hq)), (proj1 (po_m _ _ _ _ Hq)), (proj1 (po_s _ _ _ _ Hq)).
  assert (K : match q_off q with Some l => vec_at h1 l | None => fun _ => 0 end = u_off (values_of a h)).
  { pose proof (po_off _ _ _ _ Hq) as Z. unfold values_of; simpl. destruct (q_off q), (g_off a); try easy; apply Z. }
  rewrite K. reflexivity.
Qed.
Lemma data_in_pres a h q hh hh' P : data_in a h q hh -> pres P hh hh' -> (forall l, is_data q l -> ~ P l) -> data_in a h q hh'.
Proof.
  intros (A & B & C & D & H) Q N.
  assert (V : forall l, is_data q l -> vec_at hh' l = vec_at hh l) by (intros; apply (vec_pres P); auto).
  assert (M : forall l, is_data q l -> mat_at hh' l = mat_at hh l) by (intros; apply (mat_pres P); auto).
  assert (B' : forall o, (forall l, o = Some l -> is_data q l) -> obnd hh' o = obnd hh o).
  { intros [l|] Hl; simpl; auto. apply (bnd_pres P); auto. }
  assert (DX : is_data q (q_X q)) by (unfold is_data; auto 20). assert (Dy : is_data q (q_y q)) by (unfold is_data; auto 20).
  assert (Dw : is_data q (q_w q)) by (unfold is_data; auto 20). assert (D1 : is_data q (q_P1 q)) by (unfold is_data; auto 20).
  assert (D2 : is_data q (q_P2 q)) by (unfold is_data; auto 20). assert (Dm : is_data q (q_m q)) by (unfold is_data; auto 20).
  assert (Ds : is_data q (q_s q)) by (unfold is_data; auto 20).
  assert (Dl : forall l, q_lb q = Some l -> is_data q l) by (unfold is_data; auto 20).
  assert (Du : forall l, q_ub q = Some l -> is_data q l) by (unfold is_data; auto 20).
  assert (Do : forall l, q_off q = Some l -> is_data q l) by (unfold is_data; auto 20).
  split; [|split; [|split; [|split]]].
  - intros se. rewrite <- A. unfold problem_at.
    rewrite (M (q_X q)), (V (q_m q)), (V (q_s q)), (V (q_y q)), (V (q_w q)), (V (q_P1 q)), (B' (q_lb q)), (B' (q_ub q)) by auto.
    assert (K : match q_off q with Some l => vec_at hh' l | None => fun _ => 0 end = match q_off q with Some l => vec_at hh l | None => fun _ => 0 end).
    { destruct (q_off q) as [o|]; auto. }
    rewrite K. reflexivity.
  - rewrite <- B. unfold p2_at. rewrite (V (q_P2 q)), (M (q_P2 q)) by auto. auto.
  - rewrite V; auto.
  - rewrite V; auto.
  - intros l Hl. specialize (H l Hl). destruct Q; lia.
Qed.

Lemma mem_solve_spec solve share a h q se al c hh : data_in a h q hh -> (c < length hh)%nat ->
  match solve_alpha solve (std_problem (values_of a h) se) (std_problem_P2 (values_of a h)) al (vec_at hh c) with
  | None => mem_solve solve share a se q al c hh = None
  | Some s => exists c' h', mem_solve solve share a se q al c hh = Some (c', s, h') /\ pres nothing hh h' /\
      (c' < length h')%nat /\ (c' = c \/ (length hh < c')%nat) /\
      ((share s = true -> so_coef s = vec_at hh c) -> vec_at h' c' = so_coef s)
  end.
Proof.
  intros HD Hc. unfold mem_solve, new.
  set (h1 := hh ++ [_]). set (h2 := h1 ++ [_]).
  assert (P1 : pres nothing hh h1) by apply pres_new. assert (P2 : pres nothing h1 h2) by apply pres_new.
  assert (P02 : pres nothing hh h2) by ptr.
  assert (L1 : length h1 = S (length hh)) by (unfold h1; rewrite app_length; simpl; lia).
  assert (L2 : length h2 = S (length h1)) by (unfold h2; rewrite app_length; simpl; lia).
  pose proof (data_in_pres _ _ _ _ _ nothing HD P02 (fun l _ => nothing_not l)) as HD2.
  pose proof (data_in_pres _ _ _ _ _ nothing HD P1 (fun l _ => nothing_not l)) as HD1.
  assert (V1 : vec_at h2 (length hh) = p1_scale al (vec_at hh (q_P1 q))).
  { rewrite (vec_pres nothing h1) by (first [lia|auto with mem]). unfold h1. apply vec_new. }
  assert (V2 : p2_at h2 (length h1) (q_P2d q) = p2_scale al (std_problem_P2 (values_of a h))).
  { rewrite <- (proj1 (proj2 HD1)). unfold p2_at, h2. destruct (q_P2d q); [rewrite vec_new|rewrite mat_new]; reflexivity. }
  rewrite V1, V2, (proj1 HD2 se).
  rewrite (vec_pres nothing hh h2 c) by auto with mem.
  unfold solve_alpha.
  assert (EP : vec_at hh (q_P1 q) = pb_P1 (std_problem (values_of a h) se)) by (rewrite <- (proj1 HD se); reflexivity).
  rewrite EP.
  destruct (solve _ _ _) as [s|]; [|reflexivity].
  destruct (share s) eqn:Es.
  - exists c, h2. split; [reflexivity|]. split; [auto|]. split; [lia|]. split; [left; auto|].
    intros K. rewrite K by auto. apply (vec_pres nothing); auto with mem.
  - exists (length h2), (h2 ++ [CVec (so_coef s)]). split; [reflexivity|]. split; [eapply pres_trans; [exact P02|apply pres_new]|].
    rewrite app_length; simpl. split; [lia|]. split; [right; lia|]. intros _. apply vec_new.
Qed.

Lemma mem_loop_spec solve share a h q se path :
  (forall pb P2 c s, solve pb P2 c = Some s -> share s = true -> so_coef s = c) -> ~ is_data q path ->
  forall alphas k c hh, data_in a h q hh -> (c < length hh)%nat -> (path < length hh)%nat -> c <> path ->
  match solve_path solve (std_problem (values_of a h) se) (std_problem_P2 (values_of a h)) alphas (vec_at hh c) with
  | None => mem_loop solve share a se q alphas k path c hh = None
  | Some sols => exists h', mem_loop solve share a se q alphas k path c hh = Some (sols, h') /\ pres (eq path) hh h' /\
      mat_at h' path = (fun i j => if (Nat.leb k i && Nat.ltb i (k + length alphas))%bool
                                   then so_coef (nth (i - k) sols (mkSol (fun _ => 0) 0 false)) j else mat_at hh path i j)
  end.
Proof.
  intros Hsh Np alphas; induction alphas as [|al r IH]; intros k c hh HD Hc Hp Ncp; simpl.
  - exists hh. split; [auto|]. split; [apply pres_refl|]. apply functional_extensionality; intros i. apply functional_extensionality; intros j.
    destruct (Nat.leb k i) eqn:A; simpl; auto. apply Nat.leb_le in A. rewrite Nat.add_0_r.
    destruct (Nat.ltb i k) eqn:B; auto. apply Nat.ltb_lt in B; lia.
  - pose proof (mem_solve_spec solve share a h q se al c hh HD Hc) as HS.
    destruct (solve_alpha _ _ _ al (vec_at hh c)) as [s|] eqn:Es; [|rewrite HS; auto].
    destruct HS as (c' & h1 & E1 & P1 & L1 & N1 & V1). rewrite E1.
    assert (Vc : vec_at h1 c' = so_coef s) by (apply V1; intros; eapply Hsh; [exact Es|auto]).
    set (h2 := upd h1 path _).
    assert (P12 : pres (eq path) h1 h2) by (apply pres_upd; auto).
    assert (P02 : pres (eq path) hh h2) by (eapply pres_trans; [eapply pres_weaken; [|exact P1]; intros ? ? []|exact P12]).
    assert (Lh : (length hh <= length h1)%nat) by apply P1.
    assert (L2 : length h2 = length h1) by apply upd_length.
    assert (N2 : c' <> path) by (destruct N1; [congruence|lia]).
    assert (HD2 : data_in a h q h2).
    { eapply data_in_pres; [exact HD|exact P02|]. intros l Hl <-; auto. }
    specialize (IH (S k) c' h2 HD2 ltac:(lia) ltac:(lia) N2).
    assert (V2 : vec_at h2 c' = so_coef s) by (unfold h2; rewrite vec_upd_o by auto; auto). rewrite V2 in IH.
    destruct (solve_path _ _ _ r (so_coef s)) as [l|]; [|rewrite IH; auto].
    destruct IH as (h' & E2 & P2 & M2). rewrite E2. exists h'. split; [auto|]. split; [eapply pres_trans; eauto|].
    rewrite M2. unfold h2 at 1. rewrite mat_upd by lia. rewrite Vc. rewrite (mat_pres nothing hh h1) by auto with mem.
    apply functional_extensionality; intros i. apply functional_extensionality; intros j.
    destruct (Nat.eqb i k) eqn:Ek.
    + apply Nat.eqb_eq in Ek; subst i. rewrite Nat.leb_refl. replace (Nat.leb (S k) k) with false by (symmetry; apply Nat.leb_gt; lia). simpl.
      replace (Nat.ltb k (k + S (length r))) with true by (symmetry; apply Nat.ltb_lt; lia). rewrite Nat.sub_diag. reflexivity.
    + apply Nat.eqb_neq in Ek. destruct (Nat.leb k i) eqn:A.
      * apply Nat.leb_le in A. replace (Nat.leb (S k) i) with true by (symmetry; apply Nat.leb_le; lia).
        replace (k + S (length r))%nat with (S k + length r)%nat by lia.
        destruct (Nat.ltb i (S k + length r)) eqn:B; cbn [andb]; auto. replace (i - k)%nat with (S (i - S k)) by lia. reflexivity.
      * apply Nat.leb_gt in A. replace (Nat.leb (S k) i) with false by (symmetry; apply Nat.leb_gt; lia). reflexivity.
Qed.

Lemma unstd_path_spec p m s path h : (path < length h)%nat -> path <> m -> path <> s ->
  pres (eq path) h (mem_unstd_path p m s path h) /\
  forall i, read_entry true (mem_unstd_path p m s path h) path None i =
    (mat_at h path i O - rsum p (fun j => vec_at h m j * one_over (vec_at h s j) * mat_at h path i (S j)),
     fun j => mat_at h path i (S j) * one_over (vec_at h s j)).
Proof.
  intros Hp Nm Ns. unfold mem_unstd_path. set (h1 := upd h path _).
  assert (L1 : length h1 = length h) by apply upd_length.
  assert (Vs : vec_at h1 s = vec_at h s) by (apply vec_upd_o; auto).
  split; [eapply pres_trans; [apply pres_upd; reflexivity|apply pres_upd; reflexivity]|]. intros i. unfold read_entry.
  rewrite mat_upd by lia. simpl. rewrite Vs. unfold h1. rewrite mat_upd by auto. reflexivity.
Qed.
Lemma unstd_path0_spec p m s path h i0 h' : mem_unstd_path0 p m s path h = (i0, h') -> (path < length h)%nat ->
  (m < length h)%nat -> (s < length h)%nat -> path <> m -> path <> s ->
  pres (eq path) h h' /\ i0 = length h /\
  forall i, read_entry false h' path (Some i0) i =
    (0 - rsum p (fun j => vec_at h m j * one_over (vec_at h s j) * mat_at h path i j),
     fun j => mat_at h path i j * one_over (vec_at h s j)).
Proof.
  intros E Hp Hm Hs Nm Ns. unfold mem_unstd_path0, new in E. set (h1 := h ++ _) in E.
  set (h2 := upd h1 (length h) _) in E. inversion E; subst i0 h'; clear E.
  assert (L1 : length h1 = S (length h)) by (unfold h1; rewrite app_length; simpl; lia).
  assert (L2 : length h2 = length h1) by apply upd_length.
  assert (P1 : pres nothing h h1) by apply pres_new.
  assert (P2 : pres (eq path) h h2).
  { split; [lia|]. intros l Hl Nl. unfold h2. rewrite upd_other by lia. apply P1; auto with mem. }
  split; [eapply pres_trans; [exact P2|apply pres_upd; reflexivity]|]. split; [auto|]. intros i. unfold read_entry.
  rewrite mat_upd by lia. rewrite vec_upd_o by lia. unfold h2.
  rewrite vec_upd by lia. rewrite mat_upd_o, (vec_upd_o _ _ _ s) by lia.
  unfold h1 at 1. rewrite vec_new.
  rewrite (mat_pres nothing h h1), (vec_pres nothing h h1 m), (vec_pres nothing h h1 s) by auto with mem. reflexivity.
Qed.
Lemma unstd_spec ic p m s c h i h' : mem_unstd ic p m s c h = (i, h') -> (c < length h)%nat ->
  pres (eq c) h h' /\
  read_one ic h' c i = ((if ic then vec_at h c O else 0) - rsum p (fun j => vec_at h m j * one_over (vec_at h s j) * vec_at h c (ioff ic + j)%nat),
     fun j => vec_at h c (ioff ic + j)%nat * one_over (vec_at h s j)).
Proof.
  intros E Hc. unfold mem_unstd in E. inversion E; subst; clear E. split; [apply pres_upd; reflexivity|].
  unfold read_one. f_equal. apply functional_extensionality; intros j. rewrite vec_upd by auto.
  replace (Nat.ltb (ioff ic + j) (ioff ic)) with false by (symmetry; apply Nat.ltb_ge; lia).
  replace (ioff ic + j - ioff ic)%nat with j by lia. reflexivity.
Qed.

(** frames *)
Lemma mem_start_frame a h q h1 g c h2 : prep_ok a h q h1 -> args_held a h -> mem_start a q g h1 = (c, h2) ->
  pres (eq c) h1 h2 /\ (c < length h2)%nat /\ ((length h1 <= c)%nat \/ reused a c).
Proof.
  intros Hq HA E. unfold mem_start in E.
  set (lh := match g_start a with LWarm _ _ => _ | LNone => _ | LParams _ => _ end) in E.
  destruct lh as [l hs] eqn:El. subst lh.
  assert (P01 := po_pres _ _ _ _ Hq).
  assert (WF : forall p m s r hh, pres (eq r) hh (mem_warm p m s r hh) /\ length (mem_warm p m s r hh) = length hh).
  { intros. unfold mem_warm. split; [|rewrite !upd_length; auto]. eapply pres_trans; apply pres_upd; reflexivity. }
  assert (K : pres (eq l) h1 hs /\ (l < length hs)%nat /\ ((length h1 <= l)%nat \/ reused a l)).
  { destruct HA as (_ & _ & _ & _ & _ & _ & _ & _ & HA). destruct (g_start a) as [c0 w| |w] eqn:Es.
    - destruct (g_ic a) eqn:Ei.
      + unfold new in El. set (h1' := h1 ++ _) in El. inversion El; subst l hs; clear El.
        assert (L' : length h1' = S (length h1)) by (unfold h1'; rewrite app_length; simpl; lia).
        destruct (WF (g_p a) (q_m q) (q_s q) (length h1) h1') as (A & B).
        split; [eapply pres_trans; [|exact A]; apply pres_new|]. split; [lia|left; lia].
      + inversion El; subst l hs. split; [apply pres_refl|]. split; [unfold held in HA; destruct P01; lia|]. right; split; auto; exists c0; auto.
    - unfold new in El. inversion El; subst l hs. rewrite app_length; simpl. split; [apply pres_new|]. split; [lia|left; lia].
    - assert (Hw : (w < length h1)%nat) by (unfold held in HA; destruct P01; lia).
      destruct (maybe_copy true h1 w) as [r h1'] eqn:Ec. pose proof (copy_spec _ _ _ _ _ Ec Hw) as (A1 & A2 & _ & _ & [[_ A3]|[? _]]); [|discriminate].
      pose proof (pres_copy (eq r) true h1 w) as Q; rewrite Ec in Q; simpl in Q.
      destruct (g_ic a) eqn:Ei; inversion El; subst l hs; clear El.
      + destruct (WF (g_p a) (q_m q) (q_s q) r h1') as (A & B).
        split; [eapply pres_trans; [exact Q|exact A]|]. split; [lia|left; lia].
      + split; [exact Q|]. split; [auto|left; lia]. }
  destruct K as (Ps & Ls & Ns). inversion E; subst l h2; clear E.
  assert (C1 : pres (eq c) hs (mem_clip_lo (g_ic a) (g_p a) (g_lb a) c hs)).
  { unfold mem_clip_lo. destruct (g_lb a); [destruct (existsb _ _)|]; try apply pres_refl. apply pres_upd; auto. }
  set (hl := mem_clip_lo _ _ _ _ _) in *.
  assert (C2 : pres (eq c) hl (mem_clip_hi (g_ic a) (g_p a) (g_ub a) c hl)).
  { unfold mem_clip_hi. destruct (g_ub a); [destruct (existsb _ _)|]; try apply pres_refl. apply pres_upd; auto. }
  split; [eapply pres_trans; [exact Ps|eapply pres_trans; eauto]|]. split; [destruct C1, C2; lia|auto].
Qed.
Lemma mem_solve_frame solve share a q se al c hh c' s h' : mem_solve solve share a se q al c hh = Some (c', s, h') -> (c < length hh)%nat ->
  pres nothing hh h' /\ (c' < length h')%nat /\ (c' = c \/ (length hh < c')%nat).
Proof.
  intros E Hc. unfold mem_solve, new in E. cbv zeta beta iota in E.
  match type of E with (match ?S with _ => _ end) = _ => destruct S as [s0|]; [|discriminate] end.
  assert (Q : forall x y, pres nothing hh ((hh ++ [x]) ++ [y])) by (intros; eapply pres_trans; apply pres_new).
  destruct (share s0); inversion E; subst; clear E.
  - split; [apply Q|]. rewrite !app_length; simpl. split; [lia|auto].
  - split; [eapply pres_trans; [apply Q|apply pres_new]|]. rewrite !app_length; simpl. split; [lia|right; lia].
Qed.
Lemma mem_loop_frame solve share a q se path : forall alphas k c hh l h',
  mem_loop solve share a se q alphas k path c hh = Some (l, h') -> (c < length hh)%nat -> pres (eq path) hh h'.
Proof.
  induction alphas as [|al r IH]; intros k c hh l h' E Hc; simpl in E.
  - inversion E; subst. apply pres_refl.
  - destruct (mem_solve solve share a se q al c hh) as [[[c' s] h1]|] eqn:E1; [|discriminate].
    destruct (mem_solve_frame _ _ _ _ _ _ _ _ _ _ _ E1 Hc) as (P1 & L1 & _).
    set (h2 := upd h1 path _) in E.
    destruct (mem_loop _ _ _ _ _ r (S k) path c' h2) as [[l' h3]|] eqn:E2; [|discriminate]. inversion E; subst l h'; clear E.
    eapply pres_trans; [eapply pres_weaken; [|exact P1]; intros ? ? []|].
    eapply pres_trans; [apply (pres_upd _ h1 path); reflexivity|]. eapply IH; [exact E2|]. unfold h2; rewrite upd_length; auto.
Qed.
Lemma mem_fit_frame solve share a se alphas h out h' : args_held a h -> mem_fit solve share a se alphas h = Some (out, h') ->
  pres (reused a) h h' /\ (forall l, returned out l -> (l < length h')%nat /\ ((l < length h)%nat -> reused a l)).
Proof.
  intros HA E. unfold mem_fit in E.
  destruct (mem_prepare a h) as [q h1] eqn:E1. pose proof (mem_prepare_spec _ _ _ _ E1 HA) as Hq.
  assert (P01 := po_pres _ _ _ _ Hq).
  destruct (mem_guess a q h1) as [g|]; [|discriminate].
  destruct (mem_start a q g h1) as [c h2] eqn:E2.
  destruct (mem_start_frame _ _ _ _ _ _ _ Hq HA E2) as (P12 & Lc & Nc).
  assert (P02 : pres (reused a) h h2).
  { eapply pres_trans; [eapply pres_weaken; [|exact P01]; intros ? ? []|]. 
    split; [apply P12|]. intros l Hl Nl. apply P12; auto. intros <-. destruct Nc; [lia|auto]. }
  assert (Lh : (length h <= length h1 <= length h2)%nat) by (destruct P01, P12; lia).
  destruct alphas as [al|als].
  - destruct (mem_solve solve share a se q al c h2) as [[[c' s] h3]|] eqn:E3; [|discriminate].
    destruct (mem_solve_frame _ _ _ _ _ _ _ _ _ _ _ E3 Lc) as (P23 & L3 & N3).
    destruct (mem_unstd _ _ _ _ c' h3) as [i h4] eqn:E4. inversion E; subst out h'; clear E.
    destruct (unstd_spec _ _ _ _ _ _ _ _ E4 L3) as (P34 & _).
    assert (K : (c' < length h)%nat -> reused a c').
    { intros Hl. destruct N3 as [->|?]; [|lia]. destruct Nc as [?|?]; [lia|auto]. }
    split.
    + assert (P03 : pres (reused a) h h3) by (eapply pres_trans; [exact P02|eapply pres_weaken; [|exact P23]; intros ? ? []]).
      split; [destruct P03, P34; lia|]. intros l Hl Nl. destruct P34 as [A4 B4]. rewrite B4; [apply P03; auto|destruct P03; lia|].
      intros <-; auto.
    + intros l Hl; simpl in Hl; subst l. split; [destruct P34; lia|auto].
  - unfold new in E. set (h3 := h2 ++ [_]) in E.
    assert (L3 : length h3 = S (length h2)) by (unfold h3; rewrite app_length; simpl; lia).
    assert (P03 : pres (reused a) h h3) by (eapply pres_trans; [exact P02|apply pres_new]).
    destruct (mem_loop solve share a se q als 0 (length h2) c h3) as [[sols h4]|] eqn:E4; [|discriminate].
    pose proof (mem_loop_frame _ _ _ _ _ _ _ _ _ _ _ _ E4 ltac:(lia)) as P34.
    assert (K : forall hh, pres (eq (length h2)) h4 hh -> pres (reused a) h hh).
    { intros hh Ph. split; [destruct P03, P34, Ph; lia|]. intros l Hl Nl. destruct Ph as [A B]. rewrite B by (destruct P34; lia).
      destruct P34 as [C D]. rewrite D by lia. apply P03; auto. }
    destruct (g_ic a).
    + inversion E; subst out h'; clear E.
      assert (Q : pres (eq (length h2)) h4 (mem_unstd_path (g_p a) (q_m q) (q_s q) (length h2) h4)).
      { unfold mem_unstd_path. eapply pres_trans; apply pres_upd; reflexivity. }
      split; [apply K; exact Q|]. intros l [->|?]; [|discriminate]. split; [destruct Q, P34; lia|intros; lia].
    + destruct (mem_unstd_path0 _ _ _ _ h4) as [i0 h5] eqn:E5. inversion E; subst out h'; clear E.
      unfold mem_unstd_path0, new in E5. set (h4' := h4 ++ _) in E5. set (h4'' := upd h4' _ _) in E5.
      assert (Lp : length h4' = S (length h4)) by (unfold h4'; rewrite app_length; simpl; lia).
      inversion E5; subst i0 h5; clear E5.
      assert (Q : pres (eq (length h2)) h4 (upd h4'' (length h2) (CMat (fun i j => mat_at h4'' (length h2) i j * one_over (vec_at h4'' (q_s q) j))))).
      { eapply pres_trans; [|apply pres_upd; reflexivity]. split; [unfold h4''; rewrite upd_length; lia|].
        intros l Hl Nl. unfold h4''. rewrite upd_other by lia. unfold h4'. apply at_app_l; auto. }
      split; [apply K; exact Q|]. 
      intros l [->|El]; [split; [destruct Q, P34; lia|intros; lia]|].
      injection El as <-. rewrite upd_length. unfold h4''. rewrite upd_length. split; [lia|]. intros; destruct P34; lia.
Qed.

(** values *)
Lemma mem_guess_spec a h q hh : prep_ok a h q hh -> mem_guess a q hh = start_guess (values_of a h) (has_offset a) (start_of a h).
Proof.
  intros Hq. unfold mem_guess, start_guess, start_of, has_offset. simpl u_ic; simpl u_fam; simpl u_link; simpl u_n.
  destruct (g_start a); auto. destruct (g_ic a); auto.
  rewrite (proj1 (po_y _ _ _ _ Hq)), (proj1 (po_w _ _ _ _ Hq)). pose proof (po_off _ _ _ _ Hq) as Z.
  unfold u_off, values_of. destruct (q_off q) as [o|], (g_off a) as [l|]; try easy. rewrite (proj1 Z). reflexivity.
Qed.
Lemma not_data a h q h1 l : prep_ok a h q h1 -> reused_apart a -> (length h1 <= l)%nat \/ reused a l -> (l < length h)%nat \/ (length h1 <= l)%nat -> ~ is_data q l.
Proof.
  intros Hq HR [Hl|Hl] W D.
  - pose proof (data_held _ _ _ _ _ Hq D). lia.
  - destruct (data_where _ _ _ _ _ Hq D) as [?|[ ->|[ ->|Eo]]].
    + pose proof (data_held _ _ _ _ _ Hq D). lia.
    + apply (proj1 (HR _ Hl)); auto.
    + apply (proj1 (proj2 (HR _ Hl))); auto.
    + apply (proj1 (proj2 (proj2 (HR _ Hl)))); auto.
Qed.
