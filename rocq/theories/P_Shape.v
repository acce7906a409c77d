(** C98: shapes of the arguments of deviance and dispersion. *)
From Coq Require Import List Lia Lra Arith. Import ListNotations.
From Verif Require Import Base M_Dist M_Shape S_Shape L_Rows.
Local Open Scope R_scope.

Lemma indices_1 n : indices (n :: nil) = map (fun k => k :: nil) (seq 0 n).
Proof. cbn. apply app_nil_r. Qed.
Lemma bs_same a : bshape (a :: nil) (a :: nil) = Some (a :: nil).
Proof. cbn. rewrite Nat.eqb_refl. reflexivity. Qed.
Lemma bs_one_l a : bshape (1%nat :: nil) (a :: nil) = Some (a :: nil).
Proof. cbn [bshape]. destruct (Nat.eqb_spec 1 a) as [<-|N]; reflexivity. Qed.
Lemma bs_one_r a : bshape (a :: nil) (1%nat :: nil) = Some (a :: nil).
Proof. cbn [bshape]. destruct (Nat.eqb_spec a 1) as [->|N]; reflexivity. Qed.
Definition rdim (a : row_arg) : nat := match a with Same _ => 1 | PerRow l => length l end.
Lemma passed_shape a : a_shape (to_arr (passed a)) = (rdim a :: nil).
Proof. destruct a; reflexivity. Qed.
Lemma fits_dim n a : fits n a -> rdim a = n \/ rdim a = 1%nat.
Proof. destruct a; cbn; auto. Qed.
Lemma full_dim n a : full n a -> rdim a = n.
Proof. destruct a; cbn; [contradiction|auto]. Qed.
Lemma passed_at n a k : a_at (bcast (n :: nil) (to_arr (passed a))) (k :: nil) = row_val a k.
Proof. destruct a as [x|l]; cbn; [reflexivity|]. destruct (Nat.eqb (length l) 1); reflexivity. Qed.
Lemma np_at n a k : a_at (bcast (n :: nil) (np_arr (passed a))) (k :: nil) = row_val a k.
Proof. destruct a as [x|l]; cbn; [reflexivity|]. destruct (Nat.eqb (length l) 1); reflexivity. Qed.

Lemma bs_step n a t : rdim a = n \/ rdim a = 1%nat -> t = (n :: nil) \/ t = (1%nat :: nil) \/ t = nil ->
  exists s, bshape (rdim a :: nil) t = Some s /\ (s = (n :: nil) \/ s = (1%nat :: nil)) /\ (rdim a = n \/ t = (n :: nil) -> s = (n :: nil)).
Proof.
  intros [E|E] [-> |[-> | ->]]; rewrite E.
  - rewrite bs_same. eauto.
  - rewrite bs_one_r. eauto.
  - cbn. eauto.
  - rewrite bs_one_l. eauto.
  - rewrite bs_same. exists (1%nat :: nil). split; [reflexivity|]. split; [auto|]. intros [Z|Z]; [rewrite Z; reflexivity|exact Z].
  - cbn. exists (1%nat :: nil). split; [reflexivity|]. split; [auto|]. intros [<-|H]; [reflexivity|discriminate].
Qed.
Lemma bs_all n l : all_fit n l -> exists s, bshapes (shapes_of (map (option_map passed) l)) = Some s /\
  (s = (n :: nil) \/ s = (1%nat :: nil) \/ s = nil) /\ (some_full n l -> s = (n :: nil)).
Proof.
  induction l as [|[a|] l IH]; intros HF.
  - exists nil. split; [reflexivity|]. split; [auto|]. intros [a [[] _]].
  - destruct IH as (t & E & C & K); [intros x Hx; apply HF; right; exact Hx|].
    destruct (bs_step n a t (fits_dim n a (HF a (or_introl eq_refl))) C) as (s & Es & Cs & Ks).
    exists s. cbn [map option_map shapes_of flat_map app]. cbn [bshapes]. unfold shapes_of in E. rewrite E, passed_shape. split; [exact Es|].
    split; [tauto|]. intros [x [[Hx|Hx] Fx]].
    + injection Hx as ->. apply Ks. left. apply full_dim, Fx.
    + apply Ks. right. apply K. exists x. auto.
  - destruct IH as (t & E & C & K); [intros x Hx; apply HF; right; exact Hx|].
    exists t. cbn [map option_map shapes_of flat_map app]. unfold shapes_of in E. split; [exact E|]. split; [exact C|].
    intros [x [[Hx|Hx] Fx]]; [discriminate|]. apply K. exists x. auto.
Qed.
Lemma as_float_rows n l : all_fit n l -> some_full n l ->
  as_float_arrays (map (option_map passed) l) = Some (map (option_map (fun a => bcast (n :: nil) (to_arr (passed a)))) l).
Proof.
  intros HF HS. unfold as_float_arrays.
  assert (E : existsb is_arr (map (option_map passed) l) = true).
  { destruct HS as [a [Hin Fa]]. apply existsb_exists. exists (Some (passed a)). split; [apply (in_map (option_map passed)) in Hin; exact Hin|].
    destruct a; [contradiction|reflexivity]. }
  rewrite E. destruct (bs_all n l HF) as (s & -> & _ & K). rewrite (K HS). f_equal. rewrite map_map. apply map_ext.
  intros [a|]; reflexivity.
Qed.
Lemma zip_rows n (y w mu : arr) : a_shape y = (n :: nil) ->
  zip_obs y w mu = map (fun k => mkobs (a_at y (k :: nil)) (a_at w (k :: nil)) (a_at mu (k :: nil))) (seq 0 n).
Proof. intros E. unfold zip_obs. rewrite E, indices_1, map_map. reflexivity. Qed.

Lemma np_rows_table n y mu w : all_fit n (Some y :: Some mu :: w :: nil) -> some_full n (Some y :: Some mu :: w :: nil) ->
  np_rows (passed y) (passed mu) (option_map passed w) = Some (table n y mu w).
Proof.
  intros HF HS. unfold np_rows.
  set (W := match option_map passed w with Some w => np_arr w | None => mkArr nil (fun _ => 1) end).
  assert (HD : forall a : row_arg, exists t, a_shape (np_arr (passed a)) = t /\ (t = nil \/ t = (rdim a :: nil)) /\ (full n a -> t = (n :: nil))).
  { intros [x|l]; cbn; eexists; split; try reflexivity; split; auto; [intros []|intros ->; reflexivity]. }
  assert (HW : exists t, a_shape W = t /\ (t = nil \/ t = (n :: nil) \/ t = (1%nat :: nil)) /\ (forall a, w = Some a -> full n a -> t = (n :: nil))).
  { unfold W. destruct w as [w|]; cbn [option_map].
    - destruct (HD w) as (t & E & C & K). exists t. split; [exact E|].
      destruct (fits_dim n w (HF w ltac:(right; right; left; reflexivity))) as [F|F]; rewrite F in C; (split; [tauto|]; intros a [= <-]; exact K).
    - exists nil. split; [reflexivity|]. split; [auto|]. discriminate. }
  destruct (HD y) as (ty & Ey & Cy & Ky). destruct (HD mu) as (tm & Em & Cm & Km). destruct HW as (tw & Ew & Cw & Kw).
  assert (Fy := fits_dim n y (HF y (or_introl eq_refl))). assert (Fm := fits_dim n mu (HF mu (or_intror (or_introl eq_refl)))).
  assert (C1 : ty = nil \/ ty = (n :: nil) \/ ty = (1%nat :: nil)) by (destruct Fy as [F|F]; rewrite F in Cy; tauto).
  assert (C2 : tm = nil \/ tm = (n :: nil) \/ tm = (1%nat :: nil)) by (destruct Fm as [F|F]; rewrite F in Cm; tauto).
  assert (CF : ty = (n :: nil) \/ tm = (n :: nil) \/ tw = (n :: nil)).
  { destruct HS as [a [[H|[H|[H|[]]]] Fa]]; [injection H as ->; auto|injection H as ->; auto|right; right; apply (Kw a); auto]. }
  rewrite Ey, Em, Ew.
  assert (BB : bshapes (ty :: tm :: tw :: nil) = Some (n :: nil)).
  { cbn [bshapes]. clear - C1 C2 Cw CF. 
    assert (Z : forall s t : list nat, (s = nil \/ s = (n :: nil) \/ s = (1%nat :: nil)) -> (t = nil \/ t = (n :: nil) \/ t = (1%nat :: nil)) ->
       exists r, bshape s t = Some r /\ (r = nil \/ r = (n :: nil) \/ r = (1%nat :: nil)) /\ (s = (n :: nil) \/ t = (n :: nil) -> r = (n :: nil))).
    { intros s t [-> |[-> | ->]] [-> |[-> | ->]].
      - exists nil. split; [reflexivity|]. split; [auto|]. intros [H|H]; exact H.
      - exists (n :: nil). auto.
      - exists (1%nat :: nil). split; [reflexivity|]. split; [auto|]. intros [H|H]; [discriminate|exact H].
      - exists (n :: nil). auto.
      - exists (n :: nil). rewrite bs_same. auto.
      - exists (n :: nil). rewrite bs_one_r. auto.
      - exists (1%nat :: nil). split; [reflexivity|]. split; [auto|]. intros [H|H]; [exact H|discriminate].
      - exists (n :: nil). rewrite bs_one_l. auto.
      - exists (1%nat :: nil). rewrite bs_same. split; [reflexivity|]. split; [auto|]. intros [H|H]; exact H. }
    replace (bshape tw nil) with (Some tw) by (destruct tw; reflexivity).
    destruct (Z tm tw C2 Cw) as (r & -> & Cr & Kr). destruct (Z ty r C1 Cr) as (r' & -> & _ & Kr'). f_equal. apply Kr'.
    destruct CF as [H|[H|H]]; auto. }
  rewrite BB. f_equal. rewrite (zip_rows n) by reflexivity. unfold table. apply map_ext_in. intros k _.
  rewrite !np_at. f_equal. unfold W, weight_val. destruct w as [w|]; cbn [option_map]; [apply np_at|reflexivity].
Qed.
Lemma kernel_table n y mu w k :
  kernel (bcast (n :: nil) (to_arr (passed y))) (match option_map (fun a => bcast (n :: nil) (to_arr (passed a))) w with Some w => w | None => ones_like (bcast (n :: nil) (to_arr (passed y))) end)
    (bcast (n :: nil) (to_arr (passed mu))) k = Some (k (table n y mu w)).
Proof.
  unfold kernel. cbn [bcast a_shape]. f_equal. f_equal. rewrite (zip_rows n) by reflexivity. unfold table. apply map_ext_in. intros i _.
  rewrite !passed_at. f_equal. unfold weight_val. destruct w as [w|]; cbn [option_map]; [apply passed_at|reflexivity].
Qed.

(** If every argument is a number, a list of n values or a list of one value, and at least one has n values, the deviance is
    that of the n rows. *)
Theorem C98_deviance : forall f n y mu w, all_fit n (Some y :: Some mu :: w :: nil) -> some_full n (Some y :: Some mu :: w :: nil) ->
  fam_deviance f (passed y) (passed mu) (option_map passed w) = Some (deviance f (table n y mu w)).
Proof.
  intros f n y mu w HF HS. unfold fam_deviance.
  pose proof (as_float_rows n _ HF HS) as E. cbn [map option_map] in E. rewrite E. rewrite (np_rows_table n y mu w HF HS).
  destruct f; try reflexivity; apply kernel_table.
Qed.
Print Assumptions C98_deviance.

(** arrays that already have shape (n,) *)
Lemma again_at n a k : a_shape a = (n :: nil) -> (k < n)%nat -> a_at (bcast (n :: nil) a) (k :: nil) = a_at a (k :: nil).
Proof. intros E Hk. cbn [bcast a_at]. rewrite E. cbn [bidx]. destruct (Nat.eqb_spec n 1) as [->|]; [replace k with 0%nat by lia|]; reflexivity. Qed.
Lemma again_deviance f n (y mu : arr) (w : option arr) : a_shape y = (n :: nil) -> a_shape mu = (n :: nil) -> (forall x, w = Some x -> a_shape x = (n :: nil)) ->
  fam_deviance f (Arr y) (Arr mu) (option_map Arr w) = Some (deviance f (zip_obs y (match w with Some w => w | None => ones_like y end) mu)).
Proof.
  intros Ey Em Ew. 
  assert (RW : forall w', (forall k, (k < n)%nat -> a_at w' (k :: nil) = a_at (match w with Some w => w | None => ones_like y end) (k :: nil)) ->
     zip_obs (bcast (n :: nil) y) w' (bcast (n :: nil) mu) = zip_obs y (match w with Some w => w | None => ones_like y end) mu).
  { intros w' Hw. rewrite (zip_rows n _ w') by reflexivity. rewrite (zip_rows n y) by exact Ey. apply map_ext_in. intros k Hk. apply in_seq in Hk.
    rewrite !again_at by (assumption || lia). rewrite Hw by lia. reflexivity. }
  assert (AF : as_float_arrays (Some (Arr y) :: Some (Arr mu) :: option_map Arr w :: nil)
     = Some (Some (bcast (n :: nil) y) :: Some (bcast (n :: nil) mu) :: option_map (bcast (n :: nil)) w :: nil)).
  { unfold as_float_arrays. cbn [existsb is_arr orb]. cbn [shapes_of flat_map app to_arr]. destruct w as [w|]; cbn [option_map app to_arr shapes_of flat_map].
    - rewrite Ey, Em, (Ew w eq_refl). cbn [bshapes].
      replace (bshape (n :: nil) nil) with (Some (n :: nil)) by reflexivity. rewrite bs_same, bs_same. reflexivity.
    - rewrite Ey, Em. cbn [bshapes]. replace (bshape (n :: nil) nil) with (Some (n :: nil)) by reflexivity. rewrite bs_same. reflexivity. }
  assert (NR : np_rows (Arr y) (Arr mu) (option_map Arr w) = Some (zip_obs y (match w with Some w => w | None => ones_like y end) mu)).
  { unfold np_rows. cbn [np_arr]. rewrite Ey, Em. destruct w as [w|]; cbn [option_map np_arr a_shape].
    - rewrite (Ew w eq_refl). cbn [bshapes]. replace (bshape (n :: nil) nil) with (Some (n :: nil)) by reflexivity. rewrite bs_same, bs_same.
      f_equal. apply RW. intros k Hk. apply again_at; [apply Ew; reflexivity|exact Hk].
    - cbn [bshapes]. replace (bshape nil nil) with (Some (@nil nat)) by reflexivity. replace (bshape (n :: nil) nil) with (Some (n :: nil)) by reflexivity. rewrite bs_same.
      f_equal. apply RW. intros k Hk. reflexivity. }
  assert (KK : forall k, kernel (bcast (n :: nil) y) (match option_map (bcast (n :: nil)) w with Some w => w | None => ones_like (bcast (n :: nil) y) end) (bcast (n :: nil) mu) k
     = Some (k (zip_obs y (match w with Some w => w | None => ones_like y end) mu))).
  { intros k. unfold kernel. cbn [bcast a_shape]. f_equal. f_equal. apply RW. intros i Hi. destruct w as [w|]; cbn [option_map]; [apply again_at; [apply Ew; reflexivity|exact Hi]|reflexivity]. }
  unfold fam_deviance. rewrite AF, NR. destruct f; try reflexivity; apply KK.
Qed.

(** The same for the dispersion, with either method. *)
Theorem C98_dispersion : forall f m n y mu w ddof, all_fit n (Some y :: Some mu :: w :: nil) -> some_full n (Some y :: Some mu :: w :: nil) ->
  fam_dispersion f m (passed y) (passed mu) (option_map passed w) ddof
  = Some (dispersion f m (match w with Some _ => true | None => false end) ddof (table n y mu w)).
Proof.
  intros f m n y mu w ddof HF HS. unfold fam_dispersion.
  pose proof (as_float_rows n _ HF HS) as E. cbn [map option_map] in E. rewrite E.
  assert (TB : forall w0, w0 = match option_map (fun a => bcast (n :: nil) (to_arr (passed a))) w with Some w => w | None => ones_like (bcast (n :: nil) (to_arr (passed y))) end ->
    zip_obs (bcast (n :: nil) (to_arr (passed y))) w0 (bcast (n :: nil) (to_arr (passed mu))) = table n y mu w).
  { intros w0 ->. pose proof (kernel_table n y mu w (fun l => lsumf oy l)) as K. unfold kernel in K. cbn [bcast a_shape] in K. clear K.
    rewrite (zip_rows n) by reflexivity. unfold table. apply map_ext_in. intros i _. rewrite !passed_at. f_equal.
    unfold weight_val. destruct w as [w|]; cbn [option_map]; [apply passed_at|reflexivity]. }
  pose proof (again_deviance f n (bcast (n :: nil) (to_arr (passed y))) (bcast (n :: nil) (to_arr (passed mu))) (option_map (fun a => bcast (n :: nil) (to_arr (passed a))) w)
    eq_refl eq_refl) as D.
  assert (HW : forall x, option_map (fun a => bcast (n :: nil) (to_arr (passed a))) w = Some x -> a_shape x = (n :: nil)) by (destruct w; cbn; intros x [= <-]; reflexivity).
  specialize (D HW). rewrite D. clear D.
  rewrite (TB _ eq_refl). cbn [bcast a_shape np_len rev app].
  assert (LEN : length (table n y mu w) = n) by (unfold table; rewrite map_length, seq_length; reflexivity).
  assert (UW : w = None -> unit_weights (table n y mu w) = table n y mu w).
  { intros ->. unfold unit_weights, table. rewrite map_map. apply map_ext. intros i. reflexivity. }
  unfold dispersion. rewrite LEN.
  destruct m; destruct w as [w|]; cbn [option_map].
  - destruct f; reflexivity.
  - destruct f; reflexivity.
  - reflexivity.
  - rewrite UW by reflexivity. reflexivity.
Qed.
Print Assumptions C98_dispersion.

(** Lists of different lengths (neither of length one) raise. *)
Lemma bshape_clash a b s t : a <> b -> a <> 1%nat -> b <> 1%nat -> bshape (a :: s) (b :: t) = None.
Proof.
  intros N A B. cbn [bshape]. destruct (bshape s t); [|reflexivity]. apply Nat.eqb_neq in N, A, B. rewrite N, A, B. reflexivity.
Qed.
Lemma bs3 a b c : (a <> b /\ a <> 1 /\ b <> 1)%nat \/ (a <> c /\ a <> 1 /\ c <> 1)%nat \/ (b <> c /\ b <> 1 /\ c <> 1)%nat ->
  bshapes ((a :: nil) :: (b :: nil) :: (c :: nil) :: nil) = None.
Proof.
  intros H. cbn [bshapes]. change (bshape (c :: nil) nil) with (Some (c :: nil)).
  cbn [bshape]. 
  destruct (Nat.eqb_spec b c); [destruct (Nat.eqb_spec a b)|destruct (Nat.eqb_spec b 1); [destruct (Nat.eqb_spec a c)|destruct (Nat.eqb_spec c 1); [destruct (Nat.eqb_spec a b)|]]];
  repeat match goal with |- context [Nat.eqb ?x ?y] => destruct (Nat.eqb_spec x y) end; try reflexivity; lia.
Qed.
Theorem C98_mismatch : forall f m y mu w ddof, clash y mu \/ (exists x, w = Some x /\ (clash y x \/ clash mu x)) ->
  fam_deviance f (passed y) (passed mu) (option_map passed w) = None /\
  fam_dispersion f m (passed y) (passed mu) (option_map passed w) ddof = None.
Proof.
  intros f m y mu w ddof HC.
  assert (B : bshapes (shapes_of (Some (passed y) :: Some (passed mu) :: option_map passed w :: nil)) = None).
  { cbn [shapes_of flat_map app]. destruct w as [w|]; cbn [option_map app]; rewrite !passed_shape.
    - apply bs3. destruct HC as [H|(x & [= <-] & [H|H])]; [left|right; left|right; right];
        destruct y, mu, w; cbn in H |- *; tauto.
    - destruct HC as [H|(x & [=] & _)]. cbn [bshapes]. change (bshape (rdim mu :: nil) nil) with (Some (rdim mu :: nil)).
      apply bshape_clash; destruct y, mu; cbn in H |- *; tauto. }
  assert (X : existsb is_arr (Some (passed y) :: Some (passed mu) :: option_map passed w :: nil) = true).
  { destruct HC as [H|(x & -> & [H|H])]; destruct y, mu; cbn in H |- *; try contradiction; try reflexivity; destruct x; try contradiction; reflexivity. }
  assert (A : as_float_arrays (Some (passed y) :: Some (passed mu) :: option_map passed w :: nil) = None).
  { unfold as_float_arrays. rewrite X, B. reflexivity. }
  assert (N : np_rows (passed y) (passed mu) (option_map passed w) = None).
  { unfold np_rows. clear - HC. destruct w as [w|]; cbn [option_map].
    - assert (K : bshapes (a_shape (np_arr (passed y)) :: a_shape (np_arr (passed mu)) :: a_shape (np_arr (passed w)) :: nil) = None).
      { destruct HC as [H|(x & [= <-] & [H|H])].
        - destruct y as [|ly], mu as [|lm]; try contradiction. cbn in H. destruct w as [|lw]; cbn [passed np_arr a_shape].
          + cbn [bshapes]. change (bshape nil nil) with (Some (@nil nat)). change (bshape (length lm :: nil) nil) with (Some (length lm :: nil)). apply bshape_clash; tauto.
          + apply bs3. tauto.
        - destruct y as [|ly], w as [|lw]; try contradiction. cbn in H. destruct mu as [|lm]; cbn [passed np_arr a_shape].
          + cbn [bshapes]. change (bshape (length lw :: nil) nil) with (Some (length lw :: nil)). change (bshape nil (length lw :: nil)) with (Some (length lw :: nil)). apply bshape_clash; tauto.
          + apply bs3. tauto.
        - destruct mu as [|lm], w as [|lw]; try contradiction. cbn in H. destruct y as [|ly]; cbn [passed np_arr a_shape].
          + cbn [bshapes]. change (bshape (length lw :: nil) nil) with (Some (length lw :: nil)). cbv beta iota; rewrite bshape_clash by tauto; reflexivity.
          + apply bs3. tauto. }
      rewrite K. reflexivity.
    - destruct HC as [H|(x & [=] & _)]. destruct y as [|ly], mu as [|lm]; try contradiction. cbn in H.
      assert (K : bshapes ((length ly :: nil) :: (length lm :: nil) :: nil :: nil) = None).
      { cbn [bshapes]. change (bshape nil nil) with (Some (@nil nat)). change (bshape (length lm :: nil) nil) with (Some (length lm :: nil)). apply bshape_clash; tauto. }
      cbn [passed np_arr a_shape]. rewrite K. reflexivity. }
  split.
  - unfold fam_deviance. rewrite A, N. destruct f; reflexivity.
  - unfold fam_dispersion. rewrite A. reflexivity.
Qed.
Print Assumptions C98_mismatch.

(** ** a target of shape (n, 1) *)
Lemma indices_2 n k : indices (n :: k :: nil) = flat_map (fun j => map (fun i => i :: j :: nil) (seq 0 n)) (seq 0 k).
Proof.
  change (indices (n :: k :: nil)) with (flat_map (fun i => map (fun k0 => k0 :: i) (seq 0 n)) (indices (k :: nil))). rewrite indices_1.
  induction (seq 0 k) as [|j r IH]; [reflexivity|]. cbn [map flat_map]. rewrite IH. reflexivity.
Qed.
Lemma bs_col n k : bshape (1 :: k :: nil)%nat (n :: nil) = Some (n :: k :: nil).
Proof. cbn [bshape]. destruct (Nat.eqb_spec 1 n) as [<-|]; reflexivity. Qed.
Lemma bs_col2 n k : bshapes ((1 :: k :: nil)%nat :: (n :: nil) :: nil) = Some (n :: k :: nil).
Proof. change (bshapes ((1 :: k :: nil)%nat :: (n :: nil) :: nil)) with (bshape (1 :: k :: nil)%nat (n :: nil)). apply bs_col. Qed.
Lemma bs_col2' n k : bshapes ((1 :: k :: nil)%nat :: (n :: nil) :: nil :: nil) = Some (n :: k :: nil).
Proof. change (bshapes ((1 :: k :: nil)%nat :: (n :: nil) :: nil :: nil)) with (bshape (1 :: k :: nil)%nat (n :: nil)). apply bs_col. Qed.
Lemma bs_col3 n k : bshapes ((1 :: k :: nil)%nat :: (n :: nil) :: (n :: nil) :: nil) = Some (n :: k :: nil).
Proof.
  change (bshapes ((1 :: k :: nil)%nat :: (n :: nil) :: (n :: nil) :: nil)) with (match bshape (n :: nil) (n :: nil) with Some t => bshape (1 :: k :: nil)%nat t | None => None end).
  rewrite bs_same. apply bs_col.
Qed.
Lemma zip_pairs ys mus W (w : arr) : (forall i j, (i < length mus)%nat -> (j < length ys)%nat -> a_at w (i :: j :: nil) = nth i W 1) ->
  zip_obs (bcast (length mus :: length ys :: nil) (to_arr (column ys))) w (bcast (length mus :: length ys :: nil) (to_arr (passed (PerRow mus)))) = pairs ys mus W.
Proof.
  intros Hw. unfold zip_obs, pairs. cbn [bcast a_shape]. rewrite indices_2.
  assert (F : forall l, (forall j, In j l -> (j < length ys)%nat) ->
    map (fun i => mkobs (a_at (bcast (length mus :: length ys :: nil) (to_arr (column ys))) i) (a_at w i) (a_at (bcast (length mus :: length ys :: nil) (to_arr (passed (PerRow mus)))) i))
        (flat_map (fun j => map (fun i => i :: j :: nil) (seq 0 (length mus))) l)
    = flat_map (fun j => map (fun i => mkobs (nth j ys 0) (nth i W 1) (nth i mus 0)) (seq 0 (length mus))) l).
  { induction l as [|j r IH]; intros Hl; [reflexivity|]. cbn [flat_map]. rewrite map_app. rewrite IH by (intros; apply Hl; right; assumption). f_equal.
    rewrite map_map. apply map_ext_in. intros i Hi. apply in_seq in Hi. assert (Hj := Hl j (or_introl eq_refl)).
    rewrite Hw by lia. cbn [bcast a_at to_arr column passed a_shape bidx]. f_equal.
    - change (Nat.eqb 1 1) with true. cbn [nth]. destruct (Nat.eqb_spec (length ys) 1); [replace j with 0%nat by lia|]; reflexivity.
    - cbn [hd]. destruct (Nat.eqb_spec (length mus) 1); [replace i with 0%nat by lia|]; reflexivity. }
  apply F. intros j Hj. apply in_seq in Hj. lia.
Qed.
Definition wopt (W : option (list R)) : option num := option_map (fun l => passed (PerRow l)) W.
Definition wlist (W : option (list R)) : list R := match W with Some l => l | None => nil end.
Lemma col_arrays ys mus W : (forall l, W = Some l -> length l = length mus) ->
  as_float_arrays (Some (column ys) :: Some (passed (PerRow mus)) :: wopt W :: nil)
  = Some (Some (bcast (length mus :: length ys :: nil) (to_arr (column ys))) :: Some (bcast (length mus :: length ys :: nil) (to_arr (passed (PerRow mus))))
          :: option_map (fun l => bcast (length mus :: length ys :: nil) (to_arr (passed (PerRow l)))) W :: nil).
Proof.
  intros HW. unfold as_float_arrays. change (existsb is_arr (Some (column ys) :: Some (passed (PerRow mus)) :: wopt W :: nil)) with true. cbv iota.
  assert (B : bshapes (shapes_of (Some (column ys) :: Some (passed (PerRow mus)) :: wopt W :: nil)) = Some (length mus :: length ys :: nil)).
  { cbn [shapes_of flat_map app to_arr column passed a_shape]. destruct W as [l|]; cbn [wopt option_map app to_arr passed a_shape].
    - rewrite (HW l eq_refl). apply bs_col3.
    - apply bs_col2. }
  rewrite B. destruct W; reflexivity.
Qed.
Lemma w_at (ys mus : list R) (W : option (list R)) : (forall l, W = Some l -> length l = length mus) -> forall i j, (i < length mus)%nat -> (j < length ys)%nat ->
  a_at (match option_map (fun l => bcast (length mus :: length ys :: nil) (to_arr (passed (PerRow l)))) W with Some w => w
        | None => ones_like (bcast (length mus :: length ys :: nil) (to_arr (column ys))) end) (i :: j :: nil) = nth i (wlist W) 1.
Proof.
  intros HW i j Hi Hj. destruct W as [l|]; cbn [option_map wlist].
  - cbn [bcast a_at to_arr passed a_shape bidx hd]. rewrite (HW l eq_refl). destruct (Nat.eqb_spec (length mus) 1); [replace i with 0%nat by lia|]; apply nth_indep; rewrite (HW l eq_refl); lia.
  - cbn. destruct i; reflexivity.
Qed.

(** With a target of shape (k, 1) and means of shape (n,) the deviance raises, except for the binomial and hyperbolic secant
    families, which add up all k * n pairs; the Pearson dispersion adds up all pairs in every family but the hyperbolic secant. *)
Theorem C98_column : forall f ys mus W ddof, (forall l, W = Some l -> length l = length mus) ->
  fam_deviance f (column ys) (passed (PerRow mus)) (wopt W)
    = (match f with BinomialF | GHSF => Some (deviance f (pairs ys mus (wlist W))) | _ => None end) /\
  (f <> GHSF -> fam_dispersion f Pearson (column ys) (passed (PerRow mus)) (wopt W) ddof
    = Some (match W with
            | None => lsumf (pearson_residual f) (pairs ys mus (wlist W)) / (INR (length ys) - ddof)
            | Some _ => lsumf (fun o => ow o * pearson_residual f o) (pairs ys mus (wlist W)) / (lsumf ow (pairs ys mus (wlist W)) - ddof)
            end)).
Proof.
  intros f ys mus W ddof HW. pose proof (col_arrays ys mus W HW) as A. pose proof (w_at ys mus W HW) as WA. split.
  - unfold fam_deviance. rewrite A.
    assert (N : np_rows (column ys) (passed (PerRow mus)) (wopt W) = Some (pairs ys mus (wlist W))).
    { unfold np_rows.
      assert (B : bshapes (a_shape (np_arr (column ys)) :: a_shape (np_arr (passed (PerRow mus))) ::
          a_shape (match wopt W with Some w => np_arr w | None => mkArr nil (fun _ => 1) end) :: nil) = Some (length mus :: length ys :: nil)).
      { cbn [np_arr column passed a_shape]. destruct W as [l|]; cbn [wopt option_map np_arr passed a_shape].
        - rewrite (HW l eq_refl). apply bs_col3.
        - apply bs_col2'. }
      rewrite B. f_equal.
      change (np_arr (column ys)) with (to_arr (column ys)). change (np_arr (passed (PerRow mus))) with (to_arr (passed (PerRow mus))).
      apply zip_pairs. intros i j Hi Hj. rewrite <- (WA i j Hi Hj). destruct W as [l|]; reflexivity. }
    rewrite N. destruct f; reflexivity.
  - intros NG. unfold fam_dispersion. rewrite A. rewrite (zip_pairs ys mus (wlist W) _ WA). cbn [bcast a_shape np_len rev app].
    destruct f; try congruence; destruct W; reflexivity.
Qed.
Print Assumptions C98_column.

(** Passing the target as a column instead of a vector changes the estimated dispersion without any error: two rows fitted
    perfectly have dispersion 0, and 8 as a column. *)
Theorem C98_column_refuted :
  fam_dispersion NormalF Pearson (passed (PerRow (0 :: 2 :: nil))) (passed (PerRow (0 :: 2 :: nil))) None 1 = Some 0 /\
  fam_dispersion NormalF Pearson (column (0 :: 2 :: nil)) (passed (PerRow (0 :: 2 :: nil))) None 1 = Some 8.
Proof.
  split.
  - etransitivity; [apply (C98_dispersion NormalF Pearson 2 (PerRow (0 :: 2 :: nil)) (PerRow (0 :: 2 :: nil)) None 1)|].
    + intros a [[= <-]|[[= <-]|[[=]|[]]]]; left; reflexivity.
    + exists (PerRow (0 :: 2 :: nil)). split; [left; reflexivity|reflexivity].
    + f_equal. unfold dispersion, table. cbn. unfold lsumf, pearson_residual. cbn. field.
  - etransitivity; [apply (proj2 (C98_column NormalF (0 :: 2 :: nil) (0 :: 2 :: nil) None 1 ltac:(discriminate)) ltac:(discriminate))|].
    f_equal. cbn. unfold lsumf, pearson_residual. cbn. field.
Qed.
Print Assumptions C98_column_refuted.

(** Three rows, one mean for all and weights: what the null deviance of [score] uses. *)
Example ex98_nonvacuous :
  all_fit 3 (Some (PerRow (1 :: 2 :: 6 :: nil)) :: Some (Same 3) :: Some (PerRow (1 :: 1 :: 2 :: nil)) :: nil) /\
  some_full 3 (Some (PerRow (1 :: 2 :: 6 :: nil)) :: Some (Same 3) :: Some (PerRow (1 :: 1 :: 2 :: nil)) :: nil) /\
  fam_deviance NormalF (passed (PerRow (1 :: 2 :: 6 :: nil))) (passed (Same 3)) (Some (passed (PerRow (1 :: 1 :: 2 :: nil)))) = Some 23 /\
  clash (PerRow (1 :: 2 :: 6 :: nil)) (PerRow (1 :: 2 :: nil)) /\
  fam_deviance PoissonF (Num 1) (Num 1) None = Some 0.
Proof.
  split; [intros a [[= <-]|[[= <-]|[[= <-]|[]]]]; cbn; auto|]. split; [exists (PerRow (1 :: 2 :: 6 :: nil)); split; [left; reflexivity|reflexivity]|].
  split; [|split; [cbn; lia|]].
  - etransitivity; [apply (C98_deviance NormalF 3 (PerRow (1 :: 2 :: 6 :: nil)) (Same 3) (Some (PerRow (1 :: 1 :: 2 :: nil))))|].
    + intros a [[= <-]|[[= <-]|[[= <-]|[]]]]; cbn; auto.
    + exists (PerRow (1 :: 2 :: 6 :: nil)). split; [left; reflexivity|reflexivity].
    + f_equal. cbn. unfold normal_deviance, lsumf. cbn. ring.
  - cbn. unfold kernel. cbn. f_equal. unfold zip_obs. cbn. unfold poisson_deviance, lsumf. cbn. destruct (Rlt_dec 0 1); [rewrite ln_1; ring|lra].
Qed.
