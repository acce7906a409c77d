(** Property theorems C01-C03. *)
From Verif Require Import Base M_Link S_Link L_Link.

(** C01 *)
Theorem C01_inverse_of_link :
  forall (l : link) (mus : list R),
    (forall mu, In mu mus -> mean_domain l mu /\ in_band l mu) ->
    link_inverse l (map (link_fn l) mus) = (mus, false).
Proof. exact inverse_of_link. Qed.
Print Assumptions C01_inverse_of_link.

Theorem C01_link_of_inverse :
  forall (l : link) (etas : list R),
    (forall eta, In eta etas -> lin_domain l eta) ->
    snd (link_inverse l etas) = false ->
    map (link_fn l) (fst (link_inverse l etas)) = etas.
Proof. exact link_of_inverse. Qed.
Print Assumptions C01_link_of_inverse.

Example C01_ex : forall mu, In mu [1/4; 1/2] -> mean_domain CloglogL mu /\ in_band CloglogL mu.
Proof. assert (H := eps50_bounds). intros mu [<-|[<-|[]]]; simpl; lra. Qed.
Example C01_ex2 : (forall eta, In eta [0; 0] -> lin_domain LogitL eta) /\ snd (link_inverse LogitL [0;0]) = false.
Proof. split; [intros; exact I|]. rewrite link_inverse_nowarn; auto.
  assert (H := eps50_bounds). intros eta [<-|[<-|[]]]; simpl; unfold expit; rewrite Ropp_0, exp_0; lra. Qed.

(** C02 *)
Theorem C02_link_derivative :
  forall (l : link) (mu : R), mean_domain l mu -> is_derive (link_fn l) mu (link_derivative l mu).
Proof. exact is_derive_link. Qed.
Print Assumptions C02_link_derivative.

Theorem C02_inverse_derivative :
  forall (l : link) (eta : R), lin_domain l eta ->
    is_derive (raw_inverse l) eta (inverse_derivative l eta).
Proof. exact is_derive_inverse. Qed.
Print Assumptions C02_inverse_derivative.

Theorem C02_inverse_derivative2 :
  forall (l : link) (eta : R), lin_domain l eta ->
    is_derive (inverse_derivative l) eta (inverse_derivative2 l eta).
Proof. exact is_derive_inverse2. Qed.
Print Assumptions C02_inverse_derivative2.

Theorem C02_inverse_derivative_reciprocal :
  forall (l : link) (mu : R), mean_domain l mu ->
    inverse_derivative l (link_fn l mu) * link_derivative l mu = 1.
Proof. exact inverse_derivative_link. Qed.
Print Assumptions C02_inverse_derivative_reciprocal.

Example C02_ex : mean_domain (TweedieL (3/2)) 2 /\ lin_domain (TweedieL (3/2)) 2.
Proof. simpl; split; intros; lra. Qed.

(** C03 (power links on predictors outside [lin_domain]: C87) *)
Theorem C03_monotone :
  forall (l : link) (lin : list R) (i j : nat) (a b ma mb : R),
    (forall p, l <> TweedieL p) ->
    nth_error lin i = Some a -> nth_error lin j = Some b -> a <= b ->
    nth_error (fst (link_inverse l lin)) i = Some ma ->
    nth_error (fst (link_inverse l lin)) j = Some mb -> ma <= mb.
Proof. exact link_inverse_mono. Qed.
Print Assumptions C03_monotone.

Theorem C03_range :
  forall (l : link) (lin : list R) (mu : R),
    (forall eta, In eta lin -> lin_domain l eta) ->
    In mu (fst (link_inverse l lin)) ->
    match l with
    | IdentityL => True
    | LogL => 0 < mu
    | LogitL | CloglogL => 50 * / 2 ^ 52 <= mu <= 1 - 50 * / 2 ^ 52
    | TweedieL p => p <> 0 -> 0 < mu
    end.
Proof. intros l lin mu _. apply link_inverse_range. Qed.
Print Assumptions C03_range.

Theorem C03_warning :
  forall (l : link) (lin : list R),
    snd (link_inverse l lin) = true <->
    (exists eta, In eta lin /\ ~ in_band l (raw_inverse l eta)).
Proof. exact link_inverse_warn. Qed.
Print Assumptions C03_warning.

Example C03_ex : nth_error (fst (link_inverse LogL [0; 1])) 1 = Some (exp 1).
Proof. reflexivity. Qed.
