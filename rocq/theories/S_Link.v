(** Specification vocabulary for links: where a link is defined. *)
From Verif Require Import Base M_Link.

(** Means for which the link function makes mathematical sense. *)
Definition mean_domain (l : link) (mu : R) : Prop :=
  match l with
  | IdentityL => True
  | LogL => 0 < mu
  | LogitL | CloglogL => 0 < mu < 1
  | TweedieL p => p <> 0 -> 0 < mu
  end.

(** Linear predictors for which the inverse makes sense. *)
Definition lin_domain (l : link) (eta : R) : Prop :=
  match l with
  | TweedieL p => p <> 0 -> p <> 1 -> 0 < eta
  | _ => True
  end.

(** Means inside the band that is never clipped. *)
Definition in_band (l : link) (mu : R) : Prop :=
  match l with
  | LogitL | CloglogL => eps50 <= mu <= 1 - eps50
  | _ => True
  end.
