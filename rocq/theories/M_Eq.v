(** Equality and conversion of family and link instances. *)
From Coq Require Import List Arith Bool.
From Verif Require Import Base M_Link M_Dist.
From Verif Require Import M_Float.
Import ListNotations.
Local Open Scope R_scope.

(** The shipped classes.  None of them is a subclass of another (_distribution.py 541, 778, 891, 1005, 1118, 1228, 1255, 1351;
    _link.py 101, 174, 199, 224, 255). *)
Inductive kind := KTweedie | KNormal | KPoisson | KGamma | KInvGauss | KGHS | KBinomial | KNegBin
  | KTweedieLink | KIdentity | KLog | KLogit | KCloglog.
(** A class: a shipped class or a subclass of one that the user has defined; the list names the steps, the last one first. *)
Record cls := mkCls { c_kind : kind; c_path : list nat }.
(** An instance: its class, and the stored power or theta where the class has one. *)
Record inst := mkInst { i_cls : cls; i_par : pyval }.

Definition kind_eqb (a b : kind) : bool :=
  match a, b with
  | KTweedie, KTweedie | KNormal, KNormal | KPoisson, KPoisson | KGamma, KGamma | KInvGauss, KInvGauss | KGHS, KGHS
  | KBinomial, KBinomial | KNegBin, KNegBin | KTweedieLink, KTweedieLink | KIdentity, KIdentity | KLog, KLog | KLogit, KLogit
  | KCloglog, KCloglog => true
  | _, _ => false
  end.
Fixpoint list_eqb (a b : list nat) : bool :=
  match a, b with [], [] => true | x :: a, y :: b => (Nat.eqb x y && list_eqb a b)%bool | _, _ => false end.
(** issubclass(c, d): d is among c, the parent of c, ... *)
Fixpoint ends_with (p q : list nat) : bool :=
  (list_eqb p q || match p with [] => false | _ :: p => ends_with p q end)%bool.
Definition subclass (c d : cls) : bool := (kind_eqb (c_kind c) (c_kind d) && ends_with (c_path c) (c_path d))%bool.
Definition same_class (c d : cls) : bool := (kind_eqb (c_kind c) (c_kind d) && list_eqb (c_path c) (c_path d))%bool.
Definition isinstance (x : inst) (c : cls) : bool := subclass (i_cls x) c.

(** self.__eq__(other): _distribution.py 578-579 (Tweedie), 1381-1384 (negative binomial), 792-793, 905-906, 1019-1020,
    1132-1133, 1242-1243, 1269-1270; _link.py 110-111 (Tweedie), 177-178, 202-203, 227-228, 258-259.  User subclasses inherit it. *)
Definition eq_method (self other : inst) : bool :=
  match c_kind (i_cls self) with
  | KTweedie => (isinstance other (mkCls KTweedie []) && num_eq (i_par self) (i_par other))%bool
  | KNegBin => (isinstance other (mkCls KNegBin []) && num_eq (i_par self) (i_par other))%bool
  | KTweedieLink => (isinstance other (i_cls self) && num_eq (i_par self) (i_par other))%bool
  | _ => isinstance other (i_cls self)
  end.
(** The operator v == w: Python asks the right operand first when its class is a strict subclass of the left one's. *)
Definition py_equal (v w : inst) : bool :=
  if (subclass (i_cls w) (i_cls v) && negb (same_class (i_cls w) (i_cls v)))%bool then eq_method w v else eq_method v w.

(** Constructors: _distribution.py 574-576, 1378-1379, _link.py 107-108; [None] = raises. *)
Definition construct (c : cls) (v : pyval) : option inst :=
  match c_kind c with
  | KTweedie | KTweedieLink => match set_power v with Stored w => Some (mkInst c w) | _ => None end
  | KNegBin => match set_theta v with Stored w => Some (mkInst c w) | _ => None end
  | _ => Some (mkInst c PyOther)
  end.
(** to_tweedie(safe), _distribution.py 102-108, _link.py 74-80, with __tweedie_repr__ (_distribution.py 581-582, 795-796, 908-909,
    1022-1023, 1135-1136; _link.py 113-114, 180-181, 205-206) *)
Inductive conv := Inst (x : inst) | Raises | NoneResult.
Definition built (o : option inst) : conv := match o with Some x => Inst x | None => Raises end.
Definition to_tweedie (safe : bool) (x : inst) : conv :=
  match c_kind (i_cls x) with
  | KTweedie | KTweedieLink => built (construct (i_cls x) (i_par x))
  | KNormal => built (construct (mkCls KTweedie []) (PyInt 0))
  | KPoisson => built (construct (mkCls KTweedie []) (PyInt 1))
  | KGamma => built (construct (mkCls KTweedie []) (PyInt 2))
  | KInvGauss => built (construct (mkCls KTweedie []) (PyInt 3))
  | KIdentity => built (construct (mkCls KTweedieLink []) (PyInt 0))
  | KLog => built (construct (mkCls KTweedieLink []) (PyInt 1))
  | _ => if safe then Raises else NoneResult
  end.
(** a finite parameter as a number *)
Definition num_value (v : pyval) : option R := match v with PyInt z => Some (IZR z) | PyNum (Fin x) => Some x | _ => None end.
(** What an instance computes (an unmodified subclass computes what its base class does). *)
Definition as_family (x : inst) : option family :=
  match c_kind (i_cls x) with
  | KTweedie => option_map TweedieF (num_value (i_par x))
  | KNegBin => option_map NegBinF (num_value (i_par x))
  | KNormal => Some NormalF | KPoisson => Some PoissonF | KGamma => Some GammaF | KInvGauss => Some InvGaussF
  | KGHS => Some GHSF | KBinomial => Some BinomialF
  | _ => None
  end.
Definition as_link (x : inst) : option link :=
  match c_kind (i_cls x) with
  | KTweedieLink => option_map TweedieL (num_value (i_par x))
  | KIdentity => Some IdentityL | KLog => Some LogL | KLogit => Some LogitL | KCloglog => Some CloglogL
  | _ => None
  end.
