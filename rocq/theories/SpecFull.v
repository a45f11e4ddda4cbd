(** Specification vocabulary for the full expression of a model (C125) *)
From Coq Require Import String ZArith List Bool Reals.
From Coquelicot Require Import Complex.
From Verif Require Import Prelude Decay Expr CExpr SpecDPD Builder SpecBuilder.
Import ListNotations.
Local Open Scope list_scope.

(** A helicity that is a number *)
Definition number (e : hexpr) : Prop := exists z, e = HVal z.
(** An expression without sums over helicities and Kronecker deltas, in which all helicities are numbers *)
Fixpoint expanded (e : cexpr) : Prop :=
  match e with
  | CRat _ | CIm | CVar _ => True
  | CIdx _ idx => forall x, In (XHel x) idx -> number x
  | CAdd a b | CSub a b | CMul a b | CDiv a b => expanded a /\ expanded b
  | CNeg a | CSqr a | CSqrt a | CExp a | CAbs2 a => expanded a
  | CSign a => number a
  | CWigner _ m m' _ => number m /\ number m'
  | CCG _ m1 _ m2 _ m3 => number m1 /\ number m2 /\ number m3
  | CFormFactor s m1 m2 _ r => expanded s /\ expanded m1 /\ expanded m2 /\ expanded r
  | CBreakup s m1 m2 => expanded s /\ expanded m1 /\ expanded m2
  | CDelta _ _ | CSum _ _ => False
  end.

(** All that is left in an expression has a value: a parameter default, the definition of an angle, or it is a
    Mandelstam variable. *)
Definition all_defined (m : model) (e : cexpr) : Prop :=
  forall h o, In o (occ h e) ->
    match o with
    | OIdx base idx => (exists v, dget (KIdx base idx) (m_params m) = Some v) /\ dget (base, idx) (m_amplitudes m) = None
    | OAngle y => exists a, dget y (m_variables m) = Some a
    | OVar y => (exists v, dget (KSym y) (m_params m) = Some v) \/ mandelstam y
    end.
(** The same values for all parameters of the model and for the Mandelstam variables *)
Definition same_inputs (m : model) (base base' : symbol -> C) (cpl cpl' : string -> list ival -> C) : Prop :=
  (forall y v, dget (KSym y) (m_params m) = Some v -> base y = base' y) /\
  (forall y, mandelstam y -> base y = base' y) /\
  (forall n idx v, dget (KIdx n idx) (m_params m) = Some v -> cpl n idx = cpl' n idx).
