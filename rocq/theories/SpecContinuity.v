(** Specification vocabulary for continuity (C113) *)
From Coq Require Import String ZArith List Bool Reals.
From Coquelicot Require Import Hierarchy Complex.
From Verif Require Import Prelude Expr CExpr SpecKin SpecFinite.
Import ListNotations.
Local Open Scope list_scope.

(** Limits of real and complex functions along a filter, such as "t near t0" or "n to infinity" *)
Definition rtends {T} (F : (T -> Prop) -> Prop) (f : T -> R) (l : R) : Prop := filterlim f F (locally l).
Definition tends {T} (F : (T -> Prop) -> Prop) (f : T -> C) (l : C) : Prop :=
  rtends F (fun t => Re (f t)) (Re l) /\ rtends F (fun t => Im (f t)) (Im l).

(** All numbers of which a square root is taken when an expression is evaluated *)
Fixpoint radicands (ev : env) (h : symbol -> Z) (e : cexpr) : list C :=
  match e with
  | CRat _ | CIm | CVar _ | CIdx _ _ | CDelta _ _ | CSign _ | CWigner _ _ _ _ | CCG _ _ _ _ _ _ => []
  | CAdd a b | CSub a b | CMul a b | CDiv a b => radicands ev h a ++ radicands ev h b
  | CNeg a | CSqr a | CExp a | CAbs2 a => radicands ev h a
  | CSqrt a => ceval ev h a :: radicands ev h a
  | CSum e pools => pool_flat (fun h => radicands ev h e) pools h
  | CFormFactor s m1 m2 L r =>
      let r' := ceval ev h r in
      blatt_weisskopf_squared (Z.to_nat L) (breakup_squared (ceval ev h s) (ceval ev h m1) (ceval ev h m2) * (r' * r'))%C
      :: radicands ev h s ++ radicands ev h m1 ++ radicands ev h m2 ++ radicands ev h r
  | CBreakup s m1 m2 =>
      breakup_squared (ceval ev h s) (ceval ev h m1) (ceval ev h m2)
      :: radicands ev h s ++ radicands ev h m1 ++ radicands ev h m2
  end.
(** The square root jumps at negative real numbers only. *)
Definition on_cut (z : C) : Prop := (Im z = 0 /\ Re z < 0)%R.
Definition no_cut (ev : env) (h : symbol -> Z) (e : cexpr) : Prop := forall x, In x (radicands ev h e) -> ~ on_cut x.
