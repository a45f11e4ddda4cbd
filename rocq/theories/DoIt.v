(** Model of [AmplitudeModel.full_expression], /repo/src/ampform_dpd/__init__.py:52-55, as an expression:
    [doit()] and [xreplace] on complex expressions. *)
From Coq Require Import String ZArith QArith Qcanon List Bool.
From Verif Require Import Prelude Spin Decay Expr CExpr Builder.
Import ListNotations.
Local Open Scope Z_scope.
Local Open Scope list_scope.

(** Differences of numbers are numbers in SymPy.  [rho] holds the values of the summation indices of the enclosing
    [PoolSum]s. *)
Fixpoint hdoit (rho : dict symbol Z) (e : hexpr) : hexpr :=
  match e with
  | HVal z => HVal z
  | HVar s => match dget s rho with Some z => HVal z | None => HVar s end
  | HSub a b =>
      match hdoit rho a, hdoit rho b with
      | HVal x, HVal y => HVal (x - y)
      | a', b' => HSub a' b'
      end
  | HNeg a => match hdoit rho a with HVal x => HVal (- x) | a' => HNeg a' end
  end.
(** SymPy [doit] inside the indices of [sp.Indexed], __init__.py:54-55. *)
Definition idoit (rho : dict symbol Z) (i : iexpr) : iexpr :=
  match i with XStr s => XStr s | XHel e => XHel (hdoit rho e) end.

(** A product with a factor 0 is 0 in SymPy. *)
Definition is_zero (e : cexpr) : bool := match e with CRat q => eqb q (Qc_of_Z 0) | _ => false end.
(** SymPy: automatic evaluation of a product, __init__.py:54-55. *)
Definition mul (a b : cexpr) : cexpr := if is_zero a || is_zero b then CNum 0 else CMul a b.

(** [PoolSum.evaluate]: all combinations of the index values, in the order of [itertools.product] *)
(** Library ampform, [PoolSum.evaluate], called by [doit] at __init__.py:54-55. *)
Fixpoint assignments (pools : list (symbol * list Z)) (rho : dict symbol Z) : list (dict symbol Z) :=
  match pools with
  | [] => [rho]
  | (s, vals) :: ps => flat_map (fun v => assignments ps (dset s v rho)) vals
  end.

(** [expr.doit()].  [PoolSum] becomes a sum, [KroneckerDelta] of numbers becomes 0 or 1.  The other functions are left in
    place, with their arguments evaluated: their evaluated forms have the same value (CExpr.v) and no other symbols. *)
(** SymPy [doit], called at __init__.py:54-55. *)
Fixpoint doit (rho : dict symbol Z) (e : cexpr) : cexpr :=
  match e with
  | CRat q => CRat q
  | CIm => CIm
  | CVar s => CVar s
  | CIdx b idx => CIdx b (map (idoit rho) idx)
  | CAdd a b => CAdd (doit rho a) (doit rho b)
  | CSub a b => CSub (doit rho a) (doit rho b)
  | CMul a b => mul (doit rho a) (doit rho b)
  | CDiv a b => CDiv (doit rho a) (doit rho b)
  | CNeg a => CNeg (doit rho a)
  | CSqr a => CSqr (doit rho a)
  | CSqrt a => CSqrt (doit rho a)
  | CExp a => CExp (doit rho a)
  | CAbs2 a => CAbs2 (doit rho a)
  | CDelta a b =>
      match hdoit rho a, hdoit rho b with
      | HVal x, HVal y => if x =? y then CNum 1 else CNum 0
      | a', b' => CDelta a' b'
      end
  | CSign a => CSign (hdoit rho a)
  | CWigner j m m' t => CWigner j (hdoit rho m) (hdoit rho m') t
  | CCG j1 m1 j2 m2 j3 m3 => CCG j1 (hdoit rho m1) j2 (hdoit rho m2) j3 (hdoit rho m3)
  | CSum e pools => CAddL (map (fun rho' => doit rho' e) (assignments pools rho))
  | CFormFactor s m1 m2 L r => CFormFactor (doit rho s) (doit rho m1) (doit rho m2) L (doit rho r)
  | CBreakup s m1 m2 => CBreakup (doit rho s) (doit rho m1) (doit rho m2)
  end.

(** The value of an index that is a number or a text *)
(** Keys of the amplitudes, __init__.py:54-55 (SymPy Indexed). *)
Definition index_value (i : iexpr) : option ival :=
  match i with
  | XStr s => Some (IStr s)
  | XHel (HVal z) => Some (IHel z)
  | XHel _ => None
  end.
(** Keys of the amplitudes, __init__.py:54-55 (SymPy Indexed). *)
Fixpoint index_values (l : list iexpr) : option (list ival) :=
  match l with
  | [] => Some []
  | i :: l =>
      match index_value i, index_values l with
      | Some v, Some vs => Some (v :: vs)
      | _, _ => None
      end
  end.
(** [expr.xreplace(amplitudes)]: the keys are indexed symbols with numbers as indices *)
(** SymPy [xreplace], called at __init__.py:55. *)
Fixpoint xreplace (amps : dict akey cexpr) (e : cexpr) : cexpr :=
  match e with
  | CIdx b idx =>
      match index_values idx with
      | Some vs => match dget (b, vs) amps with Some e' => e' | None => CIdx b idx end
      | None => CIdx b idx
      end
  | CAdd a b => CAdd (xreplace amps a) (xreplace amps b)
  | CSub a b => CSub (xreplace amps a) (xreplace amps b)
  | CMul a b => CMul (xreplace amps a) (xreplace amps b)
  | CDiv a b => CDiv (xreplace amps a) (xreplace amps b)
  | CNeg a => CNeg (xreplace amps a)
  | CSqr a => CSqr (xreplace amps a)
  | CSqrt a => CSqrt (xreplace amps a)
  | CExp a => CExp (xreplace amps a)
  | CAbs2 a => CAbs2 (xreplace amps a)
  | CSum e pools => CSum (xreplace amps e) pools
  | CFormFactor s m1 m2 L r => CFormFactor (xreplace amps s) (xreplace amps m1) (xreplace amps m2) L (xreplace amps r)
  | CBreakup s m1 m2 => CBreakup (xreplace amps s) (xreplace amps m1) (xreplace amps m2)
  | CRat _ | CIm | CVar _ | CDelta _ _ | CSign _ | CWigner _ _ _ _ | CCG _ _ _ _ _ _ => e
  end.

(** __init__.py:52-55 [full_expression] *)
Definition full_expression (m : model) : cexpr :=
  xreplace (map (fun kv => (fst kv, doit [] (snd kv))) (m_amplitudes m)) (doit [] (m_intensity m)).
