(** Complex-valued SymPy expressions as used for amplitudes, intensities and
    lineshapes, with their value after [doit()].  As in Expr.v, SymPy's automatic
    rewriting is not modelled: expressions are compared through their values and the
    symbols that occur in them. *)
From Coq Require Import String ZArith QArith Qcanon Qreals List Bool Reals.
From Coquelicot Require Import Complex.
From Verif Require Import Prelude Spin Expr Sums Wigner CG.
Import ListNotations.
Local Open Scope string_scope.
Local Open Scope Z_scope.
Local Open Scope list_scope.

(** ** Helicities: doubled half-integers, possibly symbolic *)
(** SymPy expressions of helicities in __init__.py:193, 214-219, 408 and io/serialization/amplitude.py:149, 405-406. *)
Inductive hexpr :=
| HVal (z : Z)
| HVar (s : symbol)
| HSub (a b : hexpr)
| HNeg (a : hexpr).
(** Value of a SymPy expression of helicities. *)
Fixpoint heval (h : symbol -> Z) (e : hexpr) : Z :=
  match e with
  | HVal z => z
  | HVar s => h s
  | HSub a b => heval h a - heval h b
  | HNeg a => - heval h a
  end.
(** Assignment of a value to a helicity symbol (SymPy [xreplace], [PoolSum.evaluate] of ampform). *)
Definition upd (h : symbol -> Z) (s : symbol) (z : Z) : symbol -> Z :=
  fun s' => if eqb s' s then z else h s'.

(** ** Indices of [sp.Indexed]: strings ([Str]) and (half-)integers, doubled *)
(** Indices of SymPy [Indexed] symbols: __init__.py:244, 272, 358, 362. *)
Inductive ival := IStr (s : string) | IHel (z : Z).
(** Indices of SymPy [Indexed] symbols: __init__.py:244, 272, 358, 362. *)
Inductive iexpr := XStr (s : string) | XHel (e : hexpr).
(** Value of an index of a SymPy [Indexed] symbol. *)
Definition ieval (h : symbol -> Z) (i : iexpr) : ival :=
  match i with XStr s => IStr s | XHel e => IHel (heval h e) end.
Global Instance EqDec_ival : EqDec ival.
Proof. unfold EqDec; decide equality; apply eq_dec. Defined.

(** ** Complex functions (principal branches) *)
(** SymPy [sp.sqrt] of a complex number, dynamics/__init__.py:74, 124-125, 164. *)
Definition csqrt (z : C) : C :=
  (sqrt ((Cmod z + Re z) / 2),
   if Rlt_dec (Im z) 0 then (- sqrt ((Cmod z - Re z) / 2))%R else sqrt ((Cmod z - Re z) / 2)).
(** SymPy [sp.exp] of a complex number, dynamics/__init__.py:102. *)
Definition cexp (z : C) : C := ((exp (Re z) * cos (Im z))%R, (exp (Re z) * sin (Im z))%R).
(** SymPy power with a natural exponent, dynamics/__init__.py:51. *)
Fixpoint cpow (z : C) (n : nat) : C :=
  match n with O => RtoC 1 | S n => (z * cpow z n)%C end.
(** (-1)**(z/2) = exp(i pi z/2) = i**z *)
(** SymPy [(-1) ** (spin[k] - λ[k])], __init__.py:215, 219. *)
Definition csign (z : Z) : C :=
  match z mod 4 with
  | 0 => RtoC 1
  | 1 => Ci
  | 2 => (- RtoC 1)%C
  | _ => (- Ci)%C
  end.

(** ampform.dynamics: Blatt-Weisskopf form factors.  B_L^2(z) = z^L P_L(1)/P_L(z), where
    P_L(z) = z^L z |h_L(sqrt z)|^2 with the spherical Hankel function h_L
    [Abramowitz-Stegun 10.1.27]; P_1 = 1+z, P_2 = 9+3z+z^2. *)
(** Library ampform, [BlattWeisskopfSquared], through [FormFactor] at dynamics/__init__.py:10. *)
Definition bw_coeff (n k : nat) : R :=
  (INR (fact (2 * n - k)) * INR (fact (2 * n - 2 * k))
   / (INR (fact k) * INR (fact (n - k)) * INR (fact (n - k)) * 4 ^ (n - k)))%R.
(** Library ampform, [BlattWeisskopfSquared], through [FormFactor] at dynamics/__init__.py:10. *)
Definition bw_poly (n : nat) (z : C) : C :=
  Csum (seq 0 (S n)) (fun k => (RtoC (bw_coeff n k) * cpow z k)%C).
(** Library ampform, [BlattWeisskopfSquared], through [FormFactor] at dynamics/__init__.py:10. *)
Definition blatt_weisskopf_squared (n : nat) (z : C) : C :=
  (cpow z n * bw_poly n (RtoC 1) / bw_poly n z)%C.
(** ampform.dynamics.phasespace.BreakupMomentumSquared *)
(** Library ampform, through [BreakupMomentum] and [FormFactor] at dynamics/__init__.py:10-12. *)
Definition breakup_squared (s m1 m2 : C) : C :=
  ((s - (m1 + m2) * (m1 + m2)) * (s - (m1 - m2) * (m1 - m2)) / (RtoC 4 * s))%C.

(** SymPy expressions as far as they occur in __init__.py:144-155, 213-245, 270-283, 402-419, dynamics/__init__.py and io/serialization/amplitude.py:145-151, 359-407. *)
Inductive cexpr :=
| CRat (q : Qc)
| CIm                                            (* sp.I *)
| CVar (s : symbol)
| CIdx (base : string) (idx : list iexpr)        (* sp.IndexedBase(base)[idx] *)
| CAdd (a b : cexpr)
| CSub (a b : cexpr)
| CMul (a b : cexpr)
| CDiv (a b : cexpr)
| CNeg (a : cexpr)
| CSqr (a : cexpr)                               (* a**2 *)
| CSqrt (a : cexpr)
| CExp (a : cexpr)
| CAbs2 (a : cexpr)                              (* sp.Abs(a)**2 *)
| CDelta (a b : hexpr)                           (* sp.KroneckerDelta *)
| CSign (a : hexpr)                              (* (-1)**a *)
| CWigner (j : Z) (m m' : hexpr) (angle : symbol)  (* Wigner.d *)
| CCG (j1 : Z) (m1 : hexpr) (j2 : Z) (m2 : hexpr) (j3 : Z) (m3 : hexpr)
| CSum (e : cexpr) (pools : list (symbol * list Z))  (* ampform.sympy.PoolSum *)
| CFormFactor (s m1 m2 : cexpr) (L : Z) (r : cexpr)  (* ampform.dynamics.form_factor.FormFactor *)
| CBreakup (s m1 m2 : cexpr).                    (* ampform.dynamics.phasespace.BreakupMomentum *)

(** Values of free symbols and of indexed symbols. *)
(** Not in /repo: the values at which a SymPy expression is evaluated (tensorwaves does this in io/cached.py:91-93). *)
Record env := Env { e_sym : symbol -> C; e_idx : string -> list ival -> C }.

(** [PoolSum.evaluate]: sum over the product of the pools. *)
(** Library ampform, [PoolSum], used at __init__.py:144, 238, 270. *)
Fixpoint psum (f : (symbol -> Z) -> C) (pools : list (symbol * list Z)) (h : symbol -> Z) : C :=
  match pools with
  | [] => f h
  | (s, vals) :: ps => Csum vals (fun v => psum f ps (upd h s v))
  end.

(** Value of a SymPy expression after [doit] (__init__.py:52-55); numbers are exact, not floats. *)
Fixpoint ceval (ev : env) (h : symbol -> Z) (e : cexpr) : C :=
  match e with
  | CRat q => RtoC (Q2R q)
  | CIm => Ci
  | CVar s => e_sym ev s
  | CIdx b idx => e_idx ev b (map (ieval h) idx)
  | CAdd a b => (ceval ev h a + ceval ev h b)%C
  | CSub a b => (ceval ev h a - ceval ev h b)%C
  | CMul a b => (ceval ev h a * ceval ev h b)%C
  | CDiv a b => (ceval ev h a / ceval ev h b)%C
  | CNeg a => (- ceval ev h a)%C
  | CSqr a => (ceval ev h a * ceval ev h a)%C
  | CSqrt a => csqrt (ceval ev h a)
  | CExp a => cexp (ceval ev h a)
  | CAbs2 a => RtoC (Cmod (ceval ev h a) ^ 2)
  | CDelta a b => if heval h a =? heval h b then RtoC 1 else RtoC 0
  | CSign a => csign (heval h a)
  | CWigner j m m' angle => RtoC (wigner_d j (heval h m) (heval h m') (Re (e_sym ev angle)))
  | CCG j1 m1 j2 m2 j3 m3 => RtoC (cg j1 (heval h m1) j2 (heval h m2) j3 (heval h m3))
  | CSum e pools => psum (fun h => ceval ev h e) pools h
  | CFormFactor s m1 m2 L r =>
      let r := ceval ev h r in
      csqrt (blatt_weisskopf_squared (Z.to_nat L)
               (breakup_squared (ceval ev h s) (ceval ev h m1) (ceval ev h m2) * (r * r))%C)
  | CBreakup s m1 m2 => csqrt (breakup_squared (ceval ev h s) (ceval ev h m1) (ceval ev h m2))
  end.

(** ** What occurs in an expression after [doit()] *)
(** Not in /repo: kinds of SymPy symbols, used in the statements. *)
Inductive okey :=
| OVar (s : symbol)                        (* a free symbol *)
| OAngle (s : symbol)                      (* a free symbol that is an angle of a Wigner function *)
| OIdx (base : string) (idx : list ival).  (* an indexed symbol with concrete indices *)
Global Instance EqDec_okey : EqDec okey.
Proof. unfold EqDec; decide equality; apply eq_dec. Defined.

(** A product with a vanishing Kronecker delta is 0 in SymPy: nothing occurs in it. *)
Fixpoint vanishes (h : symbol -> Z) (e : cexpr) : bool :=
  match e with
  | CDelta a b => negb (heval h a =? heval h b)
  | CMul a b => vanishes h a || vanishes h b
  | _ => false
  end.
(** Not in /repo: union over the terms of a [PoolSum] (ampform), used in the statements. *)
Fixpoint pool_flat {A} (f : (symbol -> Z) -> list A) (pools : list (symbol * list Z))
  (h : symbol -> Z) : list A :=
  match pools with
  | [] => f h
  | (s, vals) :: ps => flat_map (fun v => pool_flat f ps (upd h s v)) vals
  end.
(** SymPy [free_symbols] after [doit], used in the statements about __init__.py:42-55. *)
Fixpoint occ (h : symbol -> Z) (e : cexpr) : list okey :=
  match e with
  | CRat _ | CIm | CDelta _ _ | CSign _ | CCG _ _ _ _ _ _ => []
  | CVar s => [OVar s]
  | CIdx b idx => [OIdx b (map (ieval h) idx)]
  | CAdd a b | CSub a b | CDiv a b => occ h a ++ occ h b
  | CMul a b => if vanishes h a || vanishes h b then [] else occ h a ++ occ h b
  | CNeg a | CSqr a | CSqrt a | CExp a | CAbs2 a => occ h a
  | CWigner _ _ _ angle => [OAngle angle]
  | CSum e pools => pool_flat (fun h => occ h e) pools h
  | CFormFactor s m1 m2 _ r => occ h s ++ occ h m1 ++ occ h m2 ++ occ h r
  | CBreakup s m1 m2 => occ h s ++ occ h m1 ++ occ h m2
  end.

(** ** [PoolSum.cleanup] *)
(** [xreplace] of one helicity symbol by a value; it does not enter sums that bind
    the same symbol (this does not occur: the bound symbols are all different). *)
(** SymPy [xreplace], in [PoolSum.cleanup] of ampform (__init__.py:143, 149). *)
Fixpoint hsub (s : symbol) (z : Z) (e : hexpr) : hexpr :=
  match e with
  | HVal v => HVal v
  | HVar s' => if eqb s' s then HVal z else HVar s'
  | HSub a b => HSub (hsub s z a) (hsub s z b)
  | HNeg a => HNeg (hsub s z a)
  end.
(** SymPy [xreplace] in an index. *)
Definition isub (s : symbol) (z : Z) (i : iexpr) : iexpr :=
  match i with XStr t => XStr t | XHel e => XHel (hsub s z e) end.
(** SymPy [xreplace], in [PoolSum.cleanup] of ampform (__init__.py:143, 149). *)
Fixpoint csub (s : symbol) (z : Z) (e : cexpr) : cexpr :=
  match e with
  | CRat _ | CIm | CVar _ => e
  | CIdx b idx => CIdx b (map (isub s z) idx)
  | CAdd a b => CAdd (csub s z a) (csub s z b)
  | CSub a b => CSub (csub s z a) (csub s z b)
  | CMul a b => CMul (csub s z a) (csub s z b)
  | CDiv a b => CDiv (csub s z a) (csub s z b)
  | CNeg a => CNeg (csub s z a)
  | CSqr a => CSqr (csub s z a)
  | CSqrt a => CSqrt (csub s z a)
  | CExp a => CExp (csub s z a)
  | CAbs2 a => CAbs2 (csub s z a)
  | CDelta a b => CDelta (hsub s z a) (hsub s z b)
  | CSign a => CSign (hsub s z a)
  | CWigner j m m' t => CWigner j (hsub s z m) (hsub s z m') t
  | CCG j1 m1 j2 m2 j3 m3 => CCG j1 (hsub s z m1) j2 (hsub s z m2) j3 (hsub s z m3)
  | CSum e pools => if memb s (map fst pools) then CSum e pools else CSum (csub s z e) pools
  | CFormFactor a m1 m2 L r => CFormFactor (csub s z a) (csub s z m1) (csub s z m2) L (csub s z r)
  | CBreakup a m1 m2 => CBreakup (csub s z a) (csub s z m1) (csub s z m2)
  end.
(** ampform.sympy.PoolSum.cleanup: drop indices without values, substitute indices with
    a single value; without remaining indices the bare expression is returned. *)
(** Library ampform, used at __init__.py:143, 149. *)
Fixpoint cleanup_pools (e : cexpr) (pools : list (symbol * list Z)) : cexpr * list (symbol * list Z) :=
  match pools with
  | [] => (e, [])
  | (s, vals) :: ps =>
      let (e', ps') := cleanup_pools e ps in
      match vals with
      | [] => (e', ps')
      | [z] => (csub s z e', ps')
      | _ => (e', (s, vals) :: ps')
      end
  end.
(** Library ampform, [PoolSum.cleanup], used at __init__.py:143, 149. *)
Definition cleanup (e : cexpr) : cexpr :=
  match e with
  | CSum e pools =>
      match cleanup_pools e pools with
      | (e', []) => e'
      | (e', ps) => CSum e' ps
      end
  | _ => e
  end.

(** ** Expressions built by Python's arithmetic *)
Definition CNum (z : Z) : cexpr := CRat (Qc_of_Z z).
(** [sp.Add( *terms)] and [sum(terms)] *)
(** SymPy, used at __init__.py:245, 271. *)
Fixpoint CAddL (l : list cexpr) : cexpr :=
  match l with [] => CNum 0 | e :: l => CAdd e (CAddL l) end.
