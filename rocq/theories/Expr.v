(** Real-valued SymPy expressions as used in angles.py and the kinematics part of
    __init__.py, with their value.  SymPy's automatic rewriting is not modelled:
    expressions are only compared through their values and free symbols. *)
From Coq Require Import String ZArith List Bool Reals.
From Verif Require Import Prelude.
Import ListNotations.
Local Open Scope string_scope.
Local Open Scope Z_scope.
Local Open Scope list_scope.

(** Assumptions given to [sp.Symbol]. *)
(** The SymPy assumptions of the symbols in /repo (e.g. angles.py:32-39, __init__.py:183). *)
Inductive assumption := ANone | AReal | ANonneg | ARational.
(** SymPy symbols are equal iff name and assumptions are equal. *)
Record symbol := Sym { sname : string; sassume : assumption }.
Global Instance EqDec_assumption : EqDec assumption.
Proof. unfold EqDec; decide equality. Defined.
Global Instance EqDec_symbol : EqDec symbol.
Proof. unfold EqDec; decide equality; apply eq_dec. Defined.

(** SymPy expressions as far as they occur in angles.py:40-44, 66-76, 92-170 and __init__.py:529-537. *)
Inductive rexpr :=
| RNum (z : Z)
| RVar (s : symbol)
| RAdd (a b : rexpr)
| RSub (a b : rexpr)
| RMul (a b : rexpr)
| RDiv (a b : rexpr)
| ROpp (a : rexpr)
| RSq (a : rexpr)                (* a**2 *)
| RSqrt (a : rexpr)              (* sp.sqrt(a) *)
| RAcos (a : rexpr)              (* sp.acos(a) *)
| RKallen (a b c : rexpr).       (* ampform.kinematics.phasespace.Kallen *)

(** ampform: Kallen(x,y,z) = x^2 + y^2 + z^2 - 2xy - 2yz - 2zx *)
(** [Kallen] of the library ampform (ampform.kinematics.phasespace), used in angles.py:40-44. *)
Definition kallen (x y z : R) : R :=
  (x * x + y * y + z * z - 2 * x * y - 2 * y * z - 2 * z * x)%R.

(** The value of an expression.  [sqrt] of a negative number and [acos] outside
    [-1,1] are complex in SymPy; here they have Coq's default values.  Theorems
    that use the value carry hypotheses (or prove) that exclude these cases. *)
Fixpoint reval (env : symbol -> R) (e : rexpr) : R :=
  match e with
  | RNum z => IZR z
  | RVar s => env s
  | RAdd a b => (reval env a + reval env b)%R
  | RSub a b => (reval env a - reval env b)%R
  | RMul a b => (reval env a * reval env b)%R
  | RDiv a b => (reval env a / reval env b)%R
  | ROpp a => (- reval env a)%R
  | RSq a => (reval env a * reval env a)%R
  | RSqrt a => sqrt (reval env a)
  | RAcos a => acos (reval env a)
  | RKallen a b c => kallen (reval env a) (reval env b) (reval env c)
  end.

(** [free_symbols] of a SymPy expression; used in the statements about __init__.py:42-50. *)
Fixpoint rsyms (e : rexpr) : list symbol :=
  match e with
  | RNum _ => []
  | RVar s => [s]
  | RAdd a b | RSub a b | RMul a b | RDiv a b => rsyms a ++ rsyms b
  | ROpp a | RSq a | RSqrt a | RAcos a => rsyms a
  | RKallen a b c => rsyms a ++ rsyms b ++ rsyms c
  end.
