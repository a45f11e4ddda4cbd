(** Wigner's small d functions: the value of [sympy.physics.quantum.spin.Rotation.d]
    (SymPy is not part of /repo; this is a trusted definition).  Explicit formula
    [Varshalovich 4.3.1 (2)] in the convention of SymPy, where
    d^{1/2}_{1/2,-1/2}(beta) = - sin(beta/2). *)
From Coq Require Import ZArith List Bool Reals Arith.
From Verif Require Import Sums.
Import ListNotations.
Local Open Scope R_scope.

(** In terms of natural numbers n = 2j, a = j+m, b = j+m'. *)
Definition wd_term (n a b : nat) (c s : R) (i : nat) : R :=
  if ((i <=? a) && (i <=? b) && (a + b <=? n + i))%nat
  then (-1) ^ (a - i) * c ^ (2 * i + n - a - b) * s ^ (a + b - 2 * i)
       / (INR (fact i) * INR (fact (a - i)) * INR (fact (b - i)) * INR (fact (n + i - a - b)))
  else 0.
Definition wd (n a b : nat) (beta : R) : R :=
  sqrt (INR (fact a) * INR (fact (n - a)) * INR (fact b) * INR (fact (n - b)))
  * Rsum (seq 0 (S n)) (wd_term n a b (cos (beta / 2)) (sin (beta / 2))).

(** [m] is a projection of spin [j] (all doubled). *)
Definition is_projection (j m : Z) : bool :=
  ((- j <=? m) && (m <=? j) && Z.even (j - m))%Z.

(** [Rotation.d(j, m, m', beta).doit()] with doubled [j], [m], [m'].  Outside the
    range of projections the value is 0. *)
Definition wigner_d (j m m' : Z) (beta : R) : R :=
  if (is_projection j m && is_projection j m')%bool
  then wd (Z.to_nat j) (Z.to_nat ((j + m) / 2)) (Z.to_nat ((j + m') / 2)) beta
  else 0.
