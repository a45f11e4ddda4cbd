(** Clebsch-Gordan coefficients: the value of [sympy.physics.quantum.cg.CG(...).doit()]
    (SymPy is not part of /repo; this is a trusted definition).  Racah's formula; all
    arguments are doubled; 0 for arguments that do not couple. *)
From Coq Require Import ZArith List Bool Reals.
From Verif Require Import Sums Wigner.
Import ListNotations.
Local Open Scope Z_scope.

Definition fz (z : Z) : R := INR (fact (Z.to_nat z)).

Definition triangle (j1 j2 j3 : Z) : bool :=
  (Z.abs (j1 - j2) <=? j3) && (j3 <=? j1 + j2) && Z.even (j1 + j2 - j3).
Definition cg_couples (j1 m1 j2 m2 j3 m3 : Z) : bool :=
  is_projection j1 m1 && is_projection j2 m2 && is_projection j3 m3
  && (m1 + m2 =? m3) && triangle j1 j2 j3.

(** the summand of Racah's formula; [k] is not doubled *)
Definition racah_term (j1 m1 j2 m2 j3 : Z) (k : nat) : R :=
  let kz := Z.of_nat k in
  let a := (j1 + j2 - j3) / 2 - kz in
  let b := (j1 - m1) / 2 - kz in
  let c := (j2 + m2) / 2 - kz in
  let d := (j3 - j2 + m1) / 2 + kz in
  let e := (j3 - j1 - m2) / 2 + kz in
  if (0 <=? a) && (0 <=? b) && (0 <=? c) && (0 <=? d) && (0 <=? e)
  then ((-1) ^ k / (fz kz * fz a * fz b * fz c * fz d * fz e))%R
  else 0%R.

Definition cg (j1 m1 j2 m2 j3 m3 : Z) : R :=
  if cg_couples j1 m1 j2 m2 j3 m3 then
    (sqrt (IZR (j3 + 1) * fz ((j3 + j1 - j2) / 2) * fz ((j3 - j1 + j2) / 2)
           * fz ((j1 + j2 - j3) / 2) / fz ((j1 + j2 + j3) / 2 + 1))
     * sqrt (fz ((j3 + m3) / 2) * fz ((j3 - m3) / 2) * fz ((j1 - m1) / 2)
             * fz ((j1 + m1) / 2) * fz ((j2 - m2) / 2) * fz ((j2 + m2) / 2))
     * Rsum (seq 0 (S (Z.to_nat ((j1 + j2 - j3) / 2)))) (racah_term j1 m1 j2 m2 j3))%R
  else 0%R.
