(** Specification of amplitudes in one frame for all particles: representations of spinor matrices (C132) *)
From Coq Require Import ZArith Bool Reals List.
From Coquelicot Require Import Complex.
From Verif Require Import Prelude Expr Spin Decay Sums SpecSpin SpecKin SpecDPD SpecWigner.
Import ListNotations.
Local Open Scope R_scope.

(** ** Spin *)
(** The state with spin j/2 and projection m/2 as a product of spinor components: x and y are the components for projection 1/2 and -1/2 *)
Definition up (j m : Z) : nat := Z.to_nat ((j + m) / 2).
Definition down (j m : Z) : nat := Z.to_nat ((j - m) / 2).
Definition weight (j m : Z) : R := sqrt (INR (fact (up j m)) * INR (fact (down j m))).
Definition spin_state (j m : Z) (x y : R) : R := x ^ up j m * y ^ down j m / weight j m.
(** The matrix D^j_{m,m'} of a spinor matrix [l] for spin j/2: [k] of the factors x are from the spinors with projection 1/2. *)
Definition choose (n k : nat) : R := INR (fact n) / (INR (fact k) * INR (fact (n - k))).
Definition spin_matrix (j : Z) (l : mat2) (m m' : Z) : R :=
  weight j m / weight j m' *
  Rsum (seq 0 (S (Z.to_nat j))) (fun k =>
    if ((k <=? up j m) && (k <=? up j m') && (up j m - k <=? down j m'))%nat
    then choose (up j m') k * m11 l ^ k * m21 l ^ (up j m' - k)
         * (choose (down j m') (up j m - k) * m12 l ^ (up j m - k) * m22 l ^ (down j m' - (up j m - k)))
    else 0).

(** ** Amplitudes *)
(** An amplitude has an index for each of the four particles. Its components if the spin of particle i is quantised in the frame which
    is reached by the spinor matrix [F i]. *)
Definition spin_matrices (s : Z -> state) (F : Z -> mat2) (t l : Z * Z * Z * Z) : R :=
  spin_matrix (p_spin (s 0%Z)) (F 0%Z) (at4 t 0) (at4 l 0) * spin_matrix (p_spin (s 1%Z)) (F 1%Z) (at4 t 1) (at4 l 1)
  * spin_matrix (p_spin (s 2%Z)) (F 2%Z) (at4 t 2) (at4 l 2) * spin_matrix (p_spin (s 3%Z)) (F 3%Z) (at4 t 3) (at4 l 3).
Definition in_frames (s : Z -> state) (F : Z -> mat2) (T : Z * Z * Z * Z -> C) (l : Z * Z * Z * Z) : C :=
  Csum (tuples s) (fun t => T t * RtoC (spin_matrices s F t l))%C.
(** The amplitude of an event that is turned by [a] about the y axis *)
Definition turned_amplitude (s : Z -> state) (a : R) (T : Z * Z * Z * Z -> C) : Z * Z * Z * Z -> C :=
  in_frames s (fun _ => spinor_rot (- a)) T.
(** The frames of chain [k]: particle 0 is at rest, the others are in their helicity frames. *)
Definition one2 : mat2 := M2 1 0 0 1.
Definition chain_frames (env : symbol -> R) (k : Z) (theta : R) (i : Z) : mat2 :=
  if Z.eqb i 0 then one2 else spinor_frame env k theta i.
(** The sign of the amplitude of chain k: each particle with half-integer spin contributes the sign of its spinors. *)
Definition chain_sign (s : Z -> state) (k r : Z) : R :=
  frame_sign 1 k r ^ Z.to_nat (p_spin (s 1%Z)) * frame_sign 2 k r ^ Z.to_nat (p_spin (s 2%Z))
  * frame_sign 3 k r ^ Z.to_nat (p_spin (s 3%Z)).
(** The matrix of a momentum divided by the mass: the sum over the spin states of a particle *)
Definition momentum_matrix (m : R) (p : vec4) : mat2 :=
  M2 ((vE p + vz (vp p)) / m) (vx (vp p) / m) (vx (vp p) / m) ((vE p - vz (vp p)) / m).
Definition momentum_matrices (env : symbol -> R) (p : Z -> vec4) (i : Z) : mat2 :=
  if Z.eqb i 0 then one2 else momentum_matrix (mass_at env i) (p i).
