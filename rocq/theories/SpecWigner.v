(** Specification of helicity frames: rotations, boosts and their spinor matrices (C131) *)
From Coq Require Import ZArith Reals List.
From Verif Require Import Prelude Expr SpecKin Angles.
Import ListNotations.
Local Open Scope R_scope.

(** ** Lorentz transformations *)
(** Rotation by [a] about the y axis, from the z axis towards the x axis *)
Definition rot_y (a : R) (v : vec4) : vec4 :=
  V4 (vE v) (V3 (cos a * vx (vp v) + sin a * vz (vp v)) (vy (vp v)) (cos a * vz (vp v) - sin a * vx (vp v))).
(** Boost along the z axis that gives a particle of mass [m] at rest the momentum [p] *)
Definition energy (m p : R) : R := sqrt (m * m + p * p).
Definition boost_z (m p : R) (v : vec4) : vec4 :=
  V4 (energy m p / m * vE v + p / m * vz (vp v))
     (V3 (vx (vp v)) (vy (vp v)) (energy m p / m * vz (vp v) + p / m * vE v)).
Definition at_rest (m : R) : vec4 := V4 m zero3.

(** ** Their spinor matrices *)
Record mat2 := M2 { m11 : R; m12 : R; m21 : R; m22 : R }.
Definition mul2 (a b : mat2) : mat2 :=
  M2 (m11 a * m11 b + m12 a * m21 b) (m11 a * m12 b + m12 a * m22 b)
     (m21 a * m11 b + m22 a * m21 b) (m21 a * m12 b + m22 a * m22 b).
Definition scale2 (t : R) (a : mat2) : mat2 := M2 (t * m11 a) (t * m12 a) (t * m21 a) (t * m22 a).
(** exp(-i a sigma_y / 2) *)
Definition spinor_rot (a : R) : mat2 := M2 (cos (a / 2)) (- sin (a / 2)) (sin (a / 2)) (cos (a / 2)).
(** exp(eta sigma_z / 2) with the rapidity [eta] of a particle with mass [m] and momentum [p] *)
Definition spinor_boost (m p : R) : mat2 := M2 (sqrt ((energy m p + p) / m)) 0 0 (sqrt ((energy m p - p) / m)).
(** The Lorentz transformation of a spinor matrix: it takes the matrix ((E + z, x), (x, E - z)) to its product with the spinor matrix
    from the left and with the transposed spinor matrix from the right. *)
Definition transform (l : mat2) (v : vec4) : vec4 :=
  let p := M2 (vE v + vz (vp v)) (vx (vp v)) (vx (vp v)) (vE v - vz (vp v)) in
  let q := mul2 (mul2 l p) (M2 (m11 l) (m21 l) (m12 l) (m22 l)) in
  V4 ((m11 q + m22 q) / 2) (V3 (m12 q) (vy (vp v)) ((m11 q - m22 q) / 2)).

(** ** Helicity frames *)
(** Break-up momentum of a decay of a particle with squared mass [s] *)
Definition momentum (s m1 m2 : R) : R := sqrt (kallen s (m1 * m1) (m2 * m2)) / (2 * sqrt s).
Definition mass_at (env : symbol -> R) (i : Z) : R :=
  if Z.eqb i 0 then at_m0 env else pick i (at_m1 env) (at_m2 env) (at_m3 env).
Definition sigma_val (env : symbol -> R) (i : Z) : R := pick i (at_s1 env) (at_s2 env) (at_s3 env).
(** The momentum of the spectator [k] and of the decay products in the rest frame of their pair *)
Definition spectator_momentum (env : symbol -> R) (k : Z) : R :=
  momentum (mass_at env 0 * mass_at env 0) (mass_at env k) (sqrt (sigma_val env k)).
Definition product_momentum (env : symbol -> R) (k : Z) : R :=
  momentum (sigma_val env k) (mass_at env (next_label k)) (mass_at env (next_label (next_label k))).

(** Chain [k] (with spectator [k] and the pair ij, where ijk are in cyclic order): the pair moves along the z axis in the rest frame of
    particle 0, particle i is at the scattering angle [theta] in the rest frame of the pair, j is opposite to i. The helicity frame of a
    particle is reached from the rest frame of particle 0 by the rotations and boosts along the chain. *)
Definition helicity_frame (env : symbol -> R) (k : Z) (theta : R) (i : Z) (v : vec4) : vec4 :=
  if Z.eqb i k then rot_y PI (boost_z (mass_at env k) (spectator_momentum env k) v)
  else boost_z (sqrt (sigma_val env k)) (spectator_momentum env k)
    (rot_y theta ((if Z.eqb i (next_label k) then fun v => v else rot_y PI)
      (boost_z (mass_at env i) (product_momentum env k) v))).
Definition spinor_frame (env : symbol -> R) (k : Z) (theta : R) (i : Z) : mat2 :=
  if Z.eqb i k then mul2 (spinor_rot PI) (spinor_boost (mass_at env k) (spectator_momentum env k))
  else mul2 (spinor_boost (sqrt (sigma_val env k)) (spectator_momentum env k))
    (mul2 (spinor_rot theta) ((if Z.eqb i (next_label k) then fun l => l else mul2 (spinor_rot PI))
      (spinor_boost (mass_at env i) (product_momentum env k)))).
(** The scattering angle of chain [k] *)
Definition scattering_angle (env : symbol -> R) (k : Z) (theta : R) : Prop :=
  exists x e, formulate_scattering_angle (next_label k) (next_label (next_label k)) = Ok (x, e) /\ theta = reval env e.
(** The sign of spinors: - if the particle is the spectator in neither of two different chains *)
Definition frame_sign (i k r : Z) : R := if Z.eqb i k then 1 else if Z.eqb i r then 1 else if Z.eqb k r then 1 else -1.
