(** Specification of partial waves with orbital angular momentum L and total spin S (C134) *)
From Coq Require Import ZArith Bool Reals List.
From Coquelicot Require Import Complex.
From Verif Require Import Prelude Expr Spin Decay Sums Wigner CG SpecSpin SpecKin SpecDPD SpecWigner SpecCovariant.
Import ListNotations.
Local Open Scope R_scope.

(** The orbital wave in the direction that is at the angle [theta] from the z axis towards the x axis:
    the spherical harmonic sqrt(4 pi/(2L + 1)) Y_{L m}(theta, 0) *)
Definition orbital (L m : Z) (theta : R) : R := wigner_d (2 * L) m 0 theta.
(** Decay of a particle with spin J and projection M to two particles with spins j1, j2 and projections s1, s2 on the same axis; in the
    rest frame of the decaying particle the first of them moves in the direction [theta]. The spins of the two add up to the total spin
    S, which adds up with L to J. *)
Definition wave (J : Z) (c : ls_coupling) (j1 j2 : Z) (theta : R) (M s1 s2 : Z) : R :=
  sqrt (IZR (2 * ls_L c + 1) / IZR (J + 1)) *
  Rsum (helicities (2 * ls_L c)) (fun mL => Rsum (helicities (ls_S c)) (fun mS =>
    orbital (ls_L c) mL theta * cg (2 * ls_L c) mL (ls_S c) mS J M * cg j1 s1 j2 s2 (ls_S c) mS)).
(** The convention for the order of the decay products of a node: (-1)^(L + S - J) if they are listed in the other order *)
Definition node_sign (in_order : bool) (J : Z) (c : ls_coupling) : R :=
  if in_order then 1 else parity_sign (2 * ls_L c + ls_S c - J).
(** The chain with spectator k: particle 0 decays to the resonance, which moves along the z axis, and k; the resonance with projection mu
    decays to i, which is at [theta] in the rest frame of the resonance, and j. [t] are the spin projections of the four particles on the
    z axis. *)
Definition chain_wave (s : Z -> state) (c : chain) (i j k : Z) (theta : R) (t : Z * Z * Z * Z) : R :=
  match ch_incoming_ls c, ch_outgoing_ls c with
  | Some p, Some q =>
      let J0 := p_spin (s 0%Z) in let JR := p_spin (ch_resonance c) in
      node_sign (resonance_first c) J0 p * node_sign (Z.eqb (st_index (fst (ch_decay_products c))) i) JR q
      * Rsum (helicities JR) (fun mu =>
          wave J0 p JR (p_spin (s k)) 0 (at4 t 0) mu (at4 t k)
          * wave JR q (p_spin (s i)) (p_spin (s j)) theta mu (at4 t i) (at4 t j))
  | _, _ => 0
  end.
(** The rotations of the helicity frames of chain [k] *)
Definition turns (k : Z) (theta : R) (n : Z) : mat2 :=
  if Z.eqb n 0 then one2
  else if Z.eqb n k then spinor_rot PI
  else if Z.eqb n (next_label k) then spinor_rot theta else spinor_rot (theta + PI).
(** Boosts without rotation are represented by symmetric matrices with positive diagonal and determinant 1. *)
Definition pure_boost (l : mat2) : Prop :=
  m12 l = m21 l /\ 0 < m11 l /\ 0 < m22 l /\ m11 l * m22 l - m12 l * m21 l = 1.
(** The boost that takes a particle of mass [m] at rest to the momentum [p] in the direction [theta] *)
Definition boost_to (theta m p : R) : mat2 := mul2 (spinor_rot theta) (mul2 (spinor_boost m p) (spinor_rot (- theta))).
(** The boosts along chain [k]: to the spectator, or to the resonance and from there to its decay product *)
Definition boosts (env : symbol -> R) (k : Z) (theta : R) (n : Z) : mat2 :=
  if Z.eqb n 0 then one2
  else if Z.eqb n k then boost_to PI (mass_at env k) (spectator_momentum env k)
  else mul2 (boost_to 0 (sqrt (sigma_val env k)) (spectator_momentum env k))
            (boost_to (if Z.eqb n (next_label k) then theta else theta + PI) (mass_at env n) (product_momentum env k)).
