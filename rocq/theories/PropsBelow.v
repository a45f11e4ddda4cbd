(** C150: resonances below the threshold of their decay products. The vocabulary is in SpecClosed.v and SpecUnitary.v. *)
From Coq Require Import String ZArith QArith Qcanon List Bool Reals.
From Coquelicot Require Import Complex.
From Verif Require Import Prelude Decay Expr Sums CExpr Builder Dynamics SpecDynamics SpecFinite SpecHankel SpecUnitary SpecClosed BelowProofs.
Import ListNotations.
Local Open Scope R_scope.

(** ** C150: a resonance absorbs above the threshold of its decay products, also if its mass is below that threshold. *)
(** With a constant width, and in the first channel of FlattéSWave, whatever the threshold of that channel. (Missing: it does not
    with an energy-dependent width.) *)
Theorem C150_constant_width_partial ev h s m G xs xm xG : ceval ev h s = RtoC xs -> ceval ev h m = RtoC xm -> ceval ev h G = RtoC xG ->
  0 < xm -> 0 < xG -> 0 < Im (ceval ev h (simple_breit_wigner s m G)).
Proof. exact (constant_absorbs ev h s m G xs xm xG). Qed.
Print Assumptions C150_constant_width_partial.
Theorem C150_flatte_partial ev h s m w1 w2 a1 b1 a2 b2 xs xm y1 y2 xa1 xb1 xa2 xb2 :
  ceval ev h s = RtoC xs -> flatte_real ev h m w1 w2 a1 b1 a2 b2 xm y1 y2 xa1 xb1 xa2 xb2 ->
  (xa1 + xb1) * (xa1 + xb1) < xs -> 0 < y1 -> 0 < Im (ceval ev h (flatte_s_wave s m w1 w2 a1 b1 a2 b2)).
Proof. exact (flatte_absorbs ev h s m w1 w2 a1 b1 a2 b2 xs xm y1 y2 xa1 xb1 xa2 xb2). Qed.
Print Assumptions C150_flatte_partial.

(** BreitWigner and RelativisticBreitWigner are real above the threshold if their mass is below it: nothing is absorbed, for
    all angular momenta and at all energies. *)
Theorem C150_real_refuted ev h s m G m1 m2 d xs xm xG a b r L :
  ceval ev h s = RtoC xs -> below_threshold ev h m G m1 m2 d xm xG a b r -> (a + b) * (a + b) < xs ->
  Im (ceval ev h (breit_wigner s m G m1 m2 L d phase_space_factor)) = 0 /\
  Im (ceval ev h (relativistic_breit_wigner s m G m1 m2 L d phase_space_factor)) = 0.
Proof. exact (below_real ev h s m G m1 m2 d xs xm xG a b r L). Qed.
Print Assumptions C150_real_refuted.
(** The width only moves the pole: S waves have none above the threshold, ... *)
Theorem C150_s_wave ev h s m G m1 m2 d xs xm xG a b r L :
  ceval ev h s = RtoC xs -> below_threshold ev h m G m1 m2 d xm xG a b r -> (a + b) * (a + b) < xs -> L = 0%Z ->
  exists w, 0 < w /\ ceval ev h (breit_wigner s m G m1 m2 L d phase_space_factor) = RtoC (- / (xs - xm * xm + w)) /\ - / (xs - xm * xm + w) < 0.
Proof. exact (below_s_wave ev h s m G m1 m2 d xs xm xG a b r L). Qed.
Print Assumptions C150_s_wave.
(** ... but P waves can have a pole at any value of s above the threshold. *)
Theorem C150_pole_refuted s m a b r : 0 < m -> 0 <= a -> 0 <= b -> 0 < r -> channel_closed (m * m) a b -> bound_momentum (m * m) a b * r < 1 ->
  (a + b) * (a + b) < s -> exists G, 0 < G /\ ~ no_pole (bt_env s m G a b r)
    (relativistic_breit_wigner (CVar (bt "s")) (CVar (bt "m")) (CVar (bt "G")) (CVar (bt "a")) (CVar (bt "b")) 1 (CVar (bt "r")) phase_space_factor).
Proof. exact (below_pole s m a b r). Qed.
Print Assumptions C150_pole_refuted.

(** A resonance of mass 1 and width 5 that decays to two particles of mass 1, at s = 9 *)
Example C150_example : below_threshold (bt_env 9 1 5 1 1 1) (fun _ => 0%Z) (CVar (bt "m")) (CVar (bt "G")) (CVar (bt "a")) (CVar (bt "b")) (CVar (bt "r")) 1 5 1 1 1 /\
  (1 + 1) * (1 + 1) < 9 /\ bound_momentum (1 * 1) 1 1 * 1 < 1.
Proof. exact bt_example. Qed.
