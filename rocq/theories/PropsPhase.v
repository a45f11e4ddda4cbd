(** C145: phases and threshold behaviour of the Breit-Wigner functions. The vocabulary is in SpecPhase.v, SpecUnitary.v and SpecHankel.v. *)
From Coq Require Import String ZArith QArith Qcanon List Bool Reals.
From Coquelicot Require Import Hierarchy Continuity Complex.
From Verif Require Import Prelude Decay Expr Sums CExpr Builder Dynamics SpecDynamics SpecHankel SpecUnitary ChannelProofs SpecPhase PhaseModels.
Import ListNotations.
Local Open Scope R_scope.

(** The phase of a Breit-Wigner with energy-dependent width: it starts with 0 at the threshold, increases to 90 degrees at the mass of the resonance, and
    ends with 180 degrees at high energies. In S waves it increases everywhere. *)
Theorem C145_phase (ev : R -> env) h s m G m1 m2 L d xm xG a b :
  (forall x, ceval (ev x) h s = RtoC x) -> (forall x, ceval (ev x) h d = ceval (ev 0) h d) ->
  (forall x, real_resonance (ev x) h m G m1 m2 d xm xG a b) ->
  let thr := (a + b) * (a + b) in
  exists phase : R -> R,
    (forall x, thr < x -> has_phase (ceval (ev x) h (breit_wigner s m G m1 m2 L d phase_space_factor)) (phase x) /\
      has_phase (ceval (ev x) h (relativistic_breit_wigner s m G m1 m2 L d phase_space_factor)) (phase x)) /\
    phase (xm * xm) = PI / 2 /\
    (forall x y, thr < x -> x < y -> y <= xm * xm -> phase x < phase y) /\
    (forall x, xm * xm < x -> PI / 2 < phase x) /\
    ((L <= 0)%Z -> forall x y, thr < x -> x < y -> phase x < phase y) /\
    (forall e, 0 < e -> exists t, thr < t /\ forall x, thr < x < t -> phase x < e) /\
    (forall e, 0 < e -> exists t, forall x, t < x -> PI - e < phase x).
Proof. exact (c145_phase ev h s m G m1 m2 L d xm xG a b). Qed.
Print Assumptions C145_phase.
(** It need not increase above the mass in higher waves: a D wave of two particles with masses 10 and 0, with mass 11, width 1 and radius 1/10. *)
Theorem C145_d_wave d2 d3 : let t := breit_wigner (CVar cx_s) (CNum 11) (CNum 1) (CNum 10) (CNum 0) 2 (CDiv (CNum 1) (CNum 10)) phase_space_factor in
  has_phase (ceval (cx_at 200) (fun _ => 0%Z) t) d2 -> has_phase (ceval (cx_at 300) (fun _ => 0%Z) t) d3 -> PI / 2 < d3 < d2.
Proof. exact (ph_d_wave d2 d3). Qed.
Print Assumptions C145_d_wave.
Example C145_example : (forall x, ceval (cx_at x) (fun _ => 0%Z) (CVar cx_s) = RtoC x) /\
  forall x, real_resonance (cx_at x) (fun _ => 0%Z) (CNum 11) (CNum 1) (CNum 10) (CNum 0) (CDiv (CNum 1) (CNum 10)) 11 1 10 0.
Proof. exact (conj (fun x => eq_refl) ph_resonance). Qed.
Print Assumptions C145_example.

(** The width rises with the power 2L+1 of the momentum of the decay products at the threshold. *)
Theorem C145_threshold (ev : R -> env) h s m G m1 m2 L d xm xG a b :
  (forall x, ceval (ev x) h s = RtoC x) -> (forall x, ceval (ev x) h d = ceval (ev 0) h d) ->
  (forall x, real_resonance (ev x) h m G m1 m2 d xm xG a b) ->
  exists c, 0 < c /\
    filterlim (fun x => Re (ceval (ev x) h (breit_wigner_width s m G m1 m2 L d phase_space_factor)) / decay_momentum x a b ^ (2 * Z.to_nat L + 1))
      (at_right ((a + b) * (a + b))) (locally c).
Proof. exact (c145_threshold ev h s m G m1 m2 L d xm xG a b). Qed.
Print Assumptions C145_threshold.

(** With constant width the phase increases everywhere. *)
Theorem C145_constant_width (ev : R -> env) h s m G xm xG : (forall x, ceval (ev x) h s = RtoC x) -> (forall x, ceval (ev x) h m = RtoC xm) ->
  (forall x, ceval (ev x) h G = RtoC xG) -> 0 < xm -> 0 < xG ->
  exists phase : R -> R, (forall x, has_phase (ceval (ev x) h (simple_breit_wigner s m G)) (phase x)) /\
    phase (xm * xm) = PI / 2 /\ forall x y, x < y -> phase x < phase y.
Proof. exact (c145_simple ev h s m G xm xG). Qed.
Print Assumptions C145_constant_width.
