(** C148: the limit of a narrow resonance. The vocabulary is in SpecNarrow.v (and SpecNormal.v, SpecObs.v, SpecProjection.v). *)
From Coq Require Import String ZArith List Bool Reals.
From Coquelicot Require Import Complex Hierarchy Rbar Lim_seq Continuity.
From Verif Require Import BoundedProofs Prelude Decay Expr CExpr Sums SpecKin SpecDPD Builder SpecBuilder Dynamics SpecDynamics SpecFinite
  BuilderExamples SpecObs SpecBounded SpecNormal SpecProjection SpecNarrow NarrowProofs NarrowExamples.
Import ListNotations.
Local Open Scope R_scope.

(** A model with one resonance, of any number of LS couplings, with a Breit-Wigner function of constant width: the rate exists for every width G,
    and if the resonance lies between the limits of its invariant mass, M G times the rate tends to pi times the length of the line
    sigma = M^2 through the Dalitz plot times the sum of |coupling|^2 / (2J + 1). (The rate is unique: C142_unique.) *)
Theorem C148_constant_width b s dyn ref cl uc m base cpl i j k w r M lo hi : std_decay (b_decay b) s -> dynamics_of b dyn -> plain_resonances (b_decay b) ->
  formulate b ref cl uc = Ok m -> b_prod_helicity b = false -> b_dec_helicity b = false ->
  (forall c, In c (d_chains (b_decay b)) -> allowed_chain c) -> one_subsystem (b_decay b) k -> cyclic i j k ->
  NoDup (map wave_of (d_chains (b_decay b))) -> one_breit_wigner (b_decay b) w r dyn -> open_phase_space base ->
  base (resonance_mass r) = RtoC M -> 0 < M -> lower_limit base k < M * M < upper_limit base k ->
  dalitz_range (with_sigma base k (M * M)) i j k lo hi ->
  bw_energy_dependent_width w = false -> exists N,
    (forall G, 0 < G -> integrates_to (with_width base r G) (intensity_at m cpl) i j k (N G)) /\
    filterlim (fun G => M * G * N G) (at_right 0) (locally (PI * (hi - lo) * Rsum (d_chains (b_decay b)) (strength w base cpl uc))).
Proof. exact (c148_constant b s dyn ref cl uc m base cpl i j k w r M lo hi). Qed.
Print Assumptions C148_constant_width.

(** With an energy-dependent width the lineshape has the numerator M G, and the same limit is that of the rate divided by M G. *)
Theorem C148_running_width b s dyn ref cl uc m base cpl i j k w r M lo hi : std_decay (b_decay b) s -> dynamics_of b dyn -> plain_resonances (b_decay b) ->
  formulate b ref cl uc = Ok m -> b_prod_helicity b = false -> b_dec_helicity b = false ->
  (forall c, In c (d_chains (b_decay b)) -> allowed_chain c) -> one_subsystem (b_decay b) k -> cyclic i j k ->
  NoDup (map wave_of (d_chains (b_decay b))) -> one_breit_wigner (b_decay b) w r dyn -> open_phase_space base ->
  base (resonance_mass r) = RtoC M -> 0 < M -> lower_limit base k < M * M < upper_limit base k ->
  dalitz_range (with_sigma base k (M * M)) i j k lo hi ->
  bw_energy_dependent_width w = true -> real_at base (mass_at i) -> real_at base (mass_at j) -> real_at base resonance_radius ->
  0 < Re (base resonance_radius) -> 0 < lower_limit base k -> exists N,
    (forall G, 0 < G -> integrates_to (with_width base r G) (intensity_at m cpl) i j k (N G)) /\
    filterlim (fun G => N G / (M * G)) (at_right 0) (locally (PI * (hi - lo) * Rsum (d_chains (b_decay b)) (strength w base cpl uc))).
Proof. exact (c148_running b s dyn ref cl uc m base cpl i j k w r M lo hi). Qed.
Print Assumptions C148_running_width.

(** A resonance of spin 1/2 and mass 3 with an S wave and a P wave in the decay of a particle of mass 6 to three of mass 1, with either width *)
Example C148_example (ed : bool) : exists m lo hi, std_decay (b_decay (nw_b ed)) ex_st /\ dynamics_of (nw_b ed) (nw_dyn ed) /\ plain_resonances (b_decay (nw_b ed)) /\
  formulate (nw_b ed) (Some 2%Z) false true = Ok m /\ b_prod_helicity (nw_b ed) = false /\ b_dec_helicity (nw_b ed) = false /\
  (forall c, In c (d_chains (b_decay (nw_b ed))) -> allowed_chain c) /\ one_subsystem (b_decay (nw_b ed)) 2 /\ cyclic 3 1 2 /\
  NoDup (map wave_of (d_chains (b_decay (nw_b ed)))) /\ one_breit_wigner (b_decay (nw_b ed)) (nw_w ed) nw_r (nw_dyn ed) /\
  open_phase_space bo_base /\ bo_base (resonance_mass nw_r) = RtoC 3 /\ lower_limit bo_base 2 < 3 * 3 < upper_limit bo_base 2 /\
  dalitz_range (with_sigma bo_base 2 (3 * 3)) 3 1 2 lo hi /\ lo < hi /\
  real_at bo_base (mass_at 3) /\ real_at bo_base (mass_at 1) /\ real_at bo_base resonance_radius /\ 0 < Re (bo_base resonance_radius) /\ 0 < lower_limit bo_base 2.
Proof. exact (nw_example ed). Qed.
Print Assumptions C148_example.
