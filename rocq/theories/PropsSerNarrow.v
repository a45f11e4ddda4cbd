(** C159: the limit of a narrow resonance in a model file *)
From Coq Require Import String ZArith List Bool Reals.
From Coquelicot Require Import Complex Hierarchy Rbar Lim_seq Continuity.
From Verif Require Import Prelude Decay Expr CExpr Builder SpecDPD SpecDynamics SpecFinite SpecObs SpecBounded SpecNormal SerFormat SerDynamics SpecSerial SpecSerEffect SpecSerChain SpecSerNarrow
  SerExamples SerWavesExamples SerNarrow SerNarrowExamples.
From Verif Require SerAmplitude.
Import ListNotations.
Local Open Scope R_scope.

(** If one chain with a Breit-Wigner function has a weight other than 0, the rate exists for every width G of its resonance, and M G times the rate
    tends to pi times the length of the line sigma = M^2 through the Dalitz plot, times the weight and the decay form factor (both squared),
    the numbers of helicities and (2j + 1) / (2J + 1). (The rate is unique: C142_unique.) *)
Theorem C159_narrow m d s r tl x w dyn : helicity_definition m d s r tl None x w dyn ->
  forall cl Md, SerAmplitude.formulate m cl tl None = Ok Md -> NoDup (di_chains d) ->
  forall c, In c (di_chains d) -> forall L, breit_wigner_chain m c L -> resonance_possible (x c) -> final_possible s (x c) ->
  forall i j base cpl M lo hi, cyclic i j (ct_k (x c)) -> open_phase_space base -> only_chain w (di_chains d) base c ->
  base (chain_mass tl c) = RtoC M -> 0 < M -> lower_limit base (ct_k (x c)) < M * M < upper_limit base (ct_k (x c)) ->
  dalitz_range (with_sigma base (ct_k (x c)) (M * M)) i j (ct_k (x c)) lo hi ->
  real_at base (mass_at i) /\ real_at base (mass_at j) /\ real_at base radius_sym -> 0 < Re (base radius_sym) -> 0 < lower_limit base (ct_k (x c)) ->
  exists N, (forall G, 0 < G -> integrates_to (with_value base (chain_width tl c) (RtoC G)) (intensity_at Md cpl) i j (ct_k (x c)) (N G)) /\
    filterlim (fun G => M * G * N G) (at_right 0) (locally (PI * (hi - lo) *
      (IZR (p_spin (s 0%Z) + 1) / IZR (ct_spin (x c) + 1) * (production_count (x c) * decay_count (x c)) * Cmod (base (w c)) ^ 2
       * Cmod (form_factor L (RtoC (M * M)) (base (mass_at i)) (base (mass_at j)) (base radius_sym)) ^ 2))).
Proof. exact (serial_narrow m d s r tl x w dyn). Qed.
Print Assumptions C159_narrow.
(** A resonance with spin 1 and mass 17 that has a P-wave form factor *)
Example C159_example : helicity_definition na_model (sx_dist na_chains) sx_s 1 sx_tl None wv_x na_w na_dyn /\
  (exists M, SerAmplitude.formulate na_model true sx_tl None = Ok M) /\
  NoDup na_chains /\ In na_c na_chains /\ breit_wigner_chain na_model na_c 1 /\ resonance_possible (wv_x na_c) /\ final_possible sx_s (wv_x na_c) /\
  cyclic 2 3 (ct_k (wv_x na_c)) /\ open_phase_space na_base /\ only_chain na_w na_chains na_base na_c /\ na_base (chain_mass sx_tl na_c) = RtoC 17 /\
  lower_limit na_base 1 < 17 * 17 < upper_limit na_base 1 /\
  (exists lo hi, lo < hi /\ dalitz_range (with_sigma na_base 1 (17 * 17)) 2 3 1 lo hi) /\
  (real_at na_base (mass_at 2) /\ real_at na_base (mass_at 3) /\ real_at na_base radius_sym) /\ 0 < Re (na_base radius_sym) /\ 0 < lower_limit na_base 1 /\
  Cmod (na_base (na_w na_c)) = 1.
Proof. exact (conj na_definition (conj na_formulate na_example)). Qed.
