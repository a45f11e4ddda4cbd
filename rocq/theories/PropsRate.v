(** C144: rates, and the rates of parts of a model. The vocabulary is in SpecNormal.v (integrals over the Dalitz plot), SpecForm.v and SpecFractions.v
    (combinations of couplings, parts of models), and SpecProjection.v (partial waves). *)
From Coq Require Import String ZArith List Bool Reals Permutation.
From Coquelicot Require Import Complex.
From Verif Require Import BoundedProofs Prelude Decay Expr CExpr Sums SpecKin SpecDPD Builder SpecBuilder SpecForm SpecFractions SpecObs SpecBounded SpecNormal SpecProjection
  BuilderExamples ChainExamples RateProofs RateWaves RateExamples.
Import ListNotations.
Local Open Scope R_scope.

(** The rate is a Hermitian form of the couplings: two rates and one complex number, bounded by them, give the rates of all combinations. *)
Theorem C144_couplings b s dyn ref cl uc m names base cpl1 cpl2 i j k N1 N2 : std_decay (b_decay b) s -> dynamics_of b dyn ->
  (b_prod_helicity b = false -> plain_resonances (b_decay b)) -> formulate b ref cl uc = Ok m ->
  one_factor b uc names -> cyclic i j k -> open_phase_space base ->
  (forall c, In c (d_chains (b_decay b)) -> own_sigma_only base cpl1 (st_index (ch_spectator c)) (de_expr (dyn c)) /\
    continuous_on_range base cpl1 (st_index (ch_spectator c)) (de_expr (dyn c))) ->
  (forall n ix, ~ names n -> cpl1 n ix = cpl2 n ix) ->
  integrates_to base (intensity_at m cpl1) i j k N1 -> integrates_to base (intensity_at m cpl2) i j k N2 ->
  exists H : C, Cmod H ^ 2 <= N1 * N2 /\
    forall x y cpl N, combined names x y cpl1 cpl2 cpl -> integrates_to base (intensity_at m cpl) i j k N ->
      N = Cmod x ^ 2 * N1 + Cmod y ^ 2 * N2 + 2 * Re (x * Cconj y * H)%C.
Proof. exact (c144_couplings b s dyn ref cl uc m names base cpl1 cpl2 i j k N1 N2). Qed.
Print Assumptions C144_couplings.

(** The rate of a model differs from the sum of the rates of its parts by at most twice the geometric means of the pairs of rates. (With one
    part, or parts of which one has rate 0, this fixes the rate.) It is not above the number of parts times the sum. *)
Theorem C144_parts b s dyn ref cl uc m r ps base cpl i j k N0 N : std_decay (b_decay b) s -> dynamics_of b dyn ->
  (b_prod_helicity b = false -> plain_resonances (b_decay b)) -> formulate b ref cl uc = Ok m ->
  resolve_reference (b_decay b) ref = Ok r ->
  Permutation (d_chains (b_decay b)) (flat_map (fun p => d_chains (b_decay (pt_builder p))) ps) ->
  (forall p, In p ps -> is_part b s dyn uc r p) ->
  cyclic i j k -> open_phase_space base ->
  integrates_to base (intensity_at m cpl) i j k N0 ->
  (forall p, In p ps -> integrates_to base (intensity_at (pt_model p) cpl) i j k (N p)) ->
  Rabs (N0 - Rsum ps N) <= Rsum (pairs ps) (fun pq => 2 * sqrt (N (fst pq) * N (snd pq))) /\
  N0 <= INR (length ps) * Rsum ps N.
Proof. exact (c144_parts b s dyn ref cl uc m r ps base cpl i j k N0 N). Qed.
Print Assumptions C144_parts.

(** If all chains decay through the same pair and the parts have no partial wave in common, the rates add up: the fit fractions sum to 1. *)
Theorem C144_waves b s dyn ref cl uc m r ps base cpl i j k N0 N : std_decay (b_decay b) s -> dynamics_of b dyn -> plain_resonances (b_decay b) ->
  formulate b ref cl uc = Ok m -> b_prod_helicity b = false -> b_dec_helicity b = false ->
  (forall c, In c (d_chains (b_decay b)) -> allowed_chain c) -> one_subsystem (b_decay b) k -> cyclic i j k ->
  (forall c, In c (d_chains (b_decay b)) ->
     ~ In (sigma_at i) (symbols_of (de_expr (dyn c))) /\ ~ In (sigma_at j) (symbols_of (de_expr (dyn c)))) ->
  Permutation (d_chains (b_decay b)) (flat_map (fun p => d_chains (b_decay (pt_builder p))) ps) ->
  (forall p, In p ps -> is_part b s dyn uc r p /\ d_chains (b_decay (pt_builder p)) <> []) ->
  (forall pq, In pq (pairs ps) -> forall c c', In c (d_chains (b_decay (pt_builder (fst pq)))) -> In c' (d_chains (b_decay (pt_builder (snd pq)))) ->
     wave_of c <> wave_of c') ->
  open_phase_space base -> integrates_to base (intensity_at m cpl) i j k N0 ->
  (forall p, In p ps -> integrates_to base (intensity_at (pt_model p) cpl) i j k (N p)) -> N0 = Rsum ps N.
Proof. exact (c144_waves b s dyn ref cl uc m r ps base cpl i j k N0 N). Qed.
Print Assumptions C144_waves.

(** One resonance with an S wave and a P wave, and the parts with one wave each *)
Example C144_example : exists m m1 m2, std_decay dl_decay ex_st /\ dynamics_of (dl_b dl_decay [] false) (fun _ => de_unit) /\
  plain_resonances dl_decay /\ formulate (dl_b dl_decay [] false) (Some 2%Z) false true = Ok m /\
  (forall c, In c (d_chains dl_decay) -> allowed_chain c) /\ one_subsystem dl_decay 2 /\ cyclic 3 1 2 /\ open_phase_space bo_base /\
  resolve_reference dl_decay (Some 2%Z) = Ok 2%Z /\
  let ps := [Part (dl_b dl_decay1 [] false) (Some 2%Z) false m1; Part (dl_b dl_decay2 [] false) (Some 2%Z) true m2] in
  Permutation (d_chains dl_decay) (flat_map (fun p => d_chains (b_decay (pt_builder p))) ps) /\
  (forall p, In p ps -> is_part (dl_b dl_decay [] false) ex_st (fun _ => de_unit) true 2 p /\ d_chains (b_decay (pt_builder p)) <> []) /\
  (forall pq, In pq (pairs ps) -> forall c c', In c (d_chains (b_decay (pt_builder (fst pq)))) -> In c' (d_chains (b_decay (pt_builder (snd pq)))) ->
     wave_of c <> wave_of c') /\
  forall cpl, exists N0 N, integrates_to bo_base (intensity_at m cpl) 3 1 2 N0 /\
    forall p, In p ps -> integrates_to bo_base (intensity_at (pt_model p) cpl) 3 1 2 (N p).
Proof. exact ra_example. Qed.
Print Assumptions C144_example.
(** The same decay meets the other hypotheses of C144_couplings. *)
Example C144_couplings_example : one_factor (dl_b dl_decay [] false) true (fun _ => True) /\
  (forall x y cpl1 cpl2, exists cpl, combined (fun _ => True) x y cpl1 cpl2 cpl) /\
  forall cpl c, In c (d_chains dl_decay) -> own_sigma_only bo_base cpl (st_index (ch_spectator c)) (de_expr de_unit) /\
    continuous_on_range bo_base cpl (st_index (ch_spectator c)) (de_expr de_unit).
Proof. exact (conj (fun _ => I) (conj (fun x y cpl1 cpl2 => combined_exists (dl_b dl_decay [] false) true (fun _ => True) x y cpl1 cpl2 (fun _ => I) (fun n ix H => False_ind _ (H I))) (fun cpl => ra_shapes dl_decay cpl false))). Qed.
Print Assumptions C144_couplings_example.
