(** C157: resonances with different spins in the mass distributions of model files *)
From Coq Require Import String ZArith List Bool Reals.
From Coquelicot Require Import Complex Hierarchy RInt.
From Verif Require Import Prelude Decay Expr CExpr Builder SpecDPD SpecObs SerFormat SerDynamics SpecSerial SpecWeights SpecSerMassless SpecSerEffect SpecSerWaves
  SerWaves SerExamples LcModel LcProofs SerWavesExamples.
From Verif Require SerAmplitude.
Import ListNotations.
Local Open Scope R_scope.

(** Files with the lineshapes that the package provides: the chains that [keep] selects and the others do not interfere. *)
Theorem C157_spins m d s r tl x w dyn : helicity_definition m d s r tl None x w dyn ->
  forall cl M, SerAmplitude.formulate m cl tl None = Ok M ->
  forall i j k base cpl lo hi, cyclic i j k -> between_thresholds base i j k -> dalitz_range base i j k lo hi ->
  (exists c, In c (di_chains d) /\ ct_k (x c) = k) ->
  (forall c, active w (di_chains d) base c -> complete_chain m c /\ ct_k (x c) = k /\ resonance_possible (x c)) ->
  forall base1 base2 keep, weights_scaled w (di_chains d) (kept keep) base base1 ->
  weights_scaled w (di_chains d) (kept (fun c => negb (keep c))) base base2 ->
  (forall c c', active w (di_chains d) base c -> active w (di_chains d) base c' -> keep c = true -> keep c' = false ->
     ct_spin (x c) <> ct_spin (x c') /\ same_helicities i (x c) (x c')) ->
  forall v1 v2,
  is_RInt (fun t => Re (full_value (at_point (m_variables M) (dalitz_line base1 i j k t) cpl) M)) lo hi v1 ->
  is_RInt (fun t => Re (full_value (at_point (m_variables M) (dalitz_line base2 i j k t) cpl) M)) lo hi v2 ->
  is_RInt (fun t => Re (full_value (at_point (m_variables M) (dalitz_line base i j k t) cpl) M)) lo hi (v1 + v2).
Proof. exact (complete_waves m d s r tl x w dyn). Qed.
Print Assumptions C157_spins.
Example C157_example : helicity_definition wv_model (sx_dist wv_chains) sx_s 1 sx_tl None wv_x wv_w wv_dyn /\
  (exists M, SerAmplitude.formulate wv_model true sx_tl None = Ok M) /\
  between_thresholds (wv_base true true) 2 3 1 /\ (exists c, In c wv_chains /\ ct_k (wv_x c) = 1%Z) /\
  (forall c, active wv_w wv_chains (wv_base true true) c -> complete_chain wv_model c /\ ct_k (wv_x c) = 1%Z /\ resonance_possible (wv_x c)) /\
  weights_scaled wv_w wv_chains (kept wv_keep) (wv_base true true) (wv_base true false) /\
  weights_scaled wv_w wv_chains (kept (fun c => negb (wv_keep c))) (wv_base true true) (wv_base false true) /\
  (forall c c', active wv_w wv_chains (wv_base true true) c -> active wv_w wv_chains (wv_base true true) c' -> wv_keep c = true -> wv_keep c' = false ->
     ct_spin (wv_x c) <> ct_spin (wv_x c') /\ same_helicities 2 (wv_x c) (wv_x c')) /\
  (forall c, In c wv_chains -> active wv_w wv_chains (wv_base true true) c).
Proof. exact (conj wv_definition (conj wv_formulate wv_example)). Qed.

(** Any lineshapes that do not depend on the other two Mandelstam variables and on weights *)
Theorem C157_lineshapes m d s r tl additional x w dyn : helicity_definition m d s r tl additional x w dyn ->
  forall cl M, SerAmplitude.formulate m cl tl additional = Ok M -> weights_only w dyn (di_chains d) ->
  forall i j k c0, In c0 (di_chains d) -> ct_k (x c0) = k -> cyclic i j k ->
  forall base cpl lo hi, between_thresholds base i j k -> dalitz_range base i j k lo hi ->
  (forall c, active w (di_chains d) base c -> in_subsystem x dyn i j k c) ->
  forall base1 base2 keep, weights_scaled w (di_chains d) (kept keep) base base1 ->
  weights_scaled w (di_chains d) (kept (fun c => negb (keep c))) base base2 ->
  (forall c c', active w (di_chains d) base c -> active w (di_chains d) base c' -> keep c = true -> keep c' = false ->
     ct_spin (x c) <> ct_spin (x c') /\ same_helicities i (x c) (x c')) ->
  forall v1 v2,
  is_RInt (fun t => Re (full_value (at_point (m_variables M) (dalitz_line base1 i j k t) cpl) M)) lo hi v1 ->
  is_RInt (fun t => Re (full_value (at_point (m_variables M) (dalitz_line base2 i j k t) cpl) M)) lo hi v2 ->
  is_RInt (fun t => Re (full_value (at_point (m_variables M) (dalitz_line base i j k t) cpl) M)) lo hi (v1 + v2).
Proof. exact (waves_incoherent m d s r tl additional x w dyn). Qed.
Print Assumptions C157_lineshapes.

(** /repo/docs/Lc2ppiK.json: the chains of one subsystem with the same helicity of the resonance *)
Theorem C157_Lc2ppiK cl M : SerAmplitude.formulate lc_model cl lc_tl lc_builders = Ok M ->
  forall i j k h base cpl lo hi, cyclic i j k -> between_thresholds base i j k -> dalitz_range base i j k lo hi ->
  (forall c, active lc_w lc_chains base c -> ct_k (lc_x c) = k /\ ct_r (lc_x c) = h) ->
  forall base1 base2 keep, weights_scaled lc_w lc_chains (kept keep) base base1 ->
  weights_scaled lc_w lc_chains (kept (fun c => negb (keep c))) base base2 ->
  (forall c c', active lc_w lc_chains base c -> active lc_w lc_chains base c' -> keep c = true -> keep c' = false -> ct_spin (lc_x c) <> ct_spin (lc_x c')) ->
  forall v1 v2,
  is_RInt (fun t => Re (full_value (at_point (m_variables M) (dalitz_line base1 i j k t) cpl) M)) lo hi v1 ->
  is_RInt (fun t => Re (full_value (at_point (m_variables M) (dalitz_line base2 i j k t) cpl) M)) lo hi v2 ->
  is_RInt (fun t => Re (full_value (at_point (m_variables M) (dalitz_line base i j k t) cpl) M)) lo hi (v1 + v2).
Proof. exact (lc_waves cl M). Qed.
Print Assumptions C157_Lc2ppiK.
(** The L resonances with helicity 1/2: two of the six chains have spin 3/2. *)
Example C157_Lc2ppiK_example : (exists M, SerAmplitude.formulate lc_model true lc_tl lc_builders = Ok M) /\
  between_thresholds (lw_base lw_active) 3 1 2 /\
  (forall c, active lc_w lc_chains (lw_base lw_active) c -> ct_k (lc_x c) = 2%Z /\ ct_r (lc_x c) = 1%Z) /\
  weights_scaled lc_w lc_chains (kept lw_keep) (lw_base lw_active) (lw_base (fun c => lw_active c && lw_keep c)) /\
  weights_scaled lc_w lc_chains (kept (fun c => negb (lw_keep c))) (lw_base lw_active) (lw_base (fun c => lw_active c && negb (lw_keep c))) /\
  (forall c c', active lc_w lc_chains (lw_base lw_active) c -> active lc_w lc_chains (lw_base lw_active) c' -> lw_keep c = true -> lw_keep c' = false ->
     ct_spin (lc_x c) <> ct_spin (lc_x c')) /\
  map lw_keep (filter lw_active lc_chains) = [false; true; false; false; true; false].
Proof. exact (conj (lc_formulate true) lw_example). Qed.
