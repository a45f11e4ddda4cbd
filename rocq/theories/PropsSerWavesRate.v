(** C157, C158: rates of chains of model files that do not interfere *)
From Coq Require Import String ZArith List Bool Reals.
From Coquelicot Require Import Complex.
From Verif Require Import Prelude Decay Expr CExpr Builder SpecDPD SpecNormal SerFormat SerDynamics SpecSerial SpecWeights SpecSerMassless SpecSerWaves SpecSerOpposite
  LcModel LcProofs PartExamples SerWavesExamples SerExamples SerOpposite SerWavesRate SerWavesRateExamples.
From Verif Require SerAmplitude.
Import ListNotations.
Local Open Scope R_scope.

(** Different spins of the resonances: the rate (the integral over the Dalitz plot) is the sum of the rates of the two groups of chains. *)
Theorem C157_rate m d s r tl additional x w dyn : helicity_definition m d s r tl additional x w dyn ->
  forall cl M, SerAmplitude.formulate m cl tl additional = Ok M -> weights_only w dyn (di_chains d) ->
  forall i j k c0, In c0 (di_chains d) -> ct_k (x c0) = k ->
  forall base base1 base2 cpl keep, open_phase_space base -> weights_scaled w (di_chains d) (kept keep) base base1 ->
  weights_scaled w (di_chains d) (kept (fun c => negb (keep c))) base base2 -> cyclic i j k ->
  (forall c, active w (di_chains d) base c -> in_subsystem x dyn i j k c) ->
  (forall c c', active w (di_chains d) base c -> active w (di_chains d) base c' -> keep c = true -> keep c' = false ->
     ct_spin (x c) <> ct_spin (x c') /\ same_helicities i (x c) (x c')) ->
  forall N1 N2, integrates_to base1 (intensity_at M cpl) i j k N1 -> integrates_to base2 (intensity_at M cpl) i j k N2 ->
  integrates_to base (intensity_at M cpl) i j k (N1 + N2).
Proof. exact (waves_rate m d s r tl additional x w dyn). Qed.
Print Assumptions C157_rate.
(** Two K resonances with spins 0 and 1: all three rates exist. *)
Example C157_rate_example : helicity_definition wv_model (sx_dist wv_chains) sx_s 1 sx_tl None wv_x wv_w wv_dyn /\
  (exists M, SerAmplitude.formulate wv_model true sx_tl None = Ok M /\ forall cpl b1 b2, exists N, integrates_to (wr_base b1 b2) (intensity_at M cpl) 2 3 1 N) /\
  weights_only wv_w wv_dyn wv_chains /\ open_phase_space (wr_base true true) /\
  (exists c, In c wv_chains /\ ct_k (wv_x c) = 1%Z) /\
  weights_scaled wv_w wv_chains (kept wv_keep) (wr_base true true) (wr_base true false) /\
  weights_scaled wv_w wv_chains (kept (fun c => negb (wv_keep c))) (wr_base true true) (wr_base false true) /\
  (forall c, active wv_w wv_chains (wr_base true true) c -> in_subsystem wv_x wv_dyn 2 3 1 c) /\
  (forall c c', active wv_w wv_chains (wr_base true true) c -> active wv_w wv_chains (wr_base true true) c' -> wv_keep c = true -> wv_keep c' = false ->
     ct_spin (wv_x c) <> ct_spin (wv_x c') /\ same_helicities 2 (wv_x c) (wv_x c')) /\
  (forall c, In c wv_chains -> active wv_w wv_chains (wr_base true true) c).
Proof. exact (conj wv_definition wr_example). Qed.
(** The same for opposite parity factors; any axis i', j', k' of the Dalitz plot *)
Theorem C158_rate m d s r tl additional x w dyn : helicity_definition m d s r tl additional x w dyn ->
  forall cl M, SerAmplitude.formulate m cl tl additional = Ok M -> weights_only w dyn (di_chains d) ->
  forall k c0, In c0 (di_chains d) -> ct_k (x c0) = k ->
  forall base base1 base2 cpl keep, open_phase_space base -> weights_scaled w (di_chains d) (kept keep) base base1 ->
  weights_scaled w (di_chains d) (kept (fun c => negb (keep c))) base base2 ->
  forall i' j' k', cyclic i' j' k' -> (forall c, active w (di_chains d) base c -> ct_k (x c) = k) ->
  (forall c c', active w (di_chains d) base c -> active w (di_chains d) base c' -> keep c = true -> keep c' = false -> opposite_parity (x c) (x c')) ->
  forall N1 N2, integrates_to base1 (intensity_at M cpl) i' j' k' N1 -> integrates_to base2 (intensity_at M cpl) i' j' k' N2 ->
  integrates_to base (intensity_at M cpl) i' j' k' (N1 + N2).
Proof. exact (opposite_rate m d s r tl additional x w dyn). Qed.
Print Assumptions C158_rate.

(** /repo/docs/Lc2ppiK.json: chains of one subsystem with the same helicity and different spins of the resonance *)
Theorem C157_Lc2ppiK_rate cl M : SerAmplitude.formulate lc_model cl lc_tl lc_builders = Ok M ->
  forall i j k h base base1 base2 cpl keep, cyclic i j k -> open_phase_space base ->
  (forall c, active lc_w lc_chains base c -> ct_k (lc_x c) = k /\ ct_r (lc_x c) = h) ->
  weights_scaled lc_w lc_chains (kept keep) base base1 -> weights_scaled lc_w lc_chains (kept (fun c => negb (keep c))) base base2 ->
  (forall c c', active lc_w lc_chains base c -> active lc_w lc_chains base c' -> keep c = true -> keep c' = false -> ct_spin (lc_x c) <> ct_spin (lc_x c')) ->
  forall N1 N2, integrates_to base1 (intensity_at M cpl) i j k N1 -> integrates_to base2 (intensity_at M cpl) i j k N2 ->
  integrates_to base (intensity_at M cpl) i j k (N1 + N2).
Proof. exact (lc_waves_rate cl M). Qed.
Print Assumptions C157_Lc2ppiK_rate.
(** The L resonances, and the D resonances, with parity factors 1 and -1 *)
Theorem C158_Lc2ppiK_rate cl M : SerAmplitude.formulate lc_model cl lc_tl lc_builders = Ok M ->
  forall k base base1 base2 cpl, In k [2; 3]%Z -> open_phase_space base -> (forall c, active lc_w lc_chains base c -> ct_k (lc_x c) = k) ->
  weights_scaled lc_w lc_chains (kept (fun c => (ct_fd (lc_x c) =? 1)%Z)) base base1 ->
  weights_scaled lc_w lc_chains (kept (fun c => negb (ct_fd (lc_x c) =? 1)%Z)) base base2 ->
  forall i' j' k', cyclic i' j' k' -> forall N1 N2, integrates_to base1 (intensity_at M cpl) i' j' k' N1 -> integrates_to base2 (intensity_at M cpl) i' j' k' N2 ->
  integrates_to base (intensity_at M cpl) i' j' k' (N1 + N2).
Proof. exact (lc_opposite_rate cl M). Qed.
Print Assumptions C158_Lc2ppiK_rate.
(** The phase space of the points in C157_Lc2ppiK_example and C158_Lc2ppiK_example is open; C142_serial tells when the rates exist. *)
Example C157_Lc2ppiK_rate_example : open_phase_space (lw_base lw_active) /\ open_phase_space (lw_base lp_active).
Proof. exact (conj (lw_open _) (lw_open _)). Qed.
