(** C158: resonances of opposite parity in one subsystem of a model file *)
From Coq Require Import String ZArith List Bool Reals.
From Coquelicot Require Import Complex.
From Verif Require Import Prelude Decay Expr CExpr Builder SpecDPD SerFormat SerDynamics SpecSerial SpecWeights SpecSerMassless SpecSerWaves SpecSerOpposite
  LcModel LcProofs PartExamples SerWavesExamples SerOpposite.
From Verif Require SerAmplitude.
Import ListNotations.
Local Open Scope Z_scope.

(** The intensity is the sum of those of the two groups of chains, at every point. *)
Theorem C158_opposite m d s r tl additional x w dyn : helicity_definition m d s r tl additional x w dyn ->
  forall cl M, SerAmplitude.formulate m cl tl additional = Ok M -> weights_only w dyn (di_chains d) ->
  forall k c0, In c0 (di_chains d) -> ct_k (x c0) = k ->
  forall base cpl, (forall c, active w (di_chains d) base c -> ct_k (x c) = k) ->
  forall base1 base2 keep, weights_scaled w (di_chains d) (kept keep) base base1 ->
  weights_scaled w (di_chains d) (kept (fun c => negb (keep c))) base base2 ->
  (forall c c', active w (di_chains d) base c -> active w (di_chains d) base c' -> keep c = true -> keep c' = false -> opposite_parity (x c) (x c')) ->
  full_value (at_point (m_variables M) base cpl) M
  = (full_value (at_point (m_variables M) base1 cpl) M + full_value (at_point (m_variables M) base2 cpl) M)%C.
Proof. exact (opposite_incoherent m d s r tl additional x w dyn). Qed.
Print Assumptions C158_opposite.
(** /repo/docs/Lc2ppiK.json: the chains of the subsystems of the L and of the D resonances with parity factors 1 and -1 *)
Theorem C158_Lc2ppiK cl M : SerAmplitude.formulate lc_model cl lc_tl lc_builders = Ok M ->
  forall k base cpl, In k [2; 3] -> (forall c, active lc_w lc_chains base c -> ct_k (lc_x c) = k) ->
  forall base1 base2, weights_scaled lc_w lc_chains (kept (fun c => ct_fd (lc_x c) =? 1)) base base1 ->
  weights_scaled lc_w lc_chains (kept (fun c => negb (ct_fd (lc_x c) =? 1))) base base2 ->
  full_value (at_point (m_variables M) base cpl) M
  = (full_value (at_point (m_variables M) base1 cpl) M + full_value (at_point (m_variables M) base2 cpl) M)%C.
Proof. exact (lc_parity cl M). Qed.
Print Assumptions C158_Lc2ppiK.
(** The L resonances: six of the twelve chains have parity factor 1, and their helicities are those of [opposite_parity]. *)
Example C158_Lc2ppiK_example : helicity_definition lc_model lc_dist lc_s 2 lc_tl lc_builders lc_x lc_w lc_dyn /\
  (exists M, SerAmplitude.formulate lc_model true lc_tl lc_builders = Ok M) /\ weights_only lc_w lc_dyn lc_chains /\
  ((forall c, active lc_w lc_chains (lw_base lp_active) c -> ct_k (lc_x c) = 2) /\
   weights_scaled lc_w lc_chains (kept lp_keep) (lw_base lp_active) (lw_base (fun c => lp_active c && lp_keep c)) /\
   weights_scaled lc_w lc_chains (kept (fun c => negb (lp_keep c))) (lw_base lp_active) (lw_base (fun c => lp_active c && negb (lp_keep c))) /\
   map lp_keep (filter lp_active lc_chains) = [true; true; false; false; false; false; true; true; false; false; true; true]) /\
  forall c c', In c lc_chains -> In c' lc_chains -> ct_k (lc_x c) = ct_k (lc_x c') -> ct_k (lc_x c) <> 1 ->
    ct_fd (lc_x c) = 1 -> ct_fd (lc_x c') <> 1 -> opposite_parity (lc_x c) (lc_x c').
Proof. exact (conj lc_definition (conj (lc_formulate true) (conj lc_weights (conj lp_example lc_opposite)))). Qed.
