(** C156: which chains of a subsystem of a model file interfere *)
From Coq Require Import String ZArith List Bool Reals.
From Coquelicot Require Import Complex Hierarchy RInt.
From Verif Require Import Prelude Decay Expr CExpr Builder SpecDPD SpecObs SerFormat SerDynamics SpecSerial SpecWeights SpecSerMassless SpecSerCombine SerCombine SerExamples.
From Verif Require SerAmplitude.
Import ListNotations.
Local Open Scope Z_scope.

(** Two groups of chains without a common combination of helicities of the final states add incoherently. *)
Theorem C156_incoherent_partial m d s r tl additional x w dyn :
  helicity_definition m d s r tl additional x w dyn -> forall cl M, SerAmplitude.formulate m cl tl additional = Ok M ->
  forall k, one_spectator x (di_chains d) k -> weights_only w dyn (di_chains d) -> forall base base1 base2 cpl keep,
  weights_scaled w (di_chains d) (kept keep) base base1 -> weights_scaled w (di_chains d) (kept (fun c => negb (keep c))) base base2 ->
  (forall c c' l, In c (di_chains d) -> In c' (di_chains d) -> keep c = true -> keep c' = false -> helicity_tuple s l ->
     combination (x c) l -> combination (x c') l -> False) ->
  full_value (at_point (m_variables M) base cpl) M
  = (full_value (at_point (m_variables M) base1 cpl) M + full_value (at_point (m_variables M) base2 cpl) M)%C.
Proof. exact (combine_incoherent m d s r tl additional x w dyn). Qed.
Print Assumptions C156_incoherent_partial.
Example C156_example : helicity_definition cn_model (sx_dist cn_chains) sx_s 1 sx_tl None cn_x cn_w cn_dyn /\
  (exists M, SerAmplitude.formulate cn_model true sx_tl None = Ok M) /\ one_spectator cn_x cn_chains 1 /\ weights_only cn_w cn_dyn cn_chains /\
  weights_scaled cn_w cn_chains (kept cn_keep) (cn_base (fun _ => true)) (cn_base cn_keep) /\
  weights_scaled cn_w cn_chains (kept (fun c => negb (cn_keep c))) (cn_base (fun _ => true)) (cn_base (fun c => negb (cn_keep c))) /\
  map cn_keep cn_chains = [true; true; false; false] /\
  (forall c c' l, In c cn_chains -> In c' cn_chains -> cn_keep c = true -> cn_keep c' = false -> helicity_tuple sx_s l ->
     combination (cn_x c) l -> combination (cn_x c') l -> False).
Proof. exact cn_example. Qed.

(** Chains with different helicities of the resonance do interfere in the mass distribution. *)
Theorem C156_refuted : ~ (forall m d s r tl x w dyn cl M, helicity_definition m d s r tl None x w dyn -> SerAmplitude.formulate m cl tl None = Ok M ->
  forall i j k, cyclic i j k -> one_spectator x (di_chains d) k ->
  forall base base1 base2 cpl keep, weights_scaled w (di_chains d) (kept keep) base base1 -> weights_scaled w (di_chains d) (kept (fun c => negb (keep c))) base base2 ->
  (forall c c', In c (di_chains d) -> In c' (di_chains d) -> keep c = true -> keep c' = false -> ct_r (x c) <> ct_r (x c')) ->
  forall lo hi v v1 v2, between_thresholds base i j k -> dalitz_range base i j k lo hi ->
  is_RInt (fun t => Re (full_value (at_point (m_variables M) (dalitz_line base i j k t) cpl) M)) lo hi v ->
  is_RInt (fun t => Re (full_value (at_point (m_variables M) (dalitz_line base1 i j k t) cpl) M)) lo hi v1 ->
  is_RInt (fun t => Re (full_value (at_point (m_variables M) (dalitz_line base2 i j k t) cpl) M)) lo hi v2 -> v = v1 + v2)%R.
Proof. exact combine_refuted. Qed.
Print Assumptions C156_refuted.
(** Two chains with helicities 1 and -1 of the resonance cancel at every point. *)
Theorem C156_cancel M : SerAmplitude.formulate co_model true sx_tl None = Ok M -> forall base cpl,
  base (co_w (co_K 2)) = base (co_w (co_K (-2))) -> full_value (at_point (m_variables M) base cpl) M = RtoC 0.
Proof. exact (co_cancel M). Qed.
Print Assumptions C156_cancel.
Example C156_cancel_example : helicity_definition co_model (sx_dist co_chains) sx_s 1 sx_tl None co_x co_w co_dyn /\
  exists M, SerAmplitude.formulate co_model true sx_tl None = Ok M.
Proof. exact (conj co_definition co_formulate). Qed.
