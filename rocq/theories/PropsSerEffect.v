(** C153: which weights of a model file have an effect on the intensity *)
From Coq Require Import String ZArith List Bool Reals.
From Coquelicot Require Import Complex.
From Verif Require Import Prelude Decay Expr CExpr Builder SpecDPD SpecObs SerFormat SerDynamics SpecSerial SpecWeights SpecSerEffect SerEffectProofs SerEffectShapes SerExamples SerEffectExamples
  LcModel LcProofs LcEffect.
From Verif Require SerAmplitude.
Import ListNotations.
Local Open Scope Z_scope.

(** Files with the lineshapes that the package provides *)
Theorem C153_weights m d s r tl x w dyn cl M :
  helicity_definition m d s r tl None x w dyn -> SerAmplitude.formulate m cl tl None = Ok M -> NoDup (map w (di_chains d)) ->
  forall c, In c (di_chains d) -> complete_chain m c -> resonance_possible (x c) ->
  (final_possible s (x c) -> value_has_effect M (w c)) /\ (~ final_possible s (x c) -> value_no_effect M (w c)).
Proof. exact (weights_effect m d s r tl x w dyn cl M). Qed.
Print Assumptions C153_weights.

(** Any lineshapes: *)
Theorem C153_effect m d s r tl additional x w dyn :
  helicity_definition m d s r tl additional x w dyn -> forall cl M, SerAmplitude.formulate m cl tl additional = Ok M ->
  weights_only w dyn (di_chains d) -> NoDup (map w (di_chains d)) ->
  forall c, In c (di_chains d) -> resonance_possible (x c) -> final_possible s (x c) -> live_serial x dyn c -> value_has_effect M (w c).
Proof. exact (weight_effect m d s r tl additional x w dyn). Qed.
Print Assumptions C153_effect.
Theorem C153_no_effect m d s r tl additional x w dyn :
  helicity_definition m d s r tl additional x w dyn -> forall cl M, SerAmplitude.formulate m cl tl additional = Ok M ->
  weights_only w dyn (di_chains d) -> NoDup (map w (di_chains d)) ->
  forall c, In c (di_chains d) -> ~ final_possible s (x c) -> value_no_effect M (w c).
Proof. exact (weight_no_effect m d s r tl additional x w dyn). Qed.
Print Assumptions C153_no_effect.

(** A file of which all weights have an effect *)
Example C153_example : helicity_definition sx_model (sx_dist sx_chains) sx_s 1 sx_tl None sx_x sx_w sx_dyn /\
  (exists M, SerAmplitude.formulate sx_model true sx_tl None = Ok M) /\ NoDup (map sx_w sx_chains) /\
  forall c, In c sx_chains -> complete_chain sx_model c /\ resonance_possible (sx_x c) /\ final_possible sx_s (sx_x c).
Proof. exact (conj (proj1 sx_definition) (conj (sx_formulate true) sx_possible)). Qed.
(** A file with one weight that has an effect and one that has none: the resonance of the second chain decays to two particles
    without spin, with parity factor -1 *)
Example C153_example_none : helicity_definition se_model (sx_dist se_chains) sx_s 1 sx_tl None se_x se_w se_dyn /\
  (exists M, SerAmplitude.formulate se_model true sx_tl None = Ok M) /\ NoDup (map se_w se_chains) /\
  In se_K se_chains /\ complete_chain se_model se_K /\ resonance_possible (se_x se_K) /\ ~ final_possible sx_s (se_x se_K) /\
  final_possible sx_s (se_x sx_A).
Proof. exact se_definition. Qed.

(** Every weight of the model file in /repo/docs/Lc2ppiK.json has an effect. *)
Theorem C153_Lc2ppiK cl M : SerAmplitude.formulate lc_model cl lc_tl lc_builders = Ok M -> forall c, In c lc_chains -> value_has_effect M (lc_w c).
Proof. exact (lc_effect cl M). Qed.
Print Assumptions C153_Lc2ppiK.
Example C153_Lc2ppiK_example : length lc_chains = 26%nat /\ exists M, SerAmplitude.formulate lc_model true lc_tl lc_builders = Ok M.
Proof. exact (conj eq_refl (lc_formulate true)). Qed.
