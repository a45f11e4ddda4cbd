(** C155: the mass distribution of one chain of a model file *)
From Coq Require Import String ZArith List Bool Reals.
From Coquelicot Require Import Complex Hierarchy RInt.
From Verif Require Import Prelude Decay Expr CExpr Builder SpecDPD SpecObs SerFormat SerDynamics SpecSerial SpecSerEffect SpecSerChain SerChain SerExamples
  LcModel LcProofs SerChainExamples.
From Verif Require SerAmplitude.
Import ListNotations.
Local Open Scope R_scope.

(** Files with the lineshapes that the package provides *)
Theorem C155_projection m d s r tl x w dyn : helicity_definition m d s r tl None x w dyn ->
  forall cl M, SerAmplitude.formulate m cl tl None = Ok M -> NoDup (di_chains d) ->
  forall c, In c (di_chains d) -> complete_chain m c -> resonance_possible (x c) -> final_possible s (x c) ->
  forall i j base cpl lo hi, cyclic i j (ct_k (x c)) -> between_thresholds base i j (ct_k (x c)) -> dalitz_range base i j (ct_k (x c)) lo hi ->
  only_chain w (di_chains d) base c ->
  is_RInt (fun t => Re (full_value (at_point (m_variables M) (dalitz_line base i j (ct_k (x c)) t) cpl) M)) lo hi
    ((hi - lo) * (IZR (p_spin (s 0%Z) + 1) / IZR (ct_spin (x c) + 1)) * (production_count (x c) * decay_count (x c))
     * (Cmod (base (w c)) ^ 2 * Cmod (ceval (Env base cpl) (fun _ => 0%Z) (de_expr (dyn c))) ^ 2)).
Proof. exact (complete_projection m d s r tl x w dyn). Qed.
Print Assumptions C155_projection.

(** Any lineshapes that do not depend on the other two Mandelstam variables *)
Theorem C155_lineshapes m d s r tl additional x w dyn : helicity_definition m d s r tl additional x w dyn ->
  forall cl M, SerAmplitude.formulate m cl tl additional = Ok M -> NoDup (di_chains d) -> forall c, In c (di_chains d) ->
  forall i j base cpl lo hi, cyclic i j (ct_k (x c)) -> between_thresholds base i j (ct_k (x c)) -> dalitz_range base i j (ct_k (x c)) lo hi ->
  only_chain w (di_chains d) base c ->
  ~ In (sigma_at i) (symbols_of (de_expr (dyn c))) -> ~ In (sigma_at j) (symbols_of (de_expr (dyn c))) ->
  resonance_possible (x c) -> final_possible s (x c) ->
  is_RInt (fun t => Re (full_value (at_point (m_variables M) (dalitz_line base i j (ct_k (x c)) t) cpl) M)) lo hi
    ((hi - lo) * (IZR (p_spin (s 0%Z) + 1) / IZR (ct_spin (x c) + 1)) * (production_count (x c) * decay_count (x c))
     * (Cmod (base (w c)) ^ 2 * Cmod (ceval (Env base cpl) (fun _ => 0%Z) (de_expr (dyn c))) ^ 2)).
Proof. exact (chain_projection m d s r tl additional x w dyn). Qed.
Print Assumptions C155_lineshapes.
Example C155_example : helicity_definition sx_model (sx_dist sx_chains) sx_s 1 sx_tl None sx_x sx_w sx_dyn /\
  (exists M, SerAmplitude.formulate sx_model true sx_tl None = Ok M) /\
  NoDup sx_chains /\ In sx_A sx_chains /\ complete_chain sx_model sx_A /\ resonance_possible (sx_x sx_A) /\ final_possible sx_s (sx_x sx_A) /\
  exists i j lo hi, cyclic i j (ct_k (sx_x sx_A)) /\ between_thresholds cr_base i j (ct_k (sx_x sx_A)) /\
    (lo < hi)%R /\ dalitz_range cr_base i j (ct_k (sx_x sx_A)) lo hi /\ only_chain sx_w sx_chains cr_base sx_A.
Proof. exact (conj (proj1 sx_definition) (conj (sx_formulate true) cr_example)). Qed.

(** The chains of /repo/docs/Lc2ppiK.json: the resonances that decay to two spinless particles count twice. *)
Theorem C155_Lc2ppiK cl M : SerAmplitude.formulate lc_model cl lc_tl lc_builders = Ok M -> forall c, In c lc_chains ->
  forall i j base cpl lo hi, cyclic i j (ct_k (lc_x c)) -> between_thresholds base i j (ct_k (lc_x c)) -> dalitz_range base i j (ct_k (lc_x c)) lo hi ->
  only_chain lc_w lc_chains base c ->
  is_RInt (fun t => Re (full_value (at_point (m_variables M) (dalitz_line base i j (ct_k (lc_x c)) t) cpl) M)) lo hi
    ((hi - lo) * ((if (ct_k (lc_x c) =? 1)%Z then 8 else 4) / IZR (ct_spin (lc_x c) + 1))
     * (Cmod (base (lc_w c)) ^ 2 * Cmod (ceval (Env base cpl) (fun _ => 0%Z) (de_expr (lc_dyn c))) ^ 2)).
Proof. exact (lc_projection cl M). Qed.
Print Assumptions C155_Lc2ppiK.
Example C155_Lc2ppiK_example : (exists M, SerAmplitude.formulate lc_model true lc_tl lc_builders = Ok M) /\
  forall c, In c lc_chains -> exists i j lo hi, cyclic i j (ct_k (lc_x c)) /\ between_thresholds (lc_only c) i j (ct_k (lc_x c)) /\
    (lo < hi)%R /\ dalitz_range (lc_only c) i j (ct_k (lc_x c)) lo hi /\ only_chain lc_w lc_chains (lc_only c) c.
Proof. exact (conj (lc_formulate true) lc_line). Qed.
