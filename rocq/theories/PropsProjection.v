(** C138: the projection of a subsystem with LS couplings onto its invariant mass. *)
From Coq Require Import String ZArith List Bool Reals.
From Coquelicot Require Import Complex Hierarchy RInt.
From Verif Require Import Prelude Spin Decay Expr Angles Sums CExpr SpecKin SpecDPD Builder SpecBuilder BuilderExamples
  SpecObs RelabelExamples RelabelShapeExamples ObsExamples SpecProjection ProjectionFacts ProjectionExamples.
Import ListNotations.
Local Open Scope R_scope.

(** The integral over the physical range of a line of constant mass is a sum over partial waves, without interference between
    resonances with different spins or different LS couplings. (For the existence of the range see C94_range.) *)
Theorem C138_projection b s dyn ref cl uc m i j k base cpl lo hi : std_decay (b_decay b) s -> dynamics_of b dyn -> plain_resonances (b_decay b) ->
  formulate b ref cl uc = Ok m -> b_prod_helicity b = false -> b_dec_helicity b = false ->
  (forall c, In c (d_chains (b_decay b)) -> allowed_chain c) -> one_subsystem (b_decay b) k -> cyclic i j k ->
  (forall c, In c (d_chains (b_decay b)) ->
     ~ In (sigma_at i) (symbols_of (de_expr (dyn c))) /\ ~ In (sigma_at j) (symbols_of (de_expr (dyn c)))) ->
  between_thresholds base i j k -> dalitz_range base i j k lo hi ->
  is_RInt (fun x => Re (full_value (at_point (m_variables m) (dalitz_line base i j k x) cpl) m)) lo hi
    ((hi - lo) * Rsum (waves (b_decay b)) (fun q => / IZR (wave_spin q + 1) * Cmod (Csum (chains_of_wave (b_decay b) q) (fun c =>
      RtoC (cyclic_sign c) * (ceval (Env base cpl) (fun _ => 0%Z) (de_expr (dyn c))
        * (if uc then coefficient else coupling_product) (Env base cpl) false false c 0%Z 0%Z 0%Z 0%Z))%C) ^ 2)).
Proof. exact (c138 b s dyn ref cl uc m i j k base cpl lo hi). Qed.
Print Assumptions C138_projection.

(** If the chains have pairwise different waves, each of them contributes |coupling times lineshape|^2 / (2J + 1). *)
Theorem C138_different b s dyn ref cl uc m i j k base cpl lo hi : std_decay (b_decay b) s -> dynamics_of b dyn -> plain_resonances (b_decay b) ->
  formulate b ref cl uc = Ok m -> b_prod_helicity b = false -> b_dec_helicity b = false ->
  (forall c, In c (d_chains (b_decay b)) -> allowed_chain c) -> one_subsystem (b_decay b) k -> cyclic i j k ->
  NoDup (map wave_of (d_chains (b_decay b))) ->
  (forall c, In c (d_chains (b_decay b)) ->
     ~ In (sigma_at i) (symbols_of (de_expr (dyn c))) /\ ~ In (sigma_at j) (symbols_of (de_expr (dyn c)))) ->
  between_thresholds base i j k -> dalitz_range base i j k lo hi ->
  is_RInt (fun x => Re (full_value (at_point (m_variables m) (dalitz_line base i j k x) cpl) m)) lo hi
    ((hi - lo) * Rsum (d_chains (b_decay b)) (fun c => / IZR (p_spin (ch_resonance c) + 1) * Cmod (ceval (Env base cpl) (fun _ => 0%Z) (de_expr (dyn c))
        * (if uc then coefficient else coupling_product) (Env base cpl) false false c 0%Z 0%Z 0%Z 0%Z)%C ^ 2)).
Proof. exact (c138_different b s dyn ref cl uc m i j k base cpl lo hi). Qed.
Print Assumptions C138_different.

Example C138_couplings_example : exists m, std_decay dl_decay ex_st /\ dynamics_of (dl_b dl_decay [] false) (fun _ => de_unit) /\
  plain_resonances dl_decay /\ formulate (dl_b dl_decay [] false) (Some 2%Z) false true = Ok m /\
  (forall c, In c (d_chains dl_decay) -> allowed_chain c) /\ one_subsystem dl_decay 2 /\ cyclic 3 1 2 /\
  NoDup (map wave_of (d_chains dl_decay)) /\
  (forall c, In c (d_chains dl_decay) -> ~ In (sigma_at 3) (symbols_of (de_expr de_unit)) /\ ~ In (sigma_at 1) (symbols_of (de_expr de_unit))) /\
  between_thresholds (rb_base (id_env 72 24)) 3 1 2.
Proof. exact pj_couplings. Qed.
Print Assumptions C138_couplings_example.
Example C138_spins_example : std_decay (b_decay ob_b) id_st /\ dynamics_of ob_b rb_dyn /\ plain_resonances (b_decay ob_b) /\
  (exists m, formulate ob_b None false false = Ok m) /\ b_prod_helicity ob_b = false /\ b_dec_helicity ob_b = false /\
  (forall c, In c (d_chains (b_decay ob_b)) -> allowed_chain c) /\ one_subsystem (b_decay ob_b) 1 /\ cyclic 2 3 1 /\
  NoDup (map wave_of (d_chains (b_decay ob_b))) /\
  (forall c, In c (d_chains (b_decay ob_b)) ->
     ~ In (sigma_at 2) (symbols_of (de_expr (rb_dyn c))) /\ ~ In (sigma_at 3) (symbols_of (de_expr (rb_dyn c)))) /\
  between_thresholds (rb_base (id_env 72 24)) 2 3 1.
Proof. exact pj_spins. Qed.
Print Assumptions C138_spins_example.
