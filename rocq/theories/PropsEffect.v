(** C151: Which couplings have an effect on the intensity *)
From Coq Require Import String ZArith QArith Qcanon List Bool Reals.
From Coquelicot Require Import Complex.
From Verif Require Import Prelude Decay Expr CExpr SpecKin SpecDPD Builder SpecBuilder SpecObs SpecProjection SpecEffect
  Dynamics SpecDynamics BuilderExamples NarrowExamples EffectProofs EffectExamples EffectShapes.
Import ListNotations.
Local Open Scope string_scope.
Local Open Scope Z_scope.
Local Open Scope list_scope.

(** In the LS basis every coupling of a model has an effect: it changes the intensity at some point of the Dalitz plot, for some
    values of the other couplings. *)
Theorem C151_LS b s dyn ref cl uc m : std_decay (b_decay b) s -> dynamics_of b dyn -> plain_resonances (b_decay b) ->
  formulate b ref cl uc = Ok m -> b_prod_helicity b = false -> b_dec_helicity b = false ->
  NoDup (map (chain_key false false) (d_chains (b_decay b))) ->
  (forall c, In c (d_chains (b_decay b)) -> allowed_chain c /\ live dyn c) ->
  forall n v, occurs_in_amplitudes m (OIdx n v) -> has_effect m (n, v).
Proof. exact (ls_all_effect b s dyn ref cl uc m). Qed.
Print Assumptions C151_LS.
Example C151_LS_example : exists m, std_decay dl_decay ex_st /\ dynamics_of (dl_b dl_decay [] false) (fun _ => de_unit) /\
  plain_resonances dl_decay /\ formulate (dl_b dl_decay [] false) (Some 2) false true = Ok m /\
  NoDup (map (chain_key false false) (d_chains dl_decay)) /\
  (forall c, In c (d_chains dl_decay) -> allowed_chain c /\ live (fun _ => de_unit) c) /\
  exists n v, occurs_in_amplitudes m (OIdx n v).
Proof. exact ls_example. Qed.

(** The lineshapes of the Breit-Wigner builder are not zero, whatever its options. So every coupling has an effect in such a model. *)
Theorem C151_breit_wigner b s dyn ref cl uc m : std_decay (b_decay b) s -> dynamics_of b dyn -> two_body_resonances (b_decay b) ->
  formulate b ref cl uc = Ok m -> b_prod_helicity b = false -> b_dec_helicity b = false ->
  NoDup (map (chain_key false false) (d_chains (b_decay b))) -> (forall c, In c (d_chains (b_decay b)) -> allowed_chain c) ->
  (forall c, In c (d_chains (b_decay b)) -> dyn c = DefExpr (CNum 1) [] \/
     exists w, bw_phsp_factor w = phase_space_factor /\ bw_call w c = Ok (dyn c)) ->
  forall n v, occurs_in_amplitudes m (OIdx n v) -> has_effect m (n, v).
Proof. exact (ls_breit_wigner b s dyn ref cl uc m). Qed.
Print Assumptions C151_breit_wigner.
Example C151_breit_wigner_example : exists m, std_decay dl_decay ex_st /\ dynamics_of (nw_b true) (nw_dyn true) /\ two_body_resonances dl_decay /\
  formulate (nw_b true) (Some 2) false true = Ok m /\ NoDup (map (chain_key false false) (d_chains dl_decay)) /\
  forall c, In c (d_chains dl_decay) -> allowed_chain c /\ bw_call (nw_w true) c = Ok (nw_dyn true c).
Proof. exact ls_bw_example. Qed.

(** In any basis, the couplings of a term with allowed helicities have an effect if the LS factors of the term are not zero. *)
Theorem C151_term b s dyn ref cl uc m : std_decay (b_decay b) s -> dynamics_of b dyn ->
  (b_prod_helicity b = false -> plain_resonances (b_decay b)) -> formulate b ref cl uc = Ok m ->
  NoDup (map (chain_key (b_prod_helicity b) (b_dec_helicity b)) (d_chains (b_decay b))) ->
  forall c, In c (d_chains (b_decay b)) -> forall l, helicity_tuple s l -> forall i j k, cyclic i j k -> st_index (ch_spectator c) = k ->
  let J := p_spin (ch_resonance c) in let r := at4 l 0 + at4 l k in
  forall key, In key (coupling_keys uc (b_prod_helicity b) (b_dec_helicity b) c r (at4 l k) (at4 l i) (at4 l j)) ->
  live dyn c -> In r (helicities J) -> In (at4 l i - at4 l j) (helicities J) ->
  prod_factor (b_prod_helicity b) c r (at4 l k) <> 0%R -> dec_factor (b_dec_helicity b) c (at4 l) <> 0%R -> has_effect m key.
Proof. exact (coupling_effect b s dyn ref cl uc m). Qed.
Print Assumptions C151_term.

(** In the helicity basis the couplings with |li - lj| <= J have an effect and those with |li - lj| > J have none, although both
    are parameters of the model. *)
Theorem C151_helicity_partial b s dyn ref cl uc m : std_decay (b_decay b) s -> dynamics_of b dyn -> formulate b ref cl uc = Ok m ->
  b_prod_helicity b = true -> b_dec_helicity b = true -> NoDup (map (fun c => p_latex (ch_resonance c)) (d_chains (b_decay b))) ->
  forall c l i j k, In c (d_chains (b_decay b)) -> st_index (ch_spectator c) = k -> cyclic i j k -> helicity_tuple s l ->
    let J := p_spin (ch_resonance c) in let r := at4 l 0 + at4 l k in
    In r (helicities J) ->
    (forall key, In key (coupling_keys uc true true c r (at4 l k) (at4 l i) (at4 l j)) ->
       exists v, dget (KIdx (fst key) (snd key)) (m_params m) = Some v) /\
    (In (at4 l i - at4 l j) (helicities J) -> live dyn c ->
       forall key, In key (coupling_keys uc true true c r (at4 l k) (at4 l i) (at4 l j)) -> has_effect m key) /\
    (~ In (at4 l i - at4 l j) (helicities J) -> no_effect m (decay_key uc true true c r (at4 l k) (at4 l i) (at4 l j))).
Proof. exact (helicity_effect b s dyn ref cl uc m). Qed.
Print Assumptions C151_helicity_partial.
Example C151_helicity_example : std_decay pp_decay pp_s /\ dynamics_of pp_b (fun _ => de_unit) /\
  (exists m, formulate pp_b None false false = Ok m) /\ NoDup (map (fun c => p_latex (ch_resonance c)) (d_chains pp_decay)) /\
  (forall c, In c (d_chains pp_decay) -> live (fun _ => de_unit) c) /\
  In pp_psi (d_chains pp_decay) /\ helicity_tuple pp_s (0, 0, 1, -1) /\ In 0 (helicities (p_spin (ch_resonance pp_psi))) /\
  In (1 - -1) (helicities (p_spin (ch_resonance pp_psi))) /\ ~ In (1 - -1) (helicities (p_spin (ch_resonance pp_f0))).
Proof. exact pp_example. Qed.

(** So not every parameter of a model has an effect: B -> K p pbar with a scalar that decays to p pbar, and its coupling to
    opposite helicities. *)
Theorem C151_all_parameters_refuted : mk_builder pp_decay (MinBool true) false = Ok pp_b /\ std_decay pp_decay pp_s /\
  exists m, formulate pp_b None false false = Ok m /\
  dget (KIdx (decay_name true) [IStr "f0"; IHel 1; IHel (-1)]) (m_params m) <> None /\
  no_effect m (decay_name true, [IStr "f0"; IHel 1; IHel (-1)]).
Proof. exact (conj pp_mk (conj pp_std pp_refuted)). Qed.
Print Assumptions C151_all_parameters_refuted.
