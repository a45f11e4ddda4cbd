(** C152: Couplings are determined by the amplitudes up to one complex factor per resonance *)
From Coq Require Import String ZArith QArith Qcanon List Bool Reals.
From Coquelicot Require Import Complex.
From Verif Require Import Prelude Decay Expr CExpr SpecKin SpecDPD Builder SpecBuilder SpecObs SpecProjection SpecScale
  BuilderExamples RelabelExamples RelabelShapeExamples EffectExamples ProjectionExamples ScaleProofs.
Import ListNotations.
Local Open Scope string_scope.
Local Open Scope Z_scope.
Local Open Scope list_scope.

(** If the production couplings of each resonance are multiplied by a number and its decay couplings are divided by it, no amplitude
    changes, nor does the intensity. *)
Theorem C152_rescaled b s dyn ref cl uc m : std_decay (b_decay b) s -> dynamics_of b dyn ->
  (b_prod_helicity b = false -> plain_resonances (b_decay b)) -> formulate b ref cl uc = Ok m ->
  forall z cpl cpl', uc = false -> (forall x, z x <> RtoC 0) -> rescaled (b_prod_helicity b) (b_dec_helicity b) z cpl cpl' -> forall sym,
    (forall k l, In k [1; 2; 3] -> helicity_tuple s l -> amp_value (Env sym cpl') m k l = amp_value (Env sym cpl) m k l) /\
    full_value (Env sym cpl') m = full_value (Env sym cpl) m.
Proof. exact (rescale b s dyn ref cl uc m). Qed.
Print Assumptions C152_rescaled.

(** So one production coupling of each resonance, if it is not zero, can be fixed to 1. *)
Theorem C152_fixed_to_one b s dyn ref cl uc m : std_decay (b_decay b) s -> dynamics_of b dyn ->
  (b_prod_helicity b = false -> plain_resonances (b_decay b)) -> formulate b ref cl uc = Ok m ->
  forall cpl (v : string -> list ival), uc = false ->
    (forall c, In c (d_chains (b_decay b)) ->
       cpl (production_name (b_prod_helicity b)) (IStr (p_latex (ch_resonance c)) :: v (p_latex (ch_resonance c))) <> RtoC 0) ->
    exists cpl',
      (forall c, In c (d_chains (b_decay b)) ->
         cpl' (production_name (b_prod_helicity b)) (IStr (p_latex (ch_resonance c)) :: v (p_latex (ch_resonance c))) = RtoC 1) /\
      forall sym,
        (forall k l, In k [1; 2; 3] -> helicity_tuple s l -> amp_value (Env sym cpl') m k l = amp_value (Env sym cpl) m k l) /\
        full_value (Env sym cpl') m = full_value (Env sym cpl) m.
Proof. exact (convention b s dyn ref cl uc m). Qed.
Print Assumptions C152_fixed_to_one.

(** The amplitudes on one line of constant mass of a subsystem determine the product of couplings, or the coefficient, of each of its
    chains, if the resonances have different spins and the lineshapes depend on this mass only. *)
Theorem C152_products_determined b s dyn ref cl uc m : std_decay (b_decay b) s -> dynamics_of b dyn ->
  (b_prod_helicity b = false -> plain_resonances (b_decay b)) -> formulate b ref cl uc = Ok m ->
  forall base i j k lo hi, cyclic i j k -> between_thresholds base i j k -> dalitz_range base i j k lo hi ->
  NoDup (map (fun c => p_spin (ch_resonance c)) (chains_in (b_decay b) k)) ->
  (forall c, In c (chains_in (b_decay b) k) ->
    ~ In (sigma_at i) (symbols_of (de_expr (dyn c))) /\ ~ In (sigma_at j) (symbols_of (de_expr (dyn c)))) ->
  forall cpl cpl' l, helicity_tuple s l ->
  (forall x, (lo <= x <= hi)%R -> amp_value (at_point (m_variables m) (dalitz_line base i j k x) cpl) m k l
     = amp_value (at_point (m_variables m) (dalitz_line base i j k x) cpl') m k l) ->
  forall c, In c (chains_in (b_decay b) k) -> ceval (Env base cpl) (fun _ => 0) (de_expr (dyn c)) <> RtoC 0 ->
  In (at4 l 0 + at4 l k) (helicities (p_spin (ch_resonance c))) -> In (at4 l i - at4 l j) (helicities (p_spin (ch_resonance c))) ->
  prod_factor (b_prod_helicity b) c (at4 l 0 + at4 l k) (at4 l k) <> 0%R -> dec_factor (b_dec_helicity b) c (at4 l) <> 0%R ->
  (if uc then coefficient else coupling_product) (Env base cpl') (b_prod_helicity b) (b_dec_helicity b)
    c (at4 l 0 + at4 l k) (at4 l k) (at4 l i) (at4 l j)
  = (if uc then coefficient else coupling_product) (Env base cpl) (b_prod_helicity b) (b_dec_helicity b)
    c (at4 l 0 + at4 l k) (at4 l k) (at4 l i) (at4 l j).
Proof.
  exact (fun D Y P F base i j k lo hi Cy B Rg N S => products_observable b s dyn ref cl uc m D Y P F base i j k lo hi Cy B Rg N S).
Qed.
Print Assumptions C152_products_determined.

(** In the helicity basis, two sets of couplings that are not zero and give the same amplitudes differ by one factor for each resonance. *)
Theorem C152_one_factor b s dyn ref cl m : std_decay (b_decay b) s -> dynamics_of b dyn -> formulate b ref cl false = Ok m ->
  b_prod_helicity b = true -> b_dec_helicity b = true ->
  forall base i j k lo hi, cyclic i j k -> between_thresholds base i j k -> dalitz_range base i j k lo hi ->
  NoDup (map (fun c => p_spin (ch_resonance c)) (chains_in (b_decay b) k)) ->
  (forall c, In c (chains_in (b_decay b) k) ->
    ~ In (sigma_at i) (symbols_of (de_expr (dyn c))) /\ ~ In (sigma_at j) (symbols_of (de_expr (dyn c)))) ->
  forall cpl cpl',
  (forall l x, helicity_tuple s l -> (lo <= x <= hi)%R -> amp_value (at_point (m_variables m) (dalitz_line base i j k x) cpl) m k l
     = amp_value (at_point (m_variables m) (dalitz_line base i j k x) cpl') m k l) ->
  forall c, In c (chains_in (b_decay b) k) -> ceval (Env base cpl) (fun _ => 0) (de_expr (dyn c)) <> RtoC 0 ->
  let J := p_spin (ch_resonance c) in let label := IStr (p_latex (ch_resonance c)) in
  (forall r lk, cpl (production_name true) [label; IHel r; IHel lk] <> RtoC 0) ->
  (forall li lj, cpl (decay_name true) [label; IHel li; IHel lj] <> RtoC 0) ->
  (exists l, helicity_tuple s l /\ In (at4 l 0 + at4 l k) (helicities J) /\ In (at4 l i - at4 l j) (helicities J)) ->
  exists z, z <> RtoC 0 /\ forall l, helicity_tuple s l ->
    (In (at4 l 0 + at4 l k) (helicities J) ->
       cpl' (production_name true) [label; IHel (at4 l 0 + at4 l k); IHel (at4 l k)]
       = (z * cpl (production_name true) [label; IHel (at4 l 0 + at4 l k)%Z; IHel (at4 l k)])%C) /\
    (In (at4 l i - at4 l j) (helicities J) ->
       cpl' (decay_name true) [label; IHel (at4 l i); IHel (at4 l j)]
       = (cpl (decay_name true) [label; IHel (at4 l i); IHel (at4 l j)] / z)%C).
Proof. exact (scale_unique b s dyn ref cl m). Qed.
Print Assumptions C152_one_factor.

(** In the LS basis, with one subsystem whose chains have different waves, the amplitudes determine the product of couplings, or the
    coefficient, of every chain, also if several chains have the same resonance or resonances with the same spin. *)
Theorem C152_LS_determined b s dyn ref cl uc m : std_decay (b_decay b) s -> dynamics_of b dyn -> plain_resonances (b_decay b) ->
  formulate b ref cl uc = Ok m -> b_prod_helicity b = false -> b_dec_helicity b = false ->
  forall base i j k lo hi, cyclic i j k -> between_thresholds base i j k -> dalitz_range base i j k lo hi ->
  one_subsystem (b_decay b) k -> (forall c, In c (d_chains (b_decay b)) -> allowed_chain c) -> NoDup (map wave_of (d_chains (b_decay b))) ->
  (forall c, In c (d_chains (b_decay b)) ->
    ~ In (sigma_at i) (symbols_of (de_expr (dyn c))) /\ ~ In (sigma_at j) (symbols_of (de_expr (dyn c)))) ->
  forall cpl cpl',
  (forall l x, helicity_tuple s l -> (lo <= x <= hi)%R -> amp_value (at_point (m_variables m) (dalitz_line base i j k x) cpl) m k l
     = amp_value (at_point (m_variables m) (dalitz_line base i j k x) cpl') m k l) ->
  forall c, In c (d_chains (b_decay b)) -> ceval (Env base cpl) (fun _ => 0) (de_expr (dyn c)) <> RtoC 0 ->
  forall r lk li lj, (if uc then coefficient else coupling_product) (Env base cpl') false false c r lk li lj
    = (if uc then coefficient else coupling_product) (Env base cpl) false false c r lk li lj.
Proof. exact (ls_determined b s dyn ref cl uc m). Qed.
Print Assumptions C152_LS_determined.

(** B -> K p pbar with a scalar and a vector that decay to p pbar *)
Example C152_example : exists m lo hi, std_decay pp_decay pp_s /\ dynamics_of pp_b (fun _ => de_unit) /\
  formulate pp_b None false false = Ok m /\ cyclic 2 3 1 /\ between_thresholds (rb_base (id_env 72 24)) 2 3 1 /\
  dalitz_range (rb_base (id_env 72 24)) 2 3 1 lo hi /\ NoDup (map (fun c => p_spin (ch_resonance c)) (chains_in pp_decay 1)) /\
  length (chains_in pp_decay 1) = 2%nat /\
  (forall c, In c (chains_in pp_decay 1) -> forall cpl, ceval (Env (rb_base (id_env 72 24)) cpl) (fun _ => 0) (de_expr de_unit) <> RtoC 0 /\
     exists l, helicity_tuple pp_s l /\ In (at4 l 0 + at4 l 1) (helicities (p_spin (ch_resonance c))) /\
       In (at4 l 2 - at4 l 3) (helicities (p_spin (ch_resonance c)))) /\
  rescaled true true (fun _ => RtoC 2) (fun n _ => if eqb n (production_name true) then RtoC 1 else RtoC 4)
    (fun n _ => RtoC 2).
Proof. exact pp_scale_example. Qed.
Print Assumptions C152_example.
(** The two chains of this decay have the same resonance and different LS couplings. *)
Example C152_LS_example : exists m, std_decay dl_decay ex_st /\ dynamics_of (dl_b dl_decay [] false) (fun _ => de_unit) /\
  plain_resonances dl_decay /\ formulate (dl_b dl_decay [] false) (Some 2%Z) false true = Ok m /\
  (forall c, In c (d_chains dl_decay) -> allowed_chain c) /\ one_subsystem dl_decay 2 /\ cyclic 3 1 2 /\
  NoDup (map wave_of (d_chains dl_decay)) /\
  (forall c, In c (d_chains dl_decay) -> ~ In (sigma_at 3) (symbols_of (de_expr de_unit)) /\ ~ In (sigma_at 1) (symbols_of (de_expr de_unit))) /\
  between_thresholds (rb_base (id_env 72 24)) 3 1 2.
Proof. exact pj_couplings. Qed.
Print Assumptions C152_LS_example.
