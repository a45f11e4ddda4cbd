(** Properties C36-C38: dynamics/__init__.py and dynamics/builder.py.
    Specification vocabulary: SpecDynamics.v, SpecDPD.v, SpecBuilder.v *)
From Coq Require Import String ZArith QArith Qcanon List Bool Reals Permutation.
From Coquelicot Require Import Complex.
From Verif Require Import DecayProofs.
From Verif Require Import Prelude Spin Decay Expr CExpr Builder SpecDPD SpecBuilder Dynamics SpecDynamics Sums
  BuilderExamples LineshapeFacts DynamicsProofs LineshapeProofs DynExamples.
Import ListNotations.
Local Open Scope string_scope.
Local Open Scope C_scope.

(** ** C36: when the builder raises, which parameters it defines, and the value of its expression *)
Theorem C36_builder_total w c p0 r a b k i j :
  isobar_chain c p0 r a b k i j ->
  ((needs_decay_ls w = true -> j <> None) /\ (needs_production_ls w = true -> i <> None)
   -> exists e, bw_call w c = Ok e) /\
  ((needs_decay_ls w = true /\ j = None) \/ (needs_production_ls w = true /\ i = None)
   -> bw_call w c = Err ValueError).
Proof. exact (c36_total w c p0 r a b k i j). Qed.
Print Assumptions C36_builder_total.
Example C36_example : isobar_chain ff_chain (ff_s "D" 0) ff_r (ff_s "pi+" 1) (ff_s "pi-" 2) (ff_s "K" 3) (Some (LS 1 2)) (Some (LS 1 0)) /\
  closed_phsp phase_space_factor /\ phsp_value phase_space_factor two_body_phsp /\
  (forall e d p, exists x, bw_call (BWBuilder e d p phase_space_factor) ff_chain = Ok x).
Proof.
  split; [exact ff_iso|]. split; [exact phase_space_factor_closed|]. split; [exact phase_space_factor_value|].
  intros e d p. apply ff_all. reflexivity.
Qed.

Theorem C36_builder_defaults w c p0 r a b k i j e :
  isobar_chain c p0 r a b k i j -> bw_call w c = Ok e ->
  forall key v, dget key (de_params e) = Some v <->
    exists x q, key = KSym x /\ v = real_val q /\ In (x, q) (bw_parameters w p0 r a b k).
Proof. exact (c36_defaults w c p0 r a b k i j e). Qed.
Print Assumptions C36_builder_defaults.

Theorem C36_builder_symbols w c p0 r a b k i j e :
  closed_phsp (bw_phsp_factor w) ->
  isobar_chain c p0 r a b k i j -> bw_call w c = Ok e ->
  lineshape (de_expr e) = true /\
  forall x, In x (symbols_of (de_expr e)) ->
    x = sigma_of k \/ (exists s, In s [p0; a; b; k] /\ x = outer_mass s) \/
    exists v, dget (KSym x) (de_params e) = Some v.
Proof. exact (c36_symbols w c p0 r a b k i j e). Qed.
Print Assumptions C36_builder_symbols.

Theorem C36_builder_value w c p0 r a b k i j e f ev h :
  phsp_value (bw_phsp_factor w) f ->
  isobar_chain c p0 r a b k i j -> bw_call w c = Ok e ->
  ceval ev h (de_expr e) =
  chain_lineshape w f (orbital i) (orbital j) (e_sym ev (sigma_of k) * e_sym ev (sigma_of k)) (e_sym ev) p0 r a b k.
Proof. exact (c36_value w c p0 r a b k i j e f ev h). Qed.
Print Assumptions C36_builder_value.

(** A model with these lineshapes is closed, and each resonance has its own mass and width. *)
Theorem C36_model_closed b s dyn ref cl uc m :
  std_decay (b_decay b) s -> two_body_resonances (b_decay b) ->
  dynamics_of b dyn -> breit_wigner_dynamics (b_decay b) dyn -> formulate b ref cl uc = Ok m ->
  (forall x, occurs_in_amplitudes m (OVar x) -> (exists v, dget (KSym x) (m_params m) = Some v) \/ mandelstam x) /\
  (latex_determines (b_decay b) -> forall c v, In c (d_chains (b_decay b)) ->
     (dget (KSym (resonance_mass (ch_resonance c))) (m_params m) = Some v -> v = real_val (p_mass (ch_resonance c))) /\
     (dget (KSym (resonance_width (ch_resonance c))) (m_params m) = Some v -> v = real_val (p_width (ch_resonance c)))) /\
  (forall v, dget (KSym resonance_radius) (m_params m) = Some v \/ dget (KSym (parent_radius (s 0%Z))) (m_params m) = Some v ->
     v = one_val).
Proof. exact (c36_model b s dyn ref cl uc m). Qed.
Print Assumptions C36_model_closed.
Example C36_model_example : std_decay (b_decay bx_builder) ex_st /\ two_body_resonances (b_decay bx_builder) /\
  dynamics_of bx_builder bx_dyn /\ breit_wigner_dynamics (b_decay bx_builder) bx_dyn /\
  latex_determines (b_decay bx_builder) /\ exists m, formulate bx_builder None false false = Ok m.
Proof.
  split; [exact ex_std|]. split; [exact bx_two_body|]. split; [exact bx_dynamics|]. split; [exact bx_bw|].
  split; [exact bx_latex|exact bx_formulate].
Qed.

(** ** C37: the decay form factor is evaluated at s^2 instead of s: it differs from the form factor at the
    squared mass and depends on the unit of mass. *)
Theorem C37_form_factor_at_mass_squared_refuted :
  exists c p0 r a b k i j e0 e1 ev ev' t,
  isobar_chain c p0 r a b k i j /\
  bw_call (BWBuilder false false false phase_space_factor) c = Ok e0 /\
  bw_call (BWBuilder false true false phase_space_factor) c = Ok e1 /\
  (0 < t)%R /\ rescaled t (e_sym ev) (e_sym ev') p0 r a b k /\
  let ff := fun ev => ceval ev (fun _ => 0%Z) (de_expr e1) / ceval ev (fun _ => 0%Z) (de_expr e0) in
  ff ev <> ff ev' /\
  ff ev <> form_factor (orbital j) (e_sym ev (sigma_of k)) (e_sym ev (outer_mass a)) (e_sym ev (outer_mass b))
             (e_sym ev resonance_radius).
Proof. exact c37_refuted. Qed.
Print Assumptions C37_form_factor_at_mass_squared_refuted.

(** What remains: without decay form factor, or in an S-wave, the lineshape does not depend on the unit of mass:
    it is dimensionless with an energy-dependent width, and of dimension mass^-2 without. *)
Theorem C37_unit_independent_partial w c p0 r a b k i j e f ev ev' h t :
  (0 < t)%R ->
  phsp_value (bw_phsp_factor w) f ->
  (forall s m1 m2, f (RtoC (t * t) * s) (RtoC t * m1) (RtoC t * m2) = f s m1 m2) ->
  isobar_chain c p0 r a b k i j -> bw_call w c = Ok e ->
  bw_decay_form_factor w = false \/ orbital j = 0%Z ->
  rescaled t (e_sym ev) (e_sym ev') p0 r a b k ->
  ceval ev' h (de_expr e) =
    RtoC (if bw_energy_dependent_width w then 1 else / (t * t)) * ceval ev h (de_expr e).
Proof. exact (c37_scaling w c p0 r a b k i j e f ev ev' h t). Qed.
Print Assumptions C37_unit_independent_partial.
Example C37_example : phsp_value phase_space_factor two_body_phsp /\
  (forall t s m1 m2, (0 < t)%R ->
     two_body_phsp (RtoC (t * t) * s) (RtoC t * m1) (RtoC t * m2) = two_body_phsp s m1 m2) /\
  (exists x, bw_call (BWBuilder true false true phase_space_factor) ff_chain = Ok x).
Proof.
  split; [exact phase_space_factor_value|]. split; [intros; apply two_body_phsp_scale; auto|]. apply ff_all. reflexivity.
Qed.

(** ** C38 *)
Theorem C38_simple (ev : env) (h : symbol -> Z) s m G (xs xm xG : R) :
  ceval ev h s = RtoC xs -> ceval ev h m = RtoC xm -> ceval ev h G = RtoC xG ->
  (0 < xm)%R -> (0 < xG)%R ->
  let bw := ceval ev h (simple_breit_wigner s m G) in
  bw = RtoC 1 / (RtoC (xm * xm - xs) - Ci * RtoC (xm * xG)) /\
  Im bw = (xm * xG * Cmod bw ^ 2)%R /\
  (Cmod bw <= / (xm * xG))%R /\
  (Cmod bw = / (xm * xG) <-> xs = xm * xm)%R /\
  (xs = (xm * xm)%R -> bw = Ci * RtoC (/ (xm * xG))).
Proof. exact (c38_simple ev h s m G xs xm xG). Qed.
Print Assumptions C38_simple.
Example C38_simple_example : ceval (lx_env 2 1 (/ 2)) (fun _ => 0%Z) (lx "s") = RtoC 2 /\
  ceval (lx_env 2 1 (/ 2)) (fun _ => 0%Z) (lx "m") = RtoC 1 /\ ceval (lx_env 2 1 (/ 2)) (fun _ => 0%Z) (lx "G") = RtoC (/ 2).
Proof. repeat split. Qed.

Theorem C38_reduces_to_simple (ev : env) (h : symbol -> Z) s m G d rho :
  ceval ev h (breit_wigner s m G (CNum 0) (CNum 0) 0 d rho) = ceval ev h (simple_breit_wigner s m G).
Proof. exact (c38_reduces ev h s m G d rho). Qed.
Print Assumptions C38_reduces_to_simple.

Theorem C38_running_width (ev : env) (h : symbol -> Z) s m G m1 m2 L d rho f :
  phsp_value rho f ->
  L <> 0%Z \/ is_zero m1 = false \/ is_zero m2 = false ->
  ceval ev h (breit_wigner s m G m1 m2 L d rho) =
  bw_simple (ceval ev h s) (ceval ev h m) (running_width f L (ceval ev h s) (ceval ev h m) (ceval ev h G) (ceval ev h m1) (ceval ev h m2) (ceval ev h d)).
Proof. exact (c38_running ev h s m G m1 m2 L d rho f). Qed.
Print Assumptions C38_running_width.

Theorem C38_multichannel (ev : env) (h : symbol -> Z) s m cs :
  ceval ev h (multichannel_breit_wigner s m cs) = bw_simple (ceval ev h s) (ceval ev h m) (Csum cs (channel_value ev h)).
Proof. exact (c38_multichannel ev h s m cs). Qed.
Print Assumptions C38_multichannel.

Theorem C38_multichannel_simple_channels (ev : env) (h : symbol -> Z) s m cs :
  (forall c, In c cs -> exists w, c = default_channel s m w) ->
  ceval ev h (multichannel_breit_wigner s m cs) =
  bw_simple (ceval ev h s) (ceval ev h m) (Csum cs (fun c => ceval ev h (cn_width c)) * ceval ev h m / csqrt (ceval ev h s)).
Proof. exact (c38_channels_simple ev h s m cs). Qed.
Print Assumptions C38_multichannel_simple_channels.

Theorem C38_on_resonance (ev : env) (h : symbol -> Z) s m G m1 m2 L r rho f :
  phsp_value rho f ->
  ceval ev h s = ceval ev h m * ceval ev h m -> ceval ev h m <> RtoC 0 -> ceval ev h G <> RtoC 0 ->
  form_factor L (ceval ev h m * ceval ev h m) (ceval ev h m1) (ceval ev h m2) (ceval ev h r) <> RtoC 0 -> f (ceval ev h m * ceval ev h m) (ceval ev h m1) (ceval ev h m2) <> RtoC 0 ->
  ceval ev h (relativistic_breit_wigner s m G m1 m2 L r rho) = Ci /\
  ceval ev h (breit_wigner s m G m1 m2 L r rho) = Ci / (ceval ev h m * ceval ev h G).
Proof. exact (c38_on_resonance ev h s m G m1 m2 L r rho f). Qed.
Print Assumptions C38_on_resonance.
Example C38_on_resonance_example :
  form_factor 1 (RtoC 1 * RtoC 1) (RtoC 0) (RtoC 0) (RtoC 1) <> RtoC 0 /\
  two_body_phsp (RtoC 1 * RtoC 1) (RtoC 0) (RtoC 0) <> RtoC 0.
Proof. split; [exact lx_form_factor|exact lx_phsp]. Qed.

Theorem C38_min_l (ev : env) (h : symbol -> Z) s mt ms m G m1 m2 ld lp rd rp rho f (xm : R) :
  phsp_value rho f ->
  ceval ev h m = RtoC xm -> (0 < xm)%R ->
  ceval ev h (breit_wigner_min_l s mt ms m G m1 m2 ld lp rd rp rho) =
    form_factor lp (ceval ev h mt * ceval ev h mt) (csqrt (ceval ev h s)) (ceval ev h ms) (ceval ev h rp) / form_factor lp (ceval ev h mt * ceval ev h mt) (ceval ev h m) (ceval ev h ms) (ceval ev h rp)
    * bw_simple (ceval ev h s) (ceval ev h m) (running_width f ld (ceval ev h s) (ceval ev h m) (ceval ev h G) (ceval ev h m1) (ceval ev h m2) (ceval ev h rd))
    * (form_factor ld (ceval ev h s) (ceval ev h m1) (ceval ev h m2) (ceval ev h rd) / form_factor ld (ceval ev h m * ceval ev h m) (ceval ev h m1) (ceval ev h m2) (ceval ev h rd))
  /\ (ceval ev h s = ceval ev h m * ceval ev h m -> ceval ev h G <> RtoC 0 -> form_factor lp (ceval ev h mt * ceval ev h mt) (ceval ev h m) (ceval ev h ms) (ceval ev h rp) <> RtoC 0 ->
      form_factor ld (ceval ev h m * ceval ev h m) (ceval ev h m1) (ceval ev h m2) (ceval ev h rd) <> RtoC 0 -> f (ceval ev h m * ceval ev h m) (ceval ev h m1) (ceval ev h m2) <> RtoC 0 ->
      ceval ev h (breit_wigner_min_l s mt ms m G m1 m2 ld lp rd rp rho) = Ci / (ceval ev h m * ceval ev h G)).
Proof. exact (c38_min_l ev h s mt ms m G m1 m2 ld lp rd rp rho f xm). Qed.
Print Assumptions C38_min_l.

Theorem C38_bugg (ev : env) (h : symbol -> Z) s m G m1 m2 g :
  let sA := ceval ev h m1 * ceval ev h m1 - ceval ev h m2 * ceval ev h m2 / RtoC 2 in
  ceval ev h (bugg_breit_wigner s m G m1 m2 g) =
    RtoC 1 / (ceval ev h m * ceval ev h m - ceval ev h s - Ci * ((ceval ev h s - sA) / (ceval ev h m * ceval ev h m - sA) * (ceval ev h m * ceval ev h G * cexp (- ceval ev h g * ceval ev h s))))
  /\ (ceval ev h s = sA -> ceval ev h (bugg_breit_wigner s m G m1 m2 g) = RtoC 1 / (ceval ev h m * ceval ev h m - sA))
  /\ (ceval ev h s = ceval ev h m * ceval ev h m -> ceval ev h m * ceval ev h m <> sA ->
      ceval ev h (bugg_breit_wigner s m G m1 m2 g) = bw_simple (ceval ev h m * ceval ev h m) (ceval ev h m) (ceval ev h G * cexp (- ceval ev h g * (ceval ev h m * ceval ev h m)))).
Proof. exact (c38_bugg ev h s m G m1 m2 g). Qed.
Print Assumptions C38_bugg.

Theorem C38_flatte (ev : env) (h : symbol -> Z) s m w1 w2 a1 b1 a2 b2 :
  let q s m1 m2 := csqrt (breakup_squared s m1 m2) in
  ceval ev h (flatte_s_wave s m w1 w2 a1 b1 a2 b2) =
    bw_simple (ceval ev h s) (ceval ev h m)
      ((ceval ev h w1 * (q (ceval ev h s) (ceval ev h a1) (ceval ev h b1) / q (ceval ev h m * ceval ev h m) (ceval ev h a2) (ceval ev h b2))
        + ceval ev h w2 * (q (ceval ev h s) (ceval ev h a2) (ceval ev h b2) / q (ceval ev h m * ceval ev h m) (ceval ev h a2) (ceval ev h b2))) * (ceval ev h m / csqrt (ceval ev h s)))
  /\ (forall xm : R, ceval ev h m = RtoC xm -> (0 < xm)%R -> ceval ev h s = ceval ev h m * ceval ev h m -> ceval ev h a1 = ceval ev h a2 -> ceval ev h b1 = ceval ev h b2 ->
      q (ceval ev h m * ceval ev h m) (ceval ev h a2) (ceval ev h b2) <> RtoC 0 ->
      ceval ev h (flatte_s_wave s m w1 w2 a1 b1 a2 b2) = bw_simple (ceval ev h m * ceval ev h m) (ceval ev h m) (ceval ev h w1 + ceval ev h w2)).
Proof. exact (c38_flatte ev h s m w1 w2 a1 b1 a2 b2). Qed.
Print Assumptions C38_flatte.
