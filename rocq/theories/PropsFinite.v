(** C96: amplitudes and intensity never divide by zero. The vocabulary is in SpecFinite.v. *)
From Coq Require Import String ZArith List Bool Reals.
From Coquelicot Require Import Complex.
From Verif Require Import Prelude Decay Expr CExpr SpecKin SpecDPD Builder Dynamics SpecDynamics SpecFinite
  FiniteFacts FiniteShapes RelabelExamples RelabelShapeExamples ObsExamples FiniteExamples.
Import ListNotations.
Local Open Scope Z_scope.

(** All divisions in the amplitudes are those of the lineshapes of the subsystem, and there are none in the intensity. *)
Theorem C96_divisions b s dyn ref cl uc m : std_decay (b_decay b) s -> dynamics_of b dyn ->
  formulate b ref cl uc = Ok m ->
  forall ev,
    divisors ev (fun _ => 0) (m_intensity m) = [] /\
    (forall key e x, dget key (m_amplitudes m) = Some e -> In x (divisors ev (fun _ => 0) e) ->
       exists k c, fst key = amp_name k /\ In c (d_chains (b_decay b)) /\ st_index (ch_spectator c) = k /\
         In x (divisors ev (fun _ => 0) (de_expr (dyn c)))) /\
    (forall c x l, In c (d_chains (b_decay b)) -> 0 <= p_spin (ch_resonance c) -> helicity_tuple s l ->
       In x (divisors ev (fun _ => 0) (de_expr (dyn c))) ->
       exists e, dget (amp_name (st_index (ch_spectator c)), amp_index l) (m_amplitudes m) = Some e /\
         In x (divisors ev (fun _ => 0) e)).
Proof.
  exact (fun D Dyn F ev => conj (intensity_divisors b s uc D ref cl m F ev _)
    (conj (amplitude_divisors b s dyn uc D Dyn ref cl m F ev) (lineshape_in_amplitude b s dyn uc D Dyn ref cl m F ev))).
Qed.
Print Assumptions C96_divisions.

(** Breit-Wigner models have no poles in the physical region, if the decay form factors have none. *)
Theorem C96_no_poles_partial b s dyn ref cl uc m base cpl : std_decay (b_decay b) s -> dynamics_of b dyn ->
  (b_prod_helicity b = false -> plain_resonances (b_decay b)) -> formulate b ref cl uc = Ok m ->
  physical (fun x => Re (base x)) -> nonsingular (fun x => Re (base x)) ->
  regular_dynamics (b_decay b) dyn base -> decay_form_factors_regular (b_decay b) dyn base ->
  well_defined m base cpl.
Proof. exact (c96 b s dyn ref cl uc m base cpl). Qed.
Print Assumptions C96_no_poles_partial.

Example C96_example : std_decay (b_decay ob_b) id_st /\ dynamics_of ob_b rb_dyn /\ plain_resonances (b_decay ob_b) /\
  (exists m, formulate ob_b None false false = Ok m) /\
  physical (fun x => Re (fe_base x)) /\ nonsingular (fun x => Re (fe_base x)) /\
  regular_dynamics (b_decay ob_b) rb_dyn fe_base /\ decay_form_factors_regular (b_decay ob_b) rb_dyn fe_base.
Proof.
  exact (conj ob_std (conj ob_dynamics (conj ob_plain (conj ob_formulate (conj (proj1 rb_physical) (conj (proj2 rb_physical)
    (conj fe_regular fe_decay_ff))))))).
Qed.

(** With decay form factors there are poles at physical points. *)
Theorem C96_no_poles_refuted : exists b s dyn m base,
  std_decay (b_decay b) s /\ dynamics_of b dyn /\ plain_resonances (b_decay b) /\ formulate b None false false = Ok m /\
  physical (fun x => Re (base x)) /\ nonsingular (fun x => Re (base x)) /\
  regular_dynamics (b_decay b) dyn base /\
  forall cpl, ~ well_defined m base cpl.
Proof. exact fx_refuted. Qed.
Print Assumptions C96_no_poles_refuted.
