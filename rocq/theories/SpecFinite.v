(** Specification vocabulary for expressions without poles (C96) *)
From Coq Require Import String ZArith List Bool Reals.
From Coquelicot Require Import Complex.
From Verif Require Import Prelude Decay Expr CExpr SpecKin SpecDPD Builder Dynamics SpecDynamics.
Import ListNotations.
Local Open Scope list_scope.

(** All numbers that are divided by when an expression is evaluated: the denominators of its quotients, 4 s in break-up
    momenta and the Blatt-Weisskopf polynomials in form factors. *)
Fixpoint divisors (ev : env) (h : symbol -> Z) (e : cexpr) : list C :=
  match e with
  | CRat _ | CIm | CVar _ | CIdx _ _ | CDelta _ _ | CSign _ | CWigner _ _ _ _ | CCG _ _ _ _ _ _ => []
  | CAdd a b | CSub a b | CMul a b => divisors ev h a ++ divisors ev h b
  | CDiv a b => ceval ev h b :: divisors ev h a ++ divisors ev h b
  | CNeg a | CSqr a | CSqrt a | CExp a | CAbs2 a => divisors ev h a
  | CSum e pools => pool_flat (fun h => divisors ev h e) pools h
  | CFormFactor s m1 m2 L r =>
      let r' := ceval ev h r in
      (RtoC 4 * ceval ev h s)%C
      :: bw_poly (Z.to_nat L) (breakup_squared (ceval ev h s) (ceval ev h m1) (ceval ev h m2) * (r' * r'))%C
      :: divisors ev h s ++ divisors ev h m1 ++ divisors ev h m2 ++ divisors ev h r
  | CBreakup s m1 m2 =>
      (RtoC 4 * ceval ev h s)%C :: divisors ev h s ++ divisors ev h m1 ++ divisors ev h m2
  end.
Definition no_pole (ev : env) (e : cexpr) : Prop :=
  forall x, In x (divisors ev (fun _ => 0%Z) e) -> x <> RtoC 0.

(** Nothing goes wrong when a model is evaluated: the angles are real, and amplitudes and intensity never divide by 0. *)
Definition well_defined (m : model) (base : symbol -> C) (cpl : string -> list ival -> C) : Prop :=
  (forall x e, dget x (m_variables m) = Some e -> real_valued (fun y => Re (base y)) e) /\
  (forall key e, dget key (m_amplitudes m) = Some e -> no_pole (at_point (m_variables m) base cpl) e) /\
  no_pole (at_point (m_variables m) base cpl) (m_intensity m).

(** A resonance with positive mass and width, between the thresholds of its decay and of its production; all
    parameters are real numbers. *)
Definition real_at (base : symbol -> C) (x : symbol) : Prop := base x = RtoC (Re (base x)).
Definition real_parameters (base : symbol -> C) (p0 : state) (r : particle) (a b k : state) : Prop :=
  forall x, In x [sigma_of k; outer_mass p0; outer_mass a; outer_mass b; outer_mass k;
                  resonance_mass r; resonance_width r; resonance_radius; parent_radius p0] -> real_at base x.
Definition between_masses (base : symbol -> C) (p0 : state) (r : particle) (a b k : state) : Prop :=
  (0 < Re (base (resonance_mass r)) /\ 0 < Re (base (resonance_width r)) /\ 0 < Re (base resonance_radius) /\
   Re (base (outer_mass a)) + Re (base (outer_mass b)) < Re (base (resonance_mass r)) /\
   Re (base (resonance_mass r)) + Re (base (outer_mass k)) <= Re (base (outer_mass p0)))%R.
(** Each chain has a Breit-Wigner of the builder with such parameters, or no dynamics. *)
Definition regular_chain (base : symbol -> C) (c : chain) : Prop :=
  exists p0 r a b k i j, isobar_chain c p0 r a b k i j /\ real_parameters base p0 r a b k /\
    between_masses base p0 r a b k.
Definition regular_dynamics (d : decay) (dyn : chain -> defexpr) (base : symbol -> C) : Prop :=
  forall c, In c (d_chains d) ->
    dyn c = DefExpr (CNum 1) [] \/
    exists w, bw_phsp_factor w = phase_space_factor /\ bw_call w c = Ok (dyn c) /\ regular_chain base c.
(** The decay form factor is evaluated at the fourth power of the mass (C37): it is regular only in an S wave or if
    sigma^2 is above the squared threshold as well. *)
Definition decay_form_factors_regular (d : decay) (dyn : chain -> defexpr) (base : symbol -> C) : Prop :=
  forall c w, In c (d_chains d) -> bw_call w c = Ok (dyn c) -> bw_decay_form_factor w = true ->
    forall p0 r a b k i j, isobar_chain c p0 r a b k i j ->
      orbital j = 0%Z \/
      ((Re (base (outer_mass a)) + Re (base (outer_mass b))) * (Re (base (outer_mass a)) + Re (base (outer_mass b)))
       <= Re (base (sigma_of k)) * Re (base (sigma_of k)))%R.
