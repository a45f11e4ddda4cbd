(** Specification vocabulary for the units of a model (C98) *)
From Coq Require Import String ZArith List Bool Reals.
From Coquelicot Require Import Complex.
From Verif Require Import Prelude Decay Expr CExpr SpecKin SpecDPD Builder Dynamics SpecDynamics SpecObs.
Import ListNotations.
Local Open Scope list_scope.

(** The same point and parameters in a unit of mass that is smaller by a factor [t]: masses and widths are multiplied with t,
    Mandelstam variables with t^2, radii with 1/t. *)
Definition in_units (d : decay) (t : R) (base base' : symbol -> C) : Prop :=
  (forall i, In i [0; 1; 2; 3]%Z -> base' (mass_at i) = (RtoC t * base (mass_at i))%C) /\
  (forall i, In i [1; 2; 3]%Z -> base' (sigma_at i) = (RtoC (t * t) * base (sigma_at i))%C) /\
  (forall c p0 r a b k i j, In c (d_chains d) -> isobar_chain c p0 r a b k i j ->
     base' (resonance_mass r) = (RtoC t * base (resonance_mass r))%C /\
     base' (resonance_width r) = (RtoC t * base (resonance_width r))%C /\
     base' resonance_radius = (RtoC (/ t) * base resonance_radius)%C /\
     base' (parent_radius p0) = (RtoC (/ t) * base (parent_radius p0))%C).

(** All chains have a Breit-Wigner of a builder, with energy-dependent widths in all chains ([ed]) or in none, and without
    decay form factor unless in an S wave.  Chains without dynamics go with energy-dependent widths: both are dimensionless. *)
Definition uniform_dynamics (d : decay) (dyn : chain -> defexpr) (ed : bool) : Prop :=
  forall c, In c (d_chains d) ->
    (ed = true /\ dyn c = DefExpr (CNum 1) []) \/
    exists w p0 r a b k i j, bw_phsp_factor w = phase_space_factor /\ bw_call w c = Ok (dyn c) /\
      isobar_chain c p0 r a b k i j /\ bw_energy_dependent_width w = ed /\
      (bw_decay_form_factor w = false \/ orbital j = 0%Z).
