(** Specification vocabulary for narrow resonances (C148) *)
From Coq Require Import String ZArith List Bool Reals.
From Coquelicot Require Import Complex.
From Verif Require Import Prelude Decay Expr CExpr SpecDPD Builder Dynamics SpecDynamics.
Import ListNotations.
Local Open Scope R_scope.

(** Another value for the width of a resonance *)
Definition with_width (base : symbol -> C) (r : particle) (G : R) (y : symbol) : C := if eqb y (resonance_width r) then RtoC G else base y.

(** All chains of a decay go through the resonance [r] and have its Breit-Wigner function of the builder [w], without a decay form factor
    (see C37 for the latter). *)
Definition one_breit_wigner (d : decay) (w : bw_builder) (r : particle) (dyn : chain -> defexpr) : Prop :=
  bw_phsp_factor w = phase_space_factor /\ bw_decay_form_factor w = false /\
  forall c, In c (d_chains d) -> (exists p0 a b k i j, isobar_chain c p0 r a b k i j) /\ bw_call w c = Ok (dyn c).

(** The production form factor of a chain, 1 without it *)
Definition production_factor (w : bw_builder) (base : symbol -> C) (c : chain) : C :=
  if bw_production_form_factor w
  then form_factor (orbital (ch_incoming_ls c)) (base (outer_mass (ch_parent c)) * base (outer_mass (ch_parent c)))%C
         (base (resonance_mass (ch_resonance c))) (base (outer_mass (ch_spectator c))) (base (parent_radius (ch_parent c)))
  else RtoC 1.
(** |coupling times production form factor|^2 / (2J + 1); the spin is doubled in the model. *)
Definition strength (w : bw_builder) (base : symbol -> C) (cpl : string -> list ival -> C) (uc : bool) (c : chain) : R :=
  Cmod (production_factor w base c * (if uc then coefficient else coupling_product) (Env base cpl) false false c 0%Z 0%Z 0%Z 0%Z)%C ^ 2
  / IZR (p_spin (ch_resonance c) + 1).
