(** Specification vocabulary for projections and the total rate (C142) *)
From Coq Require Import String ZArith List Bool Reals.
From Coquelicot Require Import Complex Hierarchy RInt.
From Verif Require Import Prelude Decay Expr CExpr SpecKin SpecDPD Builder SpecObs SpecBounded.
Import ListNotations.
Local Open Scope R_scope.

(** The decay is allowed: the masses of the decay products are not negative, and their sum is below the mass of the decaying particle. *)
Definition open_phase_space (base : symbol -> C) : Prop :=
  0 <= particle_mass base 1 /\ 0 <= particle_mass base 2 /\ 0 <= particle_mass base 3 /\
  particle_mass base 1 + particle_mass base 2 + particle_mass base 3 < particle_mass base 0.

(** Another value for sigma_k *)
Definition with_sigma (base : symbol -> C) (k : Z) (s : R) (y : symbol) : C := if eqb y (sigma_at k) then RtoC s else base y.

(** [P] is the projection of the distribution [I] on sigma_k: its value at [s] is the integral of [I] over the part of the line sigma_k = s
    that lies on the Dalitz plot. The line is parametrised by sigma_j. *)
Definition projects_to (base : symbol -> C) (I : (symbol -> C) -> R) (i j k : Z) (P : R -> R) : Prop :=
  forall s, lower_limit base k < s < upper_limit base k ->
    exists a b, a < b /\ dalitz_range (with_sigma base k s) i j k a b /\
      is_RInt (fun x => I (dalitz_line (with_sigma base k s) i j k x)) a b (P s).
(** [N] is the integral of [I] over the Dalitz plot. *)
Definition integrates_to (base : symbol -> C) (I : (symbol -> C) -> R) (i j k : Z) (N : R) : Prop :=
  exists P, projects_to base I i j k P /\ is_RInt P (lower_limit base k) (upper_limit base k) N.

(** The intensity of a model at a point *)
Definition intensity_at (m : model) (cpl : string -> list ival -> C) (pt : symbol -> C) : R :=
  Re (full_value (at_point (m_variables m) pt cpl) m).
