(** Specification vocabulary for derivatives (C139) *)
From Coq Require Import String ZArith List Bool Reals.
From Coquelicot Require Import Hierarchy Complex Derive.
From Verif Require Import Prelude Decay Expr CExpr SpecKin SpecDPD Builder Dynamics SpecDynamics SpecFinite SpecContinuity SpecWigner.
Import ListNotations.
Local Open Scope R_scope.

(** A complex function of a real number has a derivative if its real and imaginary parts have one. *)
Definition rsmooth_at (t0 : R) (f : R -> R) : Prop := ex_derive f t0.
Definition smooth_at (t0 : R) (f : R -> C) : Prop := rsmooth_at t0 (fun t => Re (f t)) /\ rsmooth_at t0 (fun t => Im (f t)).

(** No root is taken of a negative number or of zero. *)
Definition no_branch_point (ev : env) (h : symbol -> Z) (e : cexpr) : Prop :=
  forall x, In x (radicands ev h e) -> ~ on_cut x /\ x <> RtoC 0.

(** The inside of the Dalitz plot: in the rest frame of the decaying particle, the momenta are not along one line. *)
Definition cross (u v : vec3) : vec3 :=
  V3 (vy u * vz v - vz u * vy v) (vz u * vx v - vx u * vz v) (vx u * vy v - vy u * vx v).
Definition inside (env : symbol -> R) : Prop :=
  exists p1 p2 p3, momenta_of env p1 p2 p3 /\ add3 (vp p1) (add3 (vp p2) (vp p3)) = zero3 /\
    cross (vp p1) (vp p2) <> zero3.
(** A final state with spin has a mass, or it stays massless and the point stays in phase space: the alignment angle of a massless
    particle is at the end of the range of arccos, so that it has no derivative with respect to the mass. *)
Definition masses_kept (s : Z -> state) (t0 : R) (env : R -> symbol -> R) : Prop :=
  forall i, (1 <= i <= 3)%Z -> p_spin (s i) <> 0%Z ->
    0 < mass_at (env t0) i \/
    locally t0 (fun t => mass_at (env t) i = 0 /\ physical (env t) /\ nonsingular (env t)).

(** Form factors have a derivative at the thresholds in S waves only. The decay form factor is evaluated at the fourth power of the mass (C37). *)
Definition smooth_dynamics (d : decay) (dyn : chain -> defexpr) (base : symbol -> C) : Prop :=
  forall c, In c (d_chains d) ->
    dyn c = DefExpr (CNum 1) [] \/
    exists w p0 r a b k i j, bw_phsp_factor w = phase_space_factor /\ bw_call w c = Ok (dyn c) /\
      isobar_chain c p0 r a b k i j /\ real_parameters base p0 r a b k /\ between_masses base p0 r a b k /\
      (bw_production_form_factor w = true -> orbital i = 0%Z \/
         (Re (base (parent_radius p0)) <> 0 /\
          Re (base (resonance_mass r)) + Re (base (outer_mass k)) < Re (base (outer_mass p0)))) /\
      (bw_decay_form_factor w = true -> orbital j = 0%Z \/
         (Re (base (outer_mass a)) + Re (base (outer_mass b))) * (Re (base (outer_mass a)) + Re (base (outer_mass b)))
         < Re (base (sigma_of k)) * Re (base (sigma_of k))).
