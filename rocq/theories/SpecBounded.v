(** Specification vocabulary for the boundedness of the intensity (C141) *)
From Coq Require Import String ZArith List Bool Reals.
From Coquelicot Require Import Hierarchy Complex.
From Verif Require Import Prelude Decay Expr CExpr SpecKin SpecDPD Builder Dynamics SpecDynamics SpecContinuity.
Import ListNotations.
Local Open Scope R_scope.

(** The point with the given invariant masses squared; masses and all parameters are those of [base]. *)
Definition at_sigmas (base : symbol -> C) (s1 s2 s3 : R) (x : symbol) : C :=
  if eqb x (Sym "sigma1" ANonneg) then RtoC s1
  else if eqb x (Sym "sigma2" ANonneg) then RtoC s2
  else if eqb x (Sym "sigma3" ANonneg) then RtoC s3
  else base x.
(** It lies on the Dalitz plot, and all angles are defined there. *)
Definition on_dalitz_plot (base : symbol -> C) (s1 s2 s3 : R) : Prop :=
  physical (fun x => Re (at_sigmas base s1 s2 s3 x)) /\ nonsingular (fun x => Re (at_sigmas base s1 s2 s3 x)).
Definition sigma_value (s1 s2 s3 : R) (k : Z) : R := if (k =? 1)%Z then s1 else if (k =? 2)%Z then s2 else s3.

(** The mass of particle [i], and the range of the invariant mass squared of the pair opposite to particle [k] *)
Definition particle_mass (base : symbol -> C) (i : Z) : R := Re (base (Sym ("m" ++ str_of_Z i) ANonneg)).
Definition lower_limit (base : symbol -> C) (k : Z) : R :=
  (particle_mass base (next_label k) + particle_mass base (next_label (next_label k))) ^ 2.
Definition upper_limit (base : symbol -> C) (k : Z) : R := (particle_mass base 0 - particle_mass base k) ^ 2.

(** A lineshape that depends on the invariant mass of its own pair only *)
Definition own_sigma_only (base : symbol -> C) (cpl : string -> list ival -> C) (k : Z) (e : cexpr) : Prop :=
  forall s1 s2 s3, let t := sigma_value s1 s2 s3 k in
    ceval (Env (at_sigmas base s1 s2 s3) cpl) (fun _ => 0%Z) e = ceval (Env (at_sigmas base t t t) cpl) (fun _ => 0%Z) e.
(** and is continuous between the limits, both included *)
Definition continuous_on_range (base : symbol -> C) (cpl : string -> list ival -> C) (k : Z) (e : cexpr) : Prop :=
  forall t0, lower_limit base k <= t0 <= upper_limit base k ->
    tends (locally t0) (fun t => ceval (Env (at_sigmas base t t t) cpl) (fun _ => 0%Z) e)
      (ceval (Env (at_sigmas base t0 t0 t0) cpl) (fun _ => 0%Z) e).

(** Breit-Wigners: no decay into two massless particles, and a decay form factor only in S waves or with heavy products (the form factor
    is evaluated at the fourth power of the mass, C37) *)
Definition threshold_regular (d : decay) (dyn : chain -> defexpr) (base : symbol -> C) : Prop :=
  forall c w, In c (d_chains d) -> bw_call w c = Ok (dyn c) -> forall p0 r a b k i j, isobar_chain c p0 r a b k i j ->
    0 < Re (base (outer_mass a)) + Re (base (outer_mass b)) /\
    (bw_decay_form_factor w = true -> orbital j = 0%Z \/ 1 <= Re (base (outer_mass a)) + Re (base (outer_mass b))).
