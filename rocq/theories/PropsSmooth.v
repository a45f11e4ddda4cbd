(** C139: the intensity has derivatives with respect to the point in phase space, the parameters and the couplings, as gradient-based
    fits need. The vocabulary is in SpecSmooth.v: everything moves along a curve with parameter t. *)
From Coq Require Import String ZArith List Bool Reals.
From Coquelicot Require Import Hierarchy Complex Derive.
From Verif Require Import Prelude Decay Expr CExpr SpecKin SpecDPD Builder Dynamics SpecDynamics SpecFinite SpecSmooth
  SmoothFacts SmoothProofs RelabelExamples RelabelShapeExamples ObsExamples MasslessExamples SmoothExamples.
Import ListNotations.
Local Open Scope Z_scope.

(** Any expression has a derivative where it does not divide by zero and takes no root of zero or of a negative number. *)
Theorem C139_expressions t0 e (ev : R -> env) :
  (forall x, smooth_at t0 (fun t => e_sym (ev t) x)) -> (forall n i, smooth_at t0 (fun t => e_idx (ev t) n i)) ->
  no_pole (ev t0) e -> no_branch_point (ev t0) (fun _ => 0) e ->
  smooth_at t0 (fun t => ceval (ev t) (fun _ => 0) e).
Proof. exact (fun S I => ceval_smooth t0 e ev S I (fun _ => 0)). Qed.
Print Assumptions C139_expressions.

(** If symbols, couplings and the lineshapes of all chains have derivatives, so has the intensity, at every point inside the Dalitz plot. *)
Theorem C139_derivative t0 b s dyn ref cl uc m (base : R -> symbol -> C) (cpl : R -> string -> list ival -> C) :
  std_decay (b_decay b) s -> dynamics_of b dyn ->
  (b_prod_helicity b = false -> plain_resonances (b_decay b)) -> formulate b ref cl uc = Ok m ->
  inside (fun x => Re (base t0 x)) -> nonsingular (fun x => Re (base t0 x)) ->
  masses_kept s t0 (fun t x => Re (base t x)) ->
  (forall x, smooth_at t0 (fun t => base t x)) -> (forall n i, smooth_at t0 (fun t => cpl t n i)) ->
  (forall c, In c (d_chains (b_decay b)) ->
     smooth_at t0 (fun t => ceval (Env (base t) (cpl t)) (fun _ => 0) (de_expr (dyn c)))) ->
  smooth_at t0 (fun t => full_value (at_point (m_variables m) (base t) (cpl t)) m).
Proof. exact (c139 t0 b s dyn ref cl uc m base cpl). Qed.
Print Assumptions C139_derivative.

(** Models with the Breit-Wigner lineshapes of the builder have derivatives away from the thresholds. *)
Theorem C139_breit_wigner t0 b s dyn ref cl uc m (base : R -> symbol -> C) (cpl : R -> string -> list ival -> C) :
  std_decay (b_decay b) s -> dynamics_of b dyn ->
  (b_prod_helicity b = false -> plain_resonances (b_decay b)) -> formulate b ref cl uc = Ok m ->
  inside (fun x => Re (base t0 x)) -> nonsingular (fun x => Re (base t0 x)) ->
  masses_kept s t0 (fun t x => Re (base t x)) ->
  (forall x, smooth_at t0 (fun t => base t x)) -> (forall n i, smooth_at t0 (fun t => cpl t n i)) ->
  smooth_dynamics (b_decay b) dyn (base t0) ->
  smooth_at t0 (fun t => full_value (at_point (m_variables m) (base t) (cpl t)) m).
Proof. exact (c139_bw t0 b s dyn ref cl uc m base cpl). Qed.
Print Assumptions C139_breit_wigner.

(** A point that moves on the Dalitz plot of a decay with two resonances, and any couplings that have derivatives *)
Example C139_example : exists m, formulate ob_b None false false = Ok m /\
  forall cpl : R -> string -> list ival -> C, (forall n i, smooth_at 0 (fun t => cpl t n i)) ->
    smooth_at 0 (fun t => full_value (at_point (m_variables m) (se_base t) (cpl t)) m).
Proof.
  destruct ob_formulate as (m & F). exists m. split; [exact F|]. intros cpl LC.
  exact (c139_bw 0 ob_b id_st rb_dyn None false false m se_base cpl ob_std ob_dynamics (fun _ => ob_plain) F
    (proj1 se_inside) (proj2 se_inside) se_kept se_smooth LC se_dynamics).
Qed.
Print Assumptions C139_example.
(** A decay with a photon, which stays massless *)
Example C139_photon : exists m, formulate ga_b (Some 1) false false = Ok m /\
  forall cpl : R -> string -> list ival -> C, (forall n i, smooth_at 0 (fun t => cpl t n i)) ->
    smooth_at 0 (fun t => full_value (at_point (m_variables m) (sg_base t) (cpl t)) m).
Proof.
  destruct ga_formulate as (m & F). exists m. split; [exact F|]. intros cpl LC.
  exact (c139_bw 0 ga_b ga_s (fun _ => de_unit) (Some 1) false false m sg_base cpl ga_std ga_dyn ltac:(discriminate) F
    sg_inside (proj2 sg_zero) sg_kept sg_smooth LC sg_dynamics).
Qed.
Print Assumptions C139_photon.
