(** A decay with the integrals of C143 *)
From Coq Require Import String ZArith List Bool Reals.
From Coquelicot Require Import Complex.
From Verif Require Import Prelude Decay Expr CExpr SpecKin SpecDPD Builder SpecBuilder SpecFinite SpecObs SpecBounded SpecNormal
  BoundedProofs NormalProofs NormalExamples RelabelExamples RelabelShapeExamples ObsExamples.
Import ListNotations.
Local Open Scope R_scope.

Lemma ax_example : std_decay (b_decay ob_b) id_st /\ dynamics_of ob_b rb_dyn /\ plain_resonances (b_decay ob_b) /\
  (exists m, formulate ob_b None false false = Ok m) /\
  physical (fun x => Re (bo_base x)) /\ nonsingular (fun x => Re (bo_base x)) /\
  regular_dynamics (b_decay ob_b) rb_dyn bo_base /\ threshold_regular (b_decay ob_b) rb_dyn bo_base /\
  forall m, formulate ob_b None false false = Ok m -> forall cpl,
    exists N N', integrates_to bo_base (intensity_at m cpl) 1 2 3 N /\ integrates_to bo_base (intensity_at m cpl) 2 3 1 N'.
Proof.
  do 7 (split; [first [exact ob_std|exact ob_dynamics|exact ob_plain|exact ob_formulate|exact (proj1 bo_physical)|exact (proj2 bo_physical)|exact bo_regular]|]).
  split; [exact bo_threshold|]. intros m F cpl.
  destruct (c142_bw ob_b id_st rb_dyn None false false m bo_base cpl 1 2 3 ob_std ob_dynamics (fun _ => ob_plain) F ltac:(cbn; tauto)
    (proj1 bo_physical) (proj2 bo_physical) bo_regular bo_threshold) as (N & H & _).
  destruct (c142_bw ob_b id_st rb_dyn None false false m bo_base cpl 2 3 1 ob_std ob_dynamics (fun _ => ob_plain) F ltac:(cbn; tauto)
    (proj1 bo_physical) (proj2 bo_physical) bo_regular bo_threshold) as (N' & H' & _).
  exists N, N'. exact (conj H H').
Qed.
