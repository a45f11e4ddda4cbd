(** A decay with the rates of C144: one resonance with an S wave and a P wave *)
From Coq Require Import String ZArith List Bool Reals Lra Permutation.
From Coquelicot Require Import Coquelicot.
From Verif Require Import Prelude Decay Expr CExpr Sums SpecKin SpecDPD Builder SpecBuilder SpecForm SpecFractions SpecObs SpecBounded SpecNormal SpecProjection
  BuilderExamples ChainExamples BoundedProofs NormalProofs NormalExamples ProjectionExamples.
Import ListNotations.
Local Open Scope R_scope.

Lemma ra_shapes (d : decay) cpl hel : model_shapes bo_base cpl (dl_b d [] hel) (fun _ => de_unit).
Proof. intros c _. split; [intros s1 s2 s3; reflexivity|]. intros t0 _. split; cbn -[IZR]; apply filterlim_const. Qed.
Lemma ra_example : exists m m1 m2, std_decay dl_decay ex_st /\ dynamics_of (dl_b dl_decay [] false) (fun _ => de_unit) /\
  plain_resonances dl_decay /\ formulate (dl_b dl_decay [] false) (Some 2%Z) false true = Ok m /\
  (forall c, In c (d_chains dl_decay) -> allowed_chain c) /\ one_subsystem dl_decay 2 /\ cyclic 3 1 2 /\ open_phase_space bo_base /\
  resolve_reference dl_decay (Some 2%Z) = Ok 2%Z /\
  let ps := [Part (dl_b dl_decay1 [] false) (Some 2%Z) false m1; Part (dl_b dl_decay2 [] false) (Some 2%Z) true m2] in
  Permutation (d_chains dl_decay) (flat_map (fun p => d_chains (b_decay (pt_builder p))) ps) /\
  (forall p, In p ps -> is_part (dl_b dl_decay [] false) ex_st (fun _ => de_unit) true 2 p /\ d_chains (b_decay (pt_builder p)) <> []) /\
  (forall pq, In pq (pairs ps) -> forall c c', In c (d_chains (b_decay (pt_builder (fst pq)))) -> In c' (d_chains (b_decay (pt_builder (snd pq)))) ->
     wave_of c <> wave_of c') /\
  forall cpl, exists N0 N, integrates_to bo_base (intensity_at m cpl) 3 1 2 N0 /\
    forall p, In p ps -> integrates_to bo_base (intensity_at (pt_model p) cpl) 3 1 2 (N p).
Proof.
  assert (PD : exists m, formulate (dl_b dl_decay [] false) (Some 2%Z) false true = Ok m) by (eexists; vm_compute; reflexivity).
  assert (PD1 : exists m, formulate (dl_b dl_decay1 [] false) (Some 2%Z) false true = Ok m) by (eexists; vm_compute; reflexivity).
  assert (PD2 : exists m, formulate (dl_b dl_decay2 [] false) (Some 2%Z) true true = Ok m) by (eexists; vm_compute; reflexivity).
  destruct PD as (m & F). destruct PD1 as (m1 & F1). destruct PD2 as (m2 & F2). exists m, m1, m2.
  assert (D : std_decay dl_decay ex_st) by apply dl_std. assert (D1 : std_decay dl_decay1 ex_st) by apply dl_std. assert (D2 : std_decay dl_decay2 ex_st) by apply be_std.
  assert (Y : dynamics_of (dl_b dl_decay [] false) (fun _ => de_unit)) by (apply be_dynamics; simpl; auto).
  assert (Y1 : dynamics_of (dl_b dl_decay1 [] false) (fun _ => de_unit)) by (apply be_dynamics; simpl; auto).
  assert (Y2 : dynamics_of (dl_b dl_decay2 [] false) (fun _ => de_unit)) by (apply be_dynamics; simpl; auto).
  assert (P : plain_resonances dl_decay) by (apply be_plain; simpl; auto). assert (P1 : plain_resonances dl_decay1) by (apply be_plain; simpl; auto).
  assert (P2 : plain_resonances dl_decay2) by (apply be_plain; simpl; auto). assert (Cy : cyclic 3 1 2) by (cbn; tauto).
  assert (Ip : forall p, In p [Part (dl_b dl_decay1 [] false) (Some 2%Z) false m1; Part (dl_b dl_decay2 [] false) (Some 2%Z) true m2] ->
    is_part (dl_b dl_decay [] false) ex_st (fun _ => de_unit) true 2 p /\ d_chains (b_decay (pt_builder p)) <> []).
  { intros p [<-|[<-|[]]]; (split; [constructor; first [assumption|reflexivity]|discriminate]). }
  do 4 (split; [assumption|]). split; [intros c I; apply pj_allowed, in_or_app; left; exact I|]. split; [split; [discriminate|intros c [<-|[<-|[]]]; reflexivity]|].
  split; [exact Cy|]. split; [exact bo_open|]. split; [reflexivity|]. cbv zeta. split; [apply Permutation_refl|]. split; [exact Ip|]. split.
  - intros pq [<-|[]] c c'. cbn [fst snd pt_builder]. intros [<-|[]] [<-|[]]. discriminate.
  - intros cpl.
    destruct (c142 (dl_b dl_decay [] false) ex_st _ _ _ _ m bo_base cpl 3 1 2 D Y (fun _ => P) F Cy bo_open (ra_shapes _ cpl false)) as (N0 & H0 & _).
    destruct (c142 (dl_b dl_decay1 [] false) ex_st _ _ _ _ m1 bo_base cpl 3 1 2 D1 Y1 (fun _ => P1) F1 Cy bo_open (ra_shapes _ cpl false)) as (N1 & H1 & _).
    destruct (c142 (dl_b dl_decay2 [] false) ex_st _ _ _ _ m2 bo_base cpl 3 1 2 D2 Y2 (fun _ => P2) F2 Cy bo_open (ra_shapes _ cpl false)) as (N2 & H2 & _).
    exists N0, (fun p => if pt_cleanup p then N2 else N1). split; [exact H0|]. intros p [<-|[<-|[]]]; [exact H1|exact H2].
Qed.
