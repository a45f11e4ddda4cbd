(** C28: what a change of the reference subsystem does. C101: which chains interfere. *)
From Coq Require Import String ZArith QArith Qcanon List Bool Reals Permutation.
From Coquelicot Require Import Complex.
From Verif Require Import Prelude Spin Decay Expr CExpr Sums SpecKin SpecDPD Builder SpecBuilder SpecParity SpecTurn
  BuilderExamples ChainExamples RefRefuted TurnFacts InterferenceFacts.
Import ListNotations.
Local Open Scope string_scope.
Local Open Scope Z_scope.
Local Open Scope list_scope.

(** ** C28 is false (C28_reference_independence_refuted). What holds for all decays: if the reference changes from
    [r1] to [r2] the intensity is the one with the opposite sign of the couplings in the third subsystem, if the
    parent has half-integer spin, and the same intensity otherwise. (Missing: the same intensity for half-integer
    spin and chains in three subsystems.) *)
Theorem C28_reference_change_partial b s dyn uc ref1 cl1 m1 r1 ref2 cl2 m2 r2 base cpl cpl' :
  std_decay (b_decay b) s ->
  dynamics_of b dyn -> (b_prod_helicity b = false -> plain_resonances (b_decay b)) ->
  formulate b ref1 cl1 uc = Ok m1 -> formulate b ref2 cl2 uc = Ok m2 ->
  resolve_reference (b_decay b) ref1 = Ok r1 -> resolve_reference (b_decay b) ref2 = Ok r2 ->
  physical (fun x => Re (base x)) -> nonsingular (fun x => Re (base x)) ->
  (forall c h lk li lj, In c (d_chains (b_decay b)) ->
     (if uc then coefficient else coupling_product) (Env base cpl') (b_prod_helicity b) (b_dec_helicity b) c h lk li lj =
     (RtoC (turn_sign s r1 r2 (st_index (ch_spectator c)))
      * (if uc then coefficient else coupling_product) (Env base cpl) (b_prod_helicity b) (b_dec_helicity b) c h lk li lj)%C) ->
  full_value (at_point (m_variables m2) base cpl) m2 = full_value (at_point (m_variables m1) base cpl') m1.
Proof. exact (fun D => c28_change b s D dyn uc ref1 cl1 m1 r1 ref2 cl2 m2 r2 base cpl cpl'). Qed.
Print Assumptions C28_reference_change_partial.

(** The decay of the refutation: couplings with the opposite sign for the third subsystem *)
Example C28_change_example : std_decay (b_decay rx_b) rx_s /\ dynamics_of rx_b (fun _ => de_unit) /\
  b_prod_helicity rx_b = true /\
  (exists m, formulate rx_b (Some 1) false false = Ok m) /\ (exists m, formulate rx_b (Some 2) false false = Ok m) /\
  resolve_reference (b_decay rx_b) (Some 1) = Ok 1 /\ resolve_reference (b_decay rx_b) (Some 2) = Ok 2 /\
  physical (fun x => Re (rx_base x)) /\ nonsingular (fun x => Re (rx_base x)) /\
  turn_sign rx_s 1 2 3 = (-1)%R /\ turn_sign rx_s 1 2 1 = 1%R /\
  forall cpl, exists cpl', forall c h lk li lj, In c (d_chains (b_decay rx_b)) ->
    coupling_product (Env rx_base cpl') true true c h lk li lj =
    (RtoC (turn_sign rx_s 1 2 (st_index (ch_spectator c))) * coupling_product (Env rx_base cpl) true true c h lk li lj)%C.
Proof.
  split; [exact rx_std|]. split; [exact rx_dyn|]. split; [reflexivity|].
  split; [vm_compute; eexists; reflexivity|]. split; [vm_compute; eexists; reflexivity|].
  split; [reflexivity|]. split; [reflexivity|].
  split; [eexists _, _, _; exact AnglesProofs.ex_momenta|]. split; [exact AnglesProofs.ex_nonsingular|].
  split; [reflexivity|]. split; [reflexivity|].
  intros cpl.
  exists (fun n ix => match ix with
                      | IStr l :: _ => if (String.eqb n (production_name true) && String.eqb l (p_latex (ch_resonance rx_B)))%bool
                                       then (- cpl n ix)%C else cpl n ix
                      | _ => cpl n ix end).
  intros c h lk li lj [<-|[<-|[<-|[]]]]; unfold coupling_product; cbn [e_idx];
    match goal with |- context [turn_sign rx_s 1 2 ?k] =>
      first [change (turn_sign rx_s 1 2 k) with 1%R | change (turn_sign rx_s 1 2 k) with (-1)%R] end;
    cbn -[RtoC Copp Cmult]; [ring | | ring].
  replace (RtoC (-1)) with (- RtoC 1)%C by (apply injective_projections; cbn; ring). ring.
Qed.

(** ** C101: chains with even and odd L(production) + L(decay) do not interfere: the intensity of an LS model is the sum of
    the intensities of the models of the two groups. *)
Theorem C101_no_interference b b1 b2 s dyn uc ref cl m ref1 cl1 m1 ref2 cl2 m2 r :
  std_decay (b_decay b) s -> std_decay (b_decay b1) s -> std_decay (b_decay b2) s ->
  dynamics_of b dyn -> dynamics_of b1 dyn -> dynamics_of b2 dyn -> plain_resonances (b_decay b) ->
  b_prod_helicity b = false -> b_dec_helicity b = false ->
  b_prod_helicity b1 = false -> b_dec_helicity b1 = false ->
  b_prod_helicity b2 = false -> b_dec_helicity b2 = false ->
  formulate b ref cl uc = Ok m -> formulate b1 ref1 cl1 uc = Ok m1 -> formulate b2 ref2 cl2 uc = Ok m2 ->
  resolve_reference (b_decay b) ref = Ok r -> resolve_reference (b_decay b1) ref1 = Ok r ->
  resolve_reference (b_decay b2) ref2 = Ok r ->
  Permutation (d_chains (b_decay b)) (d_chains (b_decay b1) ++ d_chains (b_decay b2)) ->
  (forall c, In c (d_chains (b_decay b1)) -> orbital_parity c true) ->
  (forall c, In c (d_chains (b_decay b2)) -> orbital_parity c false) ->
  forall ev, full_value ev m = (full_value ev m1 + full_value ev m2)%C.
Proof. exact (c101 b b1 b2 s dyn uc ref cl m ref1 cl1 m1 ref2 cl2 m2 r). Qed.
Print Assumptions C101_no_interference.

(** An S wave and a P wave of one resonance *)
Example C101_example : std_decay dl_decay ex_st /\ std_decay dl_decay1 ex_st /\ std_decay dl_decay2 ex_st /\
  dynamics_of (dl_b dl_decay [] false) (fun _ => de_unit) /\ dynamics_of (dl_b dl_decay1 [] false) (fun _ => de_unit) /\
  dynamics_of (dl_b dl_decay2 [] false) (fun _ => de_unit) /\ plain_resonances dl_decay /\
  (exists m, formulate (dl_b dl_decay [] false) (Some 2) false false = Ok m) /\
  (exists m, formulate (dl_b dl_decay1 [] false) (Some 2) false false = Ok m) /\
  (exists m, formulate (dl_b dl_decay2 [] false) (Some 2) false false = Ok m) /\
  resolve_reference dl_decay (Some 2) = Ok 2 /\ resolve_reference dl_decay1 (Some 2) = Ok 2 /\
  resolve_reference dl_decay2 (Some 2) = Ok 2 /\
  d_chains dl_decay = d_chains dl_decay1 ++ d_chains dl_decay2 /\
  (forall c, In c (d_chains dl_decay1) -> orbital_parity c true) /\
  (forall c, In c (d_chains dl_decay2) -> orbital_parity c false).
Proof.
  split; [apply dl_std|]. split; [apply dl_std|]. split; [apply be_std|].
  split; [apply be_dynamics; simpl; auto|]. split; [apply be_dynamics; simpl; auto|]. split; [apply be_dynamics; simpl; auto|].
  split; [apply be_plain; simpl; auto|].
  split; [vm_compute; eexists; reflexivity|]. split; [vm_compute; eexists; reflexivity|].
  split; [vm_compute; eexists; reflexivity|].
  do 4 (split; [reflexivity|]).
  split; intros c [<-|[]]; eexists _, _; repeat split; reflexivity.
Qed.
