(** Concrete decays for C137: two LS couplings of one resonance; and the P wave of D -> pi pi K of AngularExamples.v *)
From Coq Require Import String ZArith QArith Qcanon List Bool Reals Lia Permutation.
From Verif Require Import Prelude Spin Decay Expr CExpr SpecKin SpecDPD Builder SpecBuilder BuilderProofs BuilderExamples ChainExamples
  SpecObs RelabelExamples RelabelShapeExamples ObsExamples AngularExamples.
Import ListNotations.
Local Open Scope string_scope.
Local Open Scope Z_scope.
Local Open Scope list_scope.

Lemma en_example : exists m, std_decay dl_decay ex_st /\ dynamics_of (dl_b dl_decay [] false) (fun _ => de_unit) /\
  plain_resonances dl_decay /\ formulate (dl_b dl_decay [] false) (Some 2%Z) false true = Ok m /\
  b_prod_helicity (dl_b dl_decay [] false) = false /\ b_dec_helicity (dl_b dl_decay [] false) = false.
Proof.
  eexists. split; [apply dl_std|]. split; [apply be_dynamics; simpl; auto|]. split; [apply be_plain; simpl; auto|].
  split; [vm_compute; reflexivity|]. split; reflexivity.
Qed.

Lemma en_attained : std_decay (b_decay (og_b og_odd)) id_st /\ dynamics_of (og_b og_odd) rb_dyn /\
  plain_resonances (b_decay (og_b og_odd)) /\ (exists m, formulate (og_b og_odd) None false false = Ok m) /\
  b_prod_helicity (og_b og_odd) = false /\ b_dec_helicity (og_b og_odd) = false /\
  spinless id_st /\ d_chains (b_decay (og_b og_odd)) = [og_odd] /\ p_spin (ch_resonance og_odd) = (2 * Z.of_nat 1)%Z /\
  ch_incoming_ls og_odd = Some (LS (Z.of_nat 1) (2 * Z.of_nat 1)) /\ ch_outgoing_ls og_odd = Some (LS (Z.of_nat 1) 0).
Proof.
  assert (I : In og_odd [og_even; og_odd]) by (right; left; reflexivity).
  split; [exact (og_std _ I)|]. split; [exact (og_dynamics _ I)|]. split; [intros c [<-|[]]; vm_compute; eauto|].
  split; [exact (og_formulate _ I)|]. split; [reflexivity|]. split; [reflexivity|]. split; [exact ob_spinless|]. repeat split; reflexivity.
Qed.
