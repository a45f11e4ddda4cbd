(** Concrete decays for the properties of PropsChains.v *)
From Coq Require Import String ZArith QArith Qcanon List Bool Reals Lia Permutation.
From Coquelicot Require Import Complex.
From Verif Require Import DecayProofs.
From Verif Require Import Prelude Spin Decay Expr CExpr SpecDPD Builder SpecBuilder SpecLS SpecBasis SpecParity BuilderFacts BuilderExamples.
Import ListNotations.
Local Open Scope string_scope.
Local Open Scope Z_scope.
Local Open Scope list_scope.

(** The chain of [dl_decay1] with all combinations of LS couplings *)
Definition be_couplings : list ls_coupling := [LS 0 1; LS 1 1].
Definition be_decay : decay :=
  Decay ex_states (flat_map (fun p => map (fun q => with_ls p q (dl_chain 0)) be_couplings) be_couplings).
Definition dl_decay2 : decay := Decay ex_states [dl_chain 1].
Lemma be_std : std_decay be_decay ex_st /\ std_decay dl_decay2 ex_st.
Proof.
  split; constructor.
  1,5: (split; [repeat constructor|vm_compute; reflexivity]).
  1,4: apply Permutation_refl.
  all: intros i H; apply In_0123 in H; destruct H as [->|[->|[->| ->]]]; try reflexivity; vm_compute; discriminate.
Qed.
Lemma be_dynamics d hel : In d [be_decay; dl_decay; dl_decay1; dl_decay2] -> dynamics_of (dl_b d [] hel) (fun _ => de_unit).
Proof.
  intros H c Hc. split; [|reflexivity]. exists default_builder. split; [|reflexivity].
  destruct H as [<-|[<-|[<-|[<-|[]]]]]; cbn [dl_b b_decay] in Hc; vm_compute in Hc;
    repeat destruct Hc as [<-|Hc]; try destruct Hc; vm_compute; reflexivity.
Qed.
Lemma be_plain d : In d [be_decay; dl_decay; dl_decay1; dl_decay2] -> plain_resonances d.
Proof.
  intros H c Hc. destruct H as [<-|[<-|[<-|[<-|[]]]]]; vm_compute in Hc;
    repeat destruct Hc as [<-|Hc]; try destruct Hc; eexists; vm_compute; reflexivity.
Qed.
Lemma be_expansion : ls_expansion be_decay dl_decay1.
Proof.
  exists (fun _ => be_couplings), (fun _ => be_couplings). split.
  - intros c [<-|[]]. split.
    + split; [repeat split; try discriminate; vm_compute; discriminate|]. exists 3. split; [vm_compute; discriminate|].
      eexists. split; vm_compute; reflexivity.
    + split; [repeat split; try discriminate; vm_compute; discriminate|]. exists 3. split; [vm_compute; discriminate|].
      eexists. split; vm_compute; reflexivity.
  - vm_compute. apply Permutation_refl.
Qed.
Lemma dl_parity : (forall c, In c (d_chains dl_decay1) -> parity_conserving_chain c) /\ intrinsic_parity ex_st 1.
Proof.
  split.
  - intros c [<-|[]]. split; (exists 1, 1, 1, (LS 0 1); unfold is_parity; repeat split; auto).
  - exists 1, 1, 1, 1. unfold is_parity. repeat split; auto.
Qed.
