(** A decay and the text of its warning (C107) *)
From Coq Require Import String ZArith List Bool Sorted Permutation.
From Verif Require Import DecayProofs.
From Verif Require Import Prelude Decay SpecDPD Messages SpecMessages AnglesProofs BuilderExamples RefRefuted.
Import ListNotations.
Local Open Scope string_scope.
Local Open Scope Z_scope.
Local Open Scope list_scope.

Lemma c107_example : std_decay ex_decay ex_st /\ subsystems_of ex_decay [2; 3] /\ ~ In 1 [2; 3]
  /\ get_subsystem_warning ex_decay 1 = Ok (Some "Decay Lc → 1: p, 2: pi, 3: K only has subsystems 2, 3, not 1").
Proof.
  split; [exact ex_std|]. split; [split|].
  - repeat constructor.
  - intros k. split.
    + intros [<-|[<-|[]]].
      * eexists; split; [left; reflexivity|reflexivity].
      * eexists; split; [right; left; reflexivity|reflexivity].
    + intros (c & [<-|[<-|[]]] & <-); vm_compute; auto.
  - split; [simpl; intuition discriminate|]. vm_compute. reflexivity.
Qed.
