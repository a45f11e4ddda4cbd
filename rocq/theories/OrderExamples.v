(** The decay of BuilderExamples.v with its chains and states in another order, for C100 *)
From Coq Require Import String ZArith QArith Qcanon List Bool Permutation.
From Verif Require Import DecayProofs.
From Verif Require Import Prelude Decay Expr CExpr SpecDPD Builder SpecBuilder BuilderFacts BuilderExamples.
Import ListNotations.
Local Open Scope string_scope.
Local Open Scope Z_scope.
Local Open Scope list_scope.

Definition or_decay : decay := Decay (rev (d_states ex_decay)) (rev (d_chains ex_decay)).
Definition or_b : builder :=
  match mk_builder or_decay (MinBool false) false with
  | Ok b => match builder_register b (IdName "L(1405)") (fun c => Ok (ex_line c)) with Ok b => b | Err _ => b end
  | Err _ => ex_b
  end.
Lemma or_std : std_decay or_decay ex_st.
Proof.
  constructor.
  - split; [repeat constructor|vm_compute; reflexivity].
  - apply Permutation_sym. apply (Permutation_rev (d_states ex_decay)).
  - intros i H. apply In_0123 in H. destruct H as [->|[->|[->| ->]]]; reflexivity.
  - intros i H. apply In_0123 in H. destruct H as [->|[->|[->| ->]]]; vm_compute; discriminate.
Qed.
Lemma or_dynamics : dynamics_of or_b ex_dyn.
Proof.
  intros c H; (split; [|destruct H as [<-|[<-|[]]]; vm_compute; reflexivity]);
  (destruct H as [<-|[<-|[]]]; eexists; (split; [vm_compute; reflexivity|vm_compute; reflexivity])).
Qed.
Lemma or_perm : Permutation (d_chains (b_decay ex_b)) (d_chains (b_decay or_b)).
Proof. exact (Permutation_rev (d_chains ex_decay)). Qed.
