(** Concrete models for the properties of PropsOptions.v *)
From Coq Require Import String ZArith QArith Qcanon List Bool Reals Lia Permutation.
From Coquelicot Require Import Complex.
From Verif Require Import DecayProofs.
From Verif Require Import Prelude Spin Decay Expr CExpr SpecDPD Builder SpecBuilder SpecLS SpecBasis SpecParity BuilderFacts
  BuilderExamples ChainExamples SpecOptions SpecBases SpecReversal.
Import ListNotations.
Local Open Scope string_scope.
Local Open Scope Z_scope.
Local Open Scope list_scope.

(** Lc -> L(1405) pi, L(1405) -> K p in the bases [ph] and [dh] *)
Definition op_b (d : decay) (ph dh all : bool) : builder := Builder d (mk_configurator d) ph dh all.
(** LS couplings for the production, helicity couplings for the decay *)
Definition op_mixed : decay := Decay ex_states (map (fun p => with_choice (Some p) None (dl_chain 0)) be_couplings).
(** a resonance with negative parity *)
Definition op_chain : chain :=
  Node (PSt (ex_s "Lc" 1 0))
    (Leaf (PSt (ex_s "pi" 0 2)))
    (Node (PPart (Particle "L(1405)" "L(1405)" 1 (Some (-1)) (Qc_of_Z 1) (Qc_of_Z 0)))
       (Leaf (PSt (ex_s "K" 0 3))) (Leaf (PSt (ex_s "p" 1 1))) None) None.
Definition op_negative : decay := Decay ex_states [op_chain].
Lemma op_std d : In d [op_mixed; op_negative] -> std_decay d ex_st.
Proof.
  intros [<-|[<-|[]]]; constructor.
  1,5: (split; [repeat constructor|vm_compute; reflexivity]).
  1,4: apply Permutation_refl.
  all: intros i H; apply In_0123 in H; destruct H as [->|[->|[->| ->]]]; try reflexivity; vm_compute; discriminate.
Qed.
Lemma op_dynamics d ph dh all : In d [op_mixed; op_negative; dl_decay1; be_decay] -> dynamics_of (op_b d ph dh all) (fun _ => de_unit).
Proof.
  intros H c Hc. split; [|reflexivity]. exists default_builder. split; [|reflexivity].
  destruct H as [<-|[<-|[<-|[<-|[]]]]]; cbn [op_b b_decay] in Hc; vm_compute in Hc;
    repeat destruct Hc as [<-|Hc]; try destruct Hc; vm_compute; reflexivity.
Qed.
Lemma op_plain : plain_resonances op_mixed.
Proof. intros c Hc. vm_compute in Hc. repeat destruct Hc as [<-|Hc]; try destruct Hc; eexists; vm_compute; reflexivity. Qed.
Lemma op_expansion : basis_expansion false true op_mixed dl_decay1 /\ basis_expansion false false be_decay dl_decay1.
Proof.
  assert (A : forall c, In c (d_chains dl_decay1) -> all_couplings c be_couplings).
  { intros c [<-|[]]. split; [repeat split; try discriminate; vm_compute; discriminate|]. exists 3. split; [vm_compute; discriminate|].
    eexists. split; vm_compute; reflexivity. }
  assert (B : forall c, In c (d_chains dl_decay1) -> all_couplings (ch_decay_node c) be_couplings).
  { intros c [<-|[]]. split; [repeat split; try discriminate; vm_compute; discriminate|]. exists 3. split; [vm_compute; discriminate|].
    eexists. split; vm_compute; reflexivity. }
  split; exists (fun _ => be_couplings), (fun _ => be_couplings); (split; [intros c Hc; split; auto; discriminate|]);
    vm_compute; apply Permutation_refl.
Qed.

(** Helicity couplings that are odd in the helicities *)
Definition op_env : env := Env (fun _ => RtoC 1) (fun _ ix => match ix with [_; IHel a; IHel b] => RtoC (IZR (a + b)) | _ => RtoC 0 end).
Lemma op_parity : (forall c, In c (d_chains op_negative) -> parity_chain true true c) /\ intrinsic_parity ex_st 1 /\
  reversed_coupling_sign true true op_chain = 1%R /\
  reversed_vertex_sign (ch_parent op_chain) (ch_resonance op_chain) (ch_spectator op_chain) = (-1)%R.
Proof.
  assert (V : reversed_vertex_sign (ch_parent op_chain) (ch_resonance op_chain) (ch_spectator op_chain) = (-1)%R).
  { unfold reversed_vertex_sign. change (parity_of _ * parity_of _ * parity_of _) with (-1).
    change (p_spin _ - p_spin _ - p_spin _) with 0. unfold parity_sign. cbn. ring. }
  split; [|split; [|split; [|exact V]]].
  - intros c [<-|[]]. split; (split; [|reflexivity]).
    + exists 1, (-1), 1. unfold is_parity. repeat split; auto.
    + exists (-1), 1, 1. unfold is_parity. repeat split; auto.
  - exists 1, 1, 1, 1. unfold is_parity. repeat split; auto.
  - unfold reversed_coupling_sign. rewrite V. unfold reversed_vertex_sign. change (parity_of _ * parity_of _ * parity_of _) with (-1).
    change (p_spin _ - p_spin _ - p_spin _) with 0. unfold parity_sign. cbn. ring.
Qed.
Lemma op_couplings : parity_couplings true true ex_st op_negative (coupling_product op_env true true).
Proof.
  intros c i j k r l [<-|[]] Esp Cy Hl Hr H0. rewrite (proj1 (proj2 (proj2 op_parity))). unfold coupling_product, op_env. cbn [e_idx coupling_index].
  set (a := r + at4 l k). set (b := at4 l i + at4 l j).
  replace (- r + - at4 l k) with (- a) by (unfold a; lia). replace (- at4 l i + - at4 l j) with (- b) by (unfold b; lia).
  rewrite !opp_IZR. apply injective_projections; cbn; ring.
Qed.
