(** Concrete decays for the properties of PropsAngular.v: D -> pi pi K with a P wave, an S wave or both in pi K *)
From Coq Require Import String ZArith QArith Qcanon List Bool Reals Lia Lra Permutation.
From Coquelicot Require Import Complex.
From Verif Require DecayProofs ObsKin.
From Verif Require Import Prelude Spin Decay Expr CExpr SpecKin SpecDPD Builder SpecBuilder Dynamics SpecDynamics SpecRelabel
  BuilderProofs DynamicsProofs LineshapeProofs LineshapeFacts BuilderExamples RelabelExamples RelabelShapeExamples SpecObs
  ObsShapes ObsExamples SpecAngular ChainExamples.
Import ListNotations.
Local Open Scope string_scope.
Local Open Scope Z_scope.
Local Open Scope list_scope.

Definition og_decay (c : chain) : decay :=
  Decay [(0, id_st 0); (1, id_st 1); (2, id_st 2); (3, id_st 3)] [c].
Definition og_b (c : chain) : builder := dl_b (og_decay c) (rb_h (og_decay c)) false.
Definition og_even : chain := id_chain "K0*" 0.
Definition og_odd : chain := id_chain "K*" 2.
Lemma og_std c : In c [og_even; og_odd] -> std_decay (og_decay c) id_st.
Proof.
  intros [<-|[<-|[]]]; constructor.
  1,5: (split; [repeat constructor|vm_compute; reflexivity]).
  1,4: apply Permutation_refl.
  all: intros i H; apply BuilderFacts.In_0123 in H; destruct H as [->|[->|[->| ->]]]; try reflexivity; vm_compute; discriminate.
Qed.
Lemma og_dynamics c : In c [og_even; og_odd] -> dynamics_of (og_b c) rb_dyn.
Proof.
  intros Hc x Hx.
  assert (I : In x (d_chains ob_decay)) by (cbn in Hc, Hx |- *; unfold og_even, og_odd in Hc; destruct Hx as [<-|[]]; tauto).
  split.
  - exists (bw_call rb_w). split; [|exact (ob_call x I)].
    destruct Hx as [<-|[]]. destruct Hc as [<-|[<-|[]]]; vm_compute; reflexivity.
  - destruct (ob_isobar x I) as (p0 & r & a & b & k & i & j & Iso).
    exact (proj1 (c36_symbols rb_w _ _ _ _ _ _ _ _ _ phase_space_factor_closed Iso (ob_call x I))).
Qed.
Lemma og_formulate c : In c [og_even; og_odd] -> exists m, formulate (og_b c) None false false = Ok m.
Proof.
  intros Hc. apply (c63 (og_b c) id_st rb_dyn).
  - exact (og_std c Hc).
  - exact (og_dynamics c Hc).
  - intros x [<-|[]]. destruct Hc as [<-|[<-|[]]]; split; intros _; vm_compute; discriminate.
  - left. split; auto. vm_compute. destruct Hc as [<-|[<-|[]]]; discriminate.
Qed.
Lemma og_one c : In c [og_even; og_odd] -> one_subsystem (og_decay c) 1.
Proof. intros Hc. split; [discriminate|]. intros x [<-|[]]. destruct Hc as [<-|[<-|[]]]; reflexivity. Qed.
Lemma og_perm : Permutation (d_chains ob_decay) (d_chains (og_decay og_even) ++ d_chains (og_decay og_odd)).
Proof. cbn. apply perm_swap. Qed.
Lemma og_waves : (forall c, In c (d_chains (og_decay og_even)) -> decay_wave c true) /\
  (forall c, In c (d_chains (og_decay og_odd)) -> decay_wave c false).
Proof. split; intros c [<-|[]]; eexists; split; reflexivity. Qed.
Lemma ob_cyclic : cyclic 2 3 1.
Proof. cbn. tauto. Qed.
Lemma ob_lines : forall c, In c (d_chains (b_decay ob_b)) ->
  ~ In (sigma_at 2) (symbols_of (de_expr (rb_dyn c))) /\ ~ In (sigma_at 3) (symbols_of (de_expr (rb_dyn c))).
Proof. exact (bw_independent_line _ id_st rb_dyn 2 3 1 ob_std ob_two_body ob_bw ob_one ob_cyclic). Qed.
Lemma og_lines : forall c, In c (d_chains (b_decay (og_b og_odd))) ->
  ~ In (sigma_at 2) (symbols_of (de_expr (rb_dyn c))) /\ ~ In (sigma_at 3) (symbols_of (de_expr (rb_dyn c))).
Proof. intros c [<-|[]]. apply ob_lines. left. reflexivity. Qed.
(** Lambda_c -> p K pi with a scalar in K pi, which does not allow all helicities of Lambda_c and p *)
Definition sc_chain : chain :=
  Node (PSt (ex_st 0)) (Node (PPart (DecayProofs.ex_p "K0*" 0)) (Leaf (PSt (ex_st 2))) (Leaf (PSt (ex_st 3))) (Some (LS 0 0)))
    (Leaf (PSt (ex_st 1))) (Some (LS 0 1)).
Definition sc_decay : decay := Decay DecayProofs.ex_states [sc_chain].
Definition sc_b : builder := dl_b sc_decay [] false.
Lemma sc_std : std_decay sc_decay ex_st.
Proof.
  constructor.
  - split; [repeat constructor|vm_compute; reflexivity].
  - apply Permutation_refl.
  - intros i H. apply BuilderFacts.In_0123 in H. destruct H as [->|[->|[->| ->]]]; reflexivity.
  - intros i H. apply BuilderFacts.In_0123 in H. destruct H as [->|[->|[->| ->]]]; vm_compute; discriminate.
Qed.
Lemma sc_dynamics : dynamics_of sc_b (fun _ => de_unit).
Proof.
  intros c Hc. split; [|reflexivity]. exists default_builder. split; [|reflexivity].
  destruct Hc as [<-|[]]. vm_compute. reflexivity.
Qed.
Lemma sc_plain : plain_resonances sc_decay.
Proof. intros c [<-|[]]. vm_compute. eauto. Qed.
Lemma sc_formulate : exists m, formulate sc_b None false false = Ok m.
Proof.
  apply (c63 sc_b ex_st (fun _ => de_unit)).
  - exact sc_std.
  - exact sc_dynamics.
  - intros c [<-|[]]; split; intros _; vm_compute; discriminate.
  - left. split; auto. vm_compute. discriminate.
Qed.
Lemma sc_tuple : helicity_tuple ex_st (1, 1, 0, 0).
Proof. vm_compute. tauto. Qed.
Lemma sc_spin : forall c, In c (d_chains (b_decay sc_b)) -> st_index (ch_spectator c) = 1 ->
  p_spin (ch_resonance c) < Z.abs (at4 (1, 1, 0, 0) 0 + at4 (1, 1, 0, 0) 1) \/
  p_spin (ch_resonance c) < Z.abs (at4 (1, 1, 0, 0) 2 - at4 (1, 1, 0, 0) 3).
Proof. intros c [<-|[]] _. left. vm_compute. reflexivity. Qed.
(** Lambda_c -> p K pi with a Lambda in K p: helicities off the axis of the decay *)
Lemma dl_selection :
  In 2 (get_subsystem_ids dl_decay) /\ cyclic 3 1 2 /\
  at4 (1, 1, 0, 0) 0 + at4 (1, 1, 0, 0) 2 <> at4 (1, 1, 0, 0) 3 - at4 (1, 1, 0, 0) 1.
Proof. repeat split; try (vm_compute; tauto). vm_compute. discriminate. Qed.
Lemma ob_spin2 : forall c, In c (d_chains (b_decay ob_b)) -> p_spin (ch_resonance c) <= Z.of_nat 2.
Proof. intros c [<-|[<-|[]]]; vm_compute; discriminate. Qed.
Lemma ob_range : exists lo hi, (lo < hi)%R /\ dalitz_range (rb_base (id_env 72 24)) 2 3 1 lo hi.
Proof. exact (ObsKin.line_range_ex (rb_base (id_env 72 24)) 2 3 1 ob_cyclic ob_between). Qed.
