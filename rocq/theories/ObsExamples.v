(** A concrete decay for the properties of PropsObs.v: D -> pi pi K with two resonances of different spin in pi K *)
From Coq Require Import String ZArith QArith Qcanon List Bool Reals Lia Lra Permutation.
From Coquelicot Require Import Complex.
From Verif Require Import Prelude Spin Decay Expr CExpr SpecKin SpecDPD Builder SpecBuilder Dynamics SpecDynamics SpecRelabel
  BuilderProofs DynamicsProofs LineshapeProofs LineshapeFacts BuilderExamples RelabelExamples RelabelShapeExamples SpecObs.
Import ListNotations.
Local Open Scope string_scope.
Local Open Scope Z_scope.
Local Open Scope list_scope.

Definition ob_decay : decay :=
  Decay [(0, id_st 0); (1, id_st 1); (2, id_st 2); (3, id_st 3)] [id_chain "K*" 2; id_chain "K0*" 0].
Definition ob_b : builder := dl_b ob_decay (rb_h ob_decay) false.
Lemma ob_std : std_decay ob_decay id_st.
Proof.
  constructor.
  - split; [repeat constructor|vm_compute; reflexivity].
  - apply Permutation_refl.
  - intros i H. apply BuilderFacts.In_0123 in H. destruct H as [->|[->|[->| ->]]]; reflexivity.
  - intros i H. apply BuilderFacts.In_0123 in H. destruct H as [->|[->|[->| ->]]]; vm_compute; discriminate.
Qed.
Lemma ob_call c : In c (d_chains ob_decay) -> bw_call rb_w c = Ok (rb_dyn c).
Proof. intros [<-|[<-|[]]]; lazy; reflexivity. Qed.
Lemma ob_bw : breit_wigner_dynamics ob_decay rb_dyn.
Proof. intros c H. right. exists rb_w. split; [exact phase_space_factor_closed|exact (ob_call c H)]. Qed.
Lemma ob_two_body : two_body_resonances ob_decay.
Proof. intros c [<-|[<-|[]]]; vm_compute; eauto 10. Qed.
Lemma ob_get f c : In c (d_chains ob_decay) ->
  get_builder (register_all (mk_configurator ob_decay) (map (fun c => (IdChain c, f)) (d_chains ob_decay)))
    (IdName (p_name (ch_resonance c))) = Ok f.
Proof. intros [<-|[<-|[]]]; vm_compute; reflexivity. Qed.
Lemma ob_isobar c : In c (d_chains ob_decay) -> exists p0 r a b k i j, isobar_chain c p0 r a b k i j.
Proof.
  intros [<-|[<-|[]]]; do 7 eexists;
    (split; [cbn; first [left; reflexivity|right; reflexivity]|split; [reflexivity|]]);
    apply NoDup_Permutation; try (cbn; repeat constructor; cbn; intuition discriminate); cbn; tauto.
Qed.
Lemma ob_dynamics : dynamics_of ob_b rb_dyn.
Proof.
  intros c Hc. split.
  - exists (bw_call rb_w). split; [exact (ob_get _ c Hc)|exact (ob_call c Hc)].
  - destruct (ob_isobar c Hc) as (p0 & r & a & b & k & i & j & Iso).
    exact (proj1 (c36_symbols rb_w _ _ _ _ _ _ _ _ _ phase_space_factor_closed Iso (ob_call c Hc))).
Qed.
Lemma ob_plain : plain_resonances ob_decay.
Proof. intros c [<-|[<-|[]]]; vm_compute; eauto. Qed.
Lemma ob_formulate : exists m, formulate ob_b None false false = Ok m.
Proof.
  apply (c63 ob_b id_st rb_dyn).
  - exact ob_std.
  - exact ob_dynamics.
  - intros c [<-|[<-|[]]]; split; intros _; vm_compute; discriminate.
  - left. split; auto. vm_compute. discriminate.
Qed.
Lemma ob_one : one_subsystem ob_decay 1.
Proof. split; [discriminate|]. intros c [<-|[<-|[]]]; reflexivity. Qed.
Lemma ob_spinless : spinless id_st.
Proof. intros i H. apply BuilderFacts.In_0123 in H. destruct H as [->|[->|[->| ->]]]; reflexivity. Qed.
Lemma ob_integer c : In c (d_chains ob_decay) -> exists n, p_spin (ch_resonance c) = 2 * Z.of_nat n.
Proof. intros [<-|[<-|[]]]; [exists 1%nat|exists 0%nat]; reflexivity. Qed.
Lemma ob_between : between_thresholds (rb_base (id_env 72 24)) 2 3 1.
Proof.
  unfold between_thresholds. change (Re (rb_base (id_env 72 24) (mass_at 2))) with 0%R.
  change (Re (rb_base (id_env 72 24) (mass_at 3))) with 0%R. change (Re (rb_base (id_env 72 24) (mass_at 1))) with 0%R.
  change (Re (rb_base (id_env 72 24) (mass_at 0))) with 12%R. change (Re (rb_base (id_env 72 24) (sigma_at 1))) with 72%R.
  assert (E : (sqrt 72 * sqrt 72 = 72)%R) by (apply sqrt_sqrt; lra). pose proof (sqrt_lt_R0 72 ltac:(lra)) as P.
  repeat split; try lra. destruct (Rlt_or_le (sqrt 72) 12) as [L|L]; [lra|nra].
Qed.
Lemma ob_spins : NoDup (map (fun c => p_spin (ch_resonance c)) (d_chains ob_decay)).
Proof. cbn. repeat constructor; cbn; intuition discriminate. Qed.
