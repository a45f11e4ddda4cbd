(** Concrete cases for the properties of PropsRename.v *)
From Coq Require Import String ZArith QArith Qcanon List Bool Reals Lia Lra Permutation.
From Coquelicot Require Import Complex.
From Verif Require Import Prelude Spin Decay Expr CExpr SpecKin SpecDPD Builder SpecBuilder Dynamics SpecDynamics SpecRelabel BuilderFacts
  DynamicsProofs LineshapeProofs LineshapeFacts BuilderExamples AnglesProofs RefRefuted ChainExamples RelabelExamples RelabelShapeExamples
  SpecRename RenameProofs.
Import ListNotations.
Local Open Scope string_scope.
Local Open Scope Z_scope.
Local Open Scope list_scope.

(** other names, parities, masses and widths *)
Definition rn_g (p : particle) : particle :=
  Particle ("another " ++ p_name p) (p_latex p) (p_spin p) (Some (-1)) (Qc_of_Z 5) (Qc_of_Z 7).
Lemma rn_spins : keeps_spins rn_g.
Proof. intros p. reflexivity. Qed.
Definition rn_st (i : Z) : state := replace_state rn_g (ex_st i).
Definition rn_decay : decay :=
  Decay [(0, rn_st 0); (1, rn_st 1); (2, rn_st 2); (3, rn_st 3)] [replace rn_g (dl_chain 1); replace rn_g (dl_chain 0)].
Lemma rn_std : std_decay rn_decay rn_st.
Proof.
  constructor.
  - split; [repeat constructor|vm_compute; reflexivity].
  - apply Permutation_refl.
  - intros i H. apply In_0123 in H. destruct H as [->|[->|[->| ->]]]; reflexivity.
  - intros i H. apply In_0123 in H. destruct H as [->|[->|[->| ->]]]; vm_compute; discriminate.
Qed.
Lemma rn_replaced : replaced_decay rn_g dl_decay ex_st rn_decay rn_st.
Proof. split; [intros i _; reflexivity|apply perm_swap]. Qed.
Lemma rn_labels : keeps_labels rn_g dl_decay ex_st.
Proof. split; [reflexivity|]. intros c _. reflexivity. Qed.
Lemma rn_call c : In c (d_chains rn_decay) -> bw_call rb_w c = Ok (rb_dyn c).
Proof. intros Hc. cbn [d_chains rn_decay In] in Hc. destruct Hc as [<-|[<-|[]]]; lazy; reflexivity. Qed.
Lemma rn_isobar c : In c (d_chains rn_decay) -> exists p0 r a b k i j, isobar_chain c p0 r a b k i j.
Proof.
  intros Hc. cbn [d_chains rn_decay In] in Hc. destruct Hc as [<-|[<-|[]]]; do 7 eexists;
    (split; [cbn; first [left; reflexivity|right; reflexivity]|split; [reflexivity|]]);
    apply NoDup_Permutation; try (cbn; repeat constructor; cbn; intuition discriminate); cbn; tauto.
Qed.
Lemma rn_dynamics : dynamics_of (dl_b rn_decay (rb_h rn_decay) false) rb_dyn.
Proof.
  intros c Hc. cbn [dl_b b_decay] in Hc. split.
  - exists (bw_call rb_w). split; [|exact (rn_call c Hc)].
    cbn [d_chains rn_decay In] in Hc. destruct Hc as [<-|[<-|[]]]; vm_compute; reflexivity.
  - pose proof (rn_call c Hc) as E. destruct (rn_isobar c Hc) as (p0 & r & a & b & k & i & j & Iso).
    exact (proj1 (c36_symbols rb_w _ _ _ _ _ _ _ _ _ phase_space_factor_closed Iso E)).
Qed.
Lemma rn_settings : same_settings rn_g dl_decay rb_dyn rb_dyn.
Proof.
  intros c Hc. right. exists rb_w, two_body_phsp. split; [exact phase_space_factor_value|].
  split; [apply (rb_call dl_decay); cbn [In]; auto|apply rn_call]. destruct Hc as [<-|[<-|[]]]; cbn; auto.
Qed.
Lemma rn_formulate : exists m, formulate (dl_b dl_decay (rb_h dl_decay) false) None false false = Ok m.
Proof. lazy. eexists. reflexivity. Qed.

(** constant widths *)
Definition cw_w : bw_builder := BWBuilder false false false phase_space_factor.
Definition cw_h : history := map (fun c => (IdChain c, bw_call cw_w)) (d_chains dl_decay).
Definition cw_dyn (c : chain) : defexpr := match bw_call cw_w c with Ok e => e | Err _ => de_unit end.
Lemma cw_call c : In c (d_chains dl_decay) -> bw_call cw_w c = Ok (cw_dyn c).
Proof. intros Hc. cbn [d_chains dl_decay In] in Hc. destruct Hc as [<-|[<-|[]]]; lazy; reflexivity. Qed.
Lemma cw_dynamics : dynamics_of (dl_b dl_decay cw_h false) cw_dyn.
Proof.
  intros c Hc. cbn [dl_b b_decay] in Hc. split.
  - exists (bw_call cw_w). split; [exact (rb_get dl_decay _ c (or_introl eq_refl) Hc)|exact (cw_call c Hc)].
  - pose proof (cw_call c Hc) as E. destruct (rb_isobar dl_decay c (or_introl eq_refl) Hc) as (p0 & r & a & b & k & i & j & Iso).
    exact (proj1 (c36_symbols cw_w _ _ _ _ _ _ _ _ _ phase_space_factor_closed Iso E)).
Qed.
Lemma cw_constant : constant_widths dl_decay cw_dyn.
Proof. intros c Hc. right. exists phase_space_factor, two_body_phsp. split; [exact phase_space_factor_value|exact (cw_call c Hc)]. Qed.
Definition cw_base (x : symbol) : C := if eqb x (resonance_width (ch_resonance (dl_chain 0))) then RtoC (-2) else rb_base ex_env x.
Lemma cw_opposite : opposite_widths dl_decay (rb_base ex_env) cw_base.
Proof.
  split; [|split].
  - intros n Hn. cbn [In] in Hn. repeat destruct Hn as [<-|Hn]; try destruct Hn; reflexivity.
  - intros n Hn. cbn [In] in Hn. repeat destruct Hn as [<-|Hn]; try destruct Hn; reflexivity.
  - intros c Hc. destruct Hc as [<-|[<-|[]]]; (split; [reflexivity|]); (split; [reflexivity|]); (split; [reflexivity|]);
      (apply injective_projections; cbn; lra).
Qed.
Lemma cw_formulate : exists m, formulate (dl_b dl_decay cw_h false) None false false = Ok m.
Proof. lazy. eexists. reflexivity. Qed.
