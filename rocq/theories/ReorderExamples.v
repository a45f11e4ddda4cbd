(** Concrete decays for the properties of PropsReorder.v *)
From Coq Require Import String ZArith QArith Qcanon List Bool Reals Lia Lra Permutation.
From Coquelicot Require Import Complex.
From Verif Require Import Prelude Spin Decay Expr CExpr SpecKin SpecDPD Builder SpecBuilder Dynamics SpecDynamics SpecRelabel
  SpecReorder BuilderFacts DynamicsProofs LineshapeProofs LineshapeFacts BuilderExamples AnglesProofs RefRefuted ChainExamples RelabelExamples
  RelabelShapeExamples.
Import ListNotations.
Local Open Scope string_scope.
Local Open Scope Z_scope.
Local Open Scope list_scope.

(** *** Lc -> p pi K with two LS couplings of the L(1405); both nodes in the opposite order *)
Definition ro_all (c : chain) : bool := true.
Definition ro_none (c : chain) : bool := false.
Definition ro_decay : decay := Decay (d_states dl_decay) (map (reorder ro_all ro_all) (d_chains dl_decay)).
Lemma ro_std : std_decay ro_decay ex_st.
Proof.
  constructor.
  - split; [repeat constructor|vm_compute; reflexivity].
  - apply Permutation_refl.
  - intros i H; apply In_0123 in H; destruct H as [->|[->|[->| ->]]]; reflexivity.
  - intros i H; apply In_0123 in H; destruct H as [->|[->|[->| ->]]]; vm_compute; discriminate.
Qed.
Lemma ro_dynamics hel : dynamics_of (dl_b ro_decay [] hel) (fun _ => de_unit).
Proof.
  intros c Hc. split; [|reflexivity]. exists default_builder. split; [|reflexivity].
  cbn [dl_b b_decay] in Hc; vm_compute in Hc; repeat destruct Hc as [<-|Hc]; try destruct Hc; vm_compute; reflexivity.
Qed.
(** the production coupling with L = 1 has the opposite sign *)
Definition ro_cpl' (f : string) (ix : list ival) : C :=
  if String.eqb f (production_name false)
  then match ix with _ :: IHel 2 :: _ => RtoC (-1) | _ => RtoC 1 end else RtoC 1.
Lemma ro_signs c h lk li lj base : In c (d_chains dl_decay) ->
  coupling_product (Env base ro_cpl') false false c h lk li lj
  = (RtoC (1 * order_sign false false ro_all ro_all c) * coupling_product (Env base id_cpl) false false c h lk li lj)%C.
Proof.
  intros [<-|[<-|[]]]; unfold order_sign; cbn.
  - transitivity (RtoC 1 * RtoC 1)%C; [reflexivity|transitivity (RtoC (1 * (1 * 1)) * (RtoC 1 * RtoC 1))%C; [|reflexivity]].
    rewrite !Rmult_1_l, !Cmult_1_r. reflexivity.
  - transitivity (RtoC (-1) * RtoC 1)%C; [reflexivity|transitivity (RtoC (1 * (-1 * 1)) * (RtoC 1 * RtoC 1))%C; [|reflexivity]].
    rewrite Rmult_1_l, Rmult_1_r, !Cmult_1_r. reflexivity.
Qed.

(** *** D -> pi pi K with a K2* in both pi K subsystems and an f0 that decays into the two pions *)
Definition rf_chain : chain :=
  Node (PSt (id_st 0)) (Node (PPart (id_p "f0" 0 1)) (Leaf (PSt (id_st 1))) (Leaf (PSt (id_st 2))) (Some (LS 0 0)))
    (Leaf (PSt (id_st 3))) (Some (LS 0 0)).
Definition rf_decay : decay := Decay (d_states id_one) [id_chain "K2*" 4; relabel id_swap (id_chain "K2*" 4); rf_chain].
(** the two pions exchanged in the decay of the f0 *)
Definition rf_swap (c : chain) : bool := st_index (ch_spectator c) =? 3.
Lemma rf_std : std_decay rf_decay id_st.
Proof.
  constructor.
  - split; [repeat constructor|vm_compute; reflexivity].
  - apply Permutation_refl.
  - intros i H; apply In_0123 in H; destruct H as [->|[->|[->| ->]]]; reflexivity.
  - intros i H; apply In_0123 in H; destruct H as [->|[->|[->| ->]]]; vm_compute; discriminate.
Qed.
Lemma rf_relabelled : relabelled_up_to_order id_swap ro_none rf_swap rf_decay id_st rf_decay id_st.
Proof.
  split.
  - intros i H. apply In_0123 in H. destruct H as [->|[->|[->| ->]]]; reflexivity.
  - cbn. apply perm_swap.
Qed.
(** the decay is not closed under the exchange if the order of the products counts *)
Lemma rf_not_closed : ~ relabelled_decay id_swap rf_decay id_st rf_decay id_st.
Proof.
  intros [_ P]. assert (H : In rf_chain (map (relabel id_swap) (d_chains rf_decay))).
  { apply (Permutation_in _ P). cbn. auto. }
  cbn in H. destruct H as [H|[H|[H|[]]]]; discriminate H.
Qed.
Lemma rf_sign c : In c (d_chains rf_decay) -> (exchange_sign c * order_sign false false ro_none rf_swap c = 1)%R.
Proof.
  intros [<-|[<-|[<-|[]]]]; unfold order_sign, exchange_sign; cbn; unfold parity_sign; cbn; ring.
Qed.
Lemma rf_plain : plain_resonances rf_decay.
Proof. intros c [<-|[<-|[<-|[]]]]; eexists; vm_compute; reflexivity. Qed.
Lemma rf_dynamics : dynamics_of (dl_b rf_decay [] false) (fun _ => de_unit).
Proof.
  intros c Hc. split; [|reflexivity]. exists default_builder. split; [|reflexivity].
  cbn [dl_b b_decay] in Hc; vm_compute in Hc; repeat destruct Hc as [<-|Hc]; try destruct Hc; vm_compute; reflexivity.
Qed.
(** with Breit-Wigner lineshapes *)
Lemma rf_call c : In c (d_chains rf_decay) -> bw_call rb_w c = Ok (rb_dyn c).
Proof.
  intros Hc. cbn [d_chains rf_decay In] in Hc. repeat destruct Hc as [<-|Hc]; try destruct Hc; lazy; reflexivity.
Qed.
Lemma rf_isobar c : In c (d_chains rf_decay) -> exists p0 r a b k i j, isobar_chain c p0 r a b k i j.
Proof.
  intros Hc. cbn [d_chains rf_decay In] in Hc.
  repeat destruct Hc as [<-|Hc]; try destruct Hc; do 7 eexists;
    (split; [cbn; first [left; reflexivity|right; reflexivity]|split; [reflexivity|]]);
    apply NoDup_Permutation; try (cbn; repeat constructor; cbn; intuition discriminate); cbn; tauto.
Qed.
Lemma rf_bw_dynamics : dynamics_of (dl_b rf_decay (rb_h rf_decay) false) rb_dyn.
Proof.
  intros c Hc. cbn [dl_b b_decay] in Hc. split.
  - exists (bw_call rb_w). split; [|exact (rf_call c Hc)].
    vm_compute in Hc; repeat destruct Hc as [<-|Hc]; try destruct Hc; vm_compute; reflexivity.
  - pose proof (rf_call c Hc) as E. destruct (rf_isobar c Hc) as (p0 & r & a & b & k & i & j & Iso).
    exact (proj1 (c36_symbols rb_w _ _ _ _ _ _ _ _ _ phase_space_factor_closed Iso E)).
Qed.
Lemma rf_two_body : two_body_resonances rf_decay.
Proof. intros c Hc. vm_compute in Hc; repeat destruct Hc as [<-|Hc]; try destruct Hc; vm_compute; eauto 10. Qed.
Lemma rf_symmetric : symmetric_phsp two_body_phsp.
Proof. intros s m1 m2. unfold two_body_phsp. rewrite breakup_sym. reflexivity. Qed.
Lemma rf_same : same_lineshapes_up_to_order id_swap ro_none rf_swap rf_decay rb_dyn rb_dyn.
Proof.
  intros c Hc. right. exists rb_w, two_body_phsp. split; [exact phase_space_factor_value|]. split; [exact rf_symmetric|].
  split; [exact (rf_call c Hc)|]. apply rf_call. destruct Hc as [<-|[<-|[<-|[]]]]; cbn; auto.
Qed.
