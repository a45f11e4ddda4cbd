(** B -> K p pbar in the helicity basis (C151) *)
From Coq Require Import String ZArith QArith Qcanon List Bool Reals Lia Lra Permutation.
From Coquelicot Require Import Complex.
From Verif Require Import Prelude Spin Decay Expr Angles CExpr SpecSpin SpecKin SpecDPD Builder SpecBuilder BuilderFacts ModelFacts OccFacts LineshapeFacts SpecObs
  BuilderExamples RelabelExamples RelabelShapeExamples ObsExamples SpecProjection ProjectionFacts ProjectionExamples SpecEffect EffectProofs.
Import ListNotations.
Local Open Scope string_scope.
Local Open Scope Z_scope.
Local Open Scope list_scope.

Definition pp_p name spin := Particle name name spin (Some 1) (Qc_of_Z 1) (Qc_of_Z 0).
Definition pp_s (i : Z) : state :=
  match i with
  | 0 => State (pp_p "B" 0) 0
  | 1 => State (pp_p "K" 0) 1
  | 2 => State (pp_p "p" 1) 2
  | _ => State (pp_p "p~" 1) 3
  end.
Definition pp_leaf i := Leaf (PSt (pp_s i)).
(** a scalar and a vector that decay to p pbar *)
Definition pp_f0 : chain := Node (PSt (pp_s 0)) (Node (PPart (pp_p "f0" 0)) (pp_leaf 2) (pp_leaf 3) None) (pp_leaf 1) None.
Definition pp_psi : chain := Node (PSt (pp_s 0)) (Node (PPart (pp_p "psi" 2)) (pp_leaf 2) (pp_leaf 3) None) (pp_leaf 1) None.
Definition pp_decay : decay := Decay [(0, pp_s 0); (1, pp_s 1); (2, pp_s 2); (3, pp_s 3)] [pp_f0; pp_psi].
Definition pp_b : builder := Builder pp_decay (mk_configurator pp_decay) true true false.
Lemma pp_mk : mk_builder pp_decay (MinBool true) false = Ok pp_b.
Proof. reflexivity. Qed.
Lemma pp_std : std_decay pp_decay pp_s.
Proof.
  constructor.
  - split; [repeat constructor|vm_compute; reflexivity].
  - apply Permutation_refl.
  - intros i H. apply In_0123 in H. destruct H as [->|[->|[->| ->]]]; reflexivity.
  - intros i H. apply In_0123 in H. destruct H as [->|[->|[->| ->]]]; vm_compute; discriminate.
Qed.
Lemma pp_dyn : dynamics_of pp_b (fun _ => de_unit).
Proof.
  intros c H. split; [|reflexivity]. exists default_builder. split; [|reflexivity].
  destruct H as [<-|[<-|[]]]; vm_compute; reflexivity.
Qed.
Lemma pp_formulate : exists m, formulate pp_b None false false = Ok m.
Proof. destruct (formulate pp_b None false false) as [m|] eqn:F; [eauto|exfalso; vm_compute in F; discriminate F]. Qed.
Lemma pp_labels : NoDup (map (fun c => p_latex (ch_resonance c)) (d_chains pp_decay)).
Proof. repeat constructor; cbn; intuition discriminate. Qed.
Lemma unit_live c i j : cyclic i j (st_index (ch_spectator c)) -> 
  (exists base, between_thresholds base i j (st_index (ch_spectator c))) -> live (fun _ => de_unit) c.
Proof.
  intros Cy (base & BT). exists base, i, j. split; [exact Cy|]. split; [exact BT|]. split; [intros []|]. split; [intros []|].
  intros cpl E. assert (V : ceval (Env base cpl) (fun _ => 0) (de_expr de_unit) = RtoC 1).
  { cbn [de_unit de_expr]. apply CNum_value. }
  rewrite V in E. apply RtoC_inj in E. lra.
Qed.
Lemma pp_live c : In c (d_chains pp_decay) -> live (fun _ => de_unit) c.
Proof.
  intros [<-|[<-|[]]]; apply (unit_live _ 2 3); try (vm_compute; tauto); exists (rb_base (id_env 72 24)); exact ob_between.
Qed.

(** The coupling of the scalar for opposite helicities has no effect, *)
Lemma pp_refuted : exists m, formulate pp_b None false false = Ok m /\
  dget (KIdx (decay_name true) [IStr "f0"; IHel 1; IHel (-1)]) (m_params m) <> None /\
  no_effect m (decay_name true, [IStr "f0"; IHel 1; IHel (-1)]).
Proof.
  destruct pp_formulate as (m & F). exists m. split; [exact F|].
  assert (Cy : cyclic 2 3 1) by (vm_compute; tauto).
  assert (Hl : helicity_tuple pp_s (0, 0, 1, -1)) by (vm_compute; tauto).
  destruct (helicity_effect pp_b pp_s (fun _ => de_unit) None false false m pp_std pp_dyn F eq_refl eq_refl pp_labels
    pp_f0 (0, 0, 1, -1) 2 3 1 (or_introl eq_refl) eq_refl Cy Hl (or_introl eq_refl)) as (A & _ & B).
  split.
  - destruct (A _ (or_intror (or_introl eq_refl))) as (v & E). cbn in E. cbn. rewrite E. discriminate.
  - apply B. vm_compute. intuition discriminate.
Qed.

(** An LS model with two couplings of one resonance *)
Lemma ls_example : exists m, std_decay dl_decay ex_st /\ dynamics_of (dl_b dl_decay [] false) (fun _ => de_unit) /\
  plain_resonances dl_decay /\ formulate (dl_b dl_decay [] false) (Some 2) false true = Ok m /\
  NoDup (map (chain_key false false) (d_chains dl_decay)) /\
  (forall c, In c (d_chains dl_decay) -> allowed_chain c /\ live (fun _ => de_unit) c) /\
  exists n v, occurs_in_amplitudes m (OIdx n v).
Proof.
  destruct pj_couplings as (m & D & Y & P & F & A & One & _). exists m. split; [exact D|]. split; [exact Y|]. split; [exact P|]. split; [exact F|].
  split; [cbn; repeat constructor; cbn; intuition discriminate|]. split.
  - intros c I. split; [exact (A c I)|]. apply (unit_live c 3 1); rewrite (proj2 One c I); [vm_compute; tauto|].
    exists (rb_base (id_env 72 24)). exact pj_between.
  - set (c := hd pp_f0 (d_chains dl_decay)).
    assert (K : exists l i j k r p, (helicity_tuple ex_st l /\ cyclic i j k /\ In c (chains_of (dl_b dl_decay [] false) k)) /\
      couples c (at4 l) k r /\ In p (scaling_keys false false true c r (at4 l k) (at4 l i) (at4 l j))).
    { exists (1, 1, 0, 0), 3, 1, 2, 1. eexists. split; [|split; [|left; reflexivity]].
      - split; [vm_compute; tauto|]. split; vm_compute; tauto.
      - split; [vm_compute; tauto|reflexivity]. }
    destruct K as (l & i & j & k & r & p & T & Cp & Ip). exists (fst p), (snd p).
    apply (amplitudes_occ (dl_b dl_decay [] false) ex_st (fun _ => de_unit) true D Y (Some 2) false m F). exists l, i, j, k, c, r.
    split; [exact T|]. split; [exact Cp|]. right; right. exists p. split; [exact Ip|]. destruct p; reflexivity.
Qed.
Lemma pp_example : std_decay pp_decay pp_s /\ dynamics_of pp_b (fun _ => de_unit) /\
  (exists m, formulate pp_b None false false = Ok m) /\ NoDup (map (fun c => p_latex (ch_resonance c)) (d_chains pp_decay)) /\
  (forall c, In c (d_chains pp_decay) -> live (fun _ => de_unit) c) /\
  In pp_psi (d_chains pp_decay) /\ helicity_tuple pp_s (0, 0, 1, -1) /\ In 0 (helicities (p_spin (ch_resonance pp_psi))) /\
  In (1 - -1) (helicities (p_spin (ch_resonance pp_psi))) /\ ~ In (1 - -1) (helicities (p_spin (ch_resonance pp_f0))).
Proof.
  split; [exact pp_std|]. split; [exact pp_dyn|]. split; [exact pp_formulate|]. split; [exact pp_labels|]. split; [exact pp_live|].
  split; [right; left; reflexivity|]. split; [vm_compute; tauto|]. split; [vm_compute; tauto|]. split; [vm_compute; tauto|].
  vm_compute. intuition discriminate.
Qed.
