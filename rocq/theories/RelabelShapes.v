(** Change of the labels of the final state: lineshapes of BreitWignerBuilder. *)
From Coq Require Import String ZArith QArith Qcanon List Bool Reals Lia Permutation.
From Coquelicot Require Import Complex.
From Verif Require Import DecayProofs.
From Verif Require Import Prelude Spin Decay Expr CExpr Builder SpecKin SpecDPD SpecBuilder Dynamics SpecDynamics Sums CExprFacts
  BuilderFacts DynamicsProofs LineshapeProofs SpecRelabel RelabelFacts RelabelProofs.
Import ListNotations.
Local Open Scope string_scope.
Local Open Scope Z_scope.
Local Open Scope list_scope.

Lemma relabel_isobar p c p0 r a b k i j : relabelling p -> isobar_chain c p0 r a b k i j ->
  isobar_chain (relabel p c) (relabel_state p p0) r (relabel_state p a) (relabel_state p b) (relabel_state p k) i j.
Proof.
  intros [P0 Pp] (Hc & I0 & P). split; [|split].
  - destruct Hc as [->| ->]; cbn; auto.
  - cbn. rewrite I0. exact P0.
  - cbn [relabel_state st_index]. apply (Permutation_map p) in P. cbn [map] in P. eapply Permutation_trans; eauto.
Qed.
Section Values.
  Context (p : Z -> Z) (base base' : symbol -> C) (Rv : relabelled_values p base base') (Rl : relabelling p).
  Lemma rv_sigma k : In (st_index k) [1; 2; 3] -> base' (sigma_of (relabel_state p k)) = base (sigma_of k).
  Proof. intros H. destruct Rv as [[_ A] _]. apply (A _ H). Qed.
  Lemma rv_mass k : In (st_index k) [1; 2; 3] -> base' (outer_mass (relabel_state p k)) = base (outer_mass k).
  Proof. intros H. destruct Rv as [[_ A] _]. apply (A _ H). Qed.
  Lemma rv_mass0 k : st_index k = 0 -> base' (outer_mass (relabel_state p k)) = base (outer_mass k).
  Proof.
    intros H. destruct Rv as [[A _] _]. unfold outer_mass, relabel_state. cbn [st_index]. rewrite H, (proj1 Rl). exact A.
  Qed.
  Ltac other := apply (proj2 Rv); cbn [sname]; intros H;
    repeat (destruct H as [H|H]; [cbn in H; discriminate H|]); destruct H.
  Lemma rv_rmass r : base' (resonance_mass r) = base (resonance_mass r). Proof. other. Qed.
  Lemma rv_rwidth r : base' (resonance_width r) = base (resonance_width r). Proof. other. Qed.
  Lemma rv_radius : base' resonance_radius = base resonance_radius. Proof. other. Qed.
  Lemma rv_pradius k : base' (parent_radius (relabel_state p k)) = base (parent_radius k).
  Proof. change (parent_radius (relabel_state p k)) with (parent_radius k). other. Qed.
End Values.

Lemma c89 w p c p0 r a b k i j f base base' cpl cpl' h h' : relabelling p -> isobar_chain c p0 r a b k i j ->
  phsp_value (bw_phsp_factor w) f -> relabelled_values p base base' ->
  (bw_call w c = Err ValueError /\ bw_call w (relabel p c) = Err ValueError) \/
  exists e e', bw_call w c = Ok e /\ bw_call w (relabel p c) = Ok e' /\
    ceval (Env base' cpl') h' (de_expr e') = ceval (Env base cpl) h (de_expr e) /\
    (forall x q, dget (KSym x) (de_params e') = Some (real_val q) <->
       In (x, q) (bw_parameters w (relabel_state p p0) r (relabel_state p a) (relabel_state p b) (relabel_state p k))).
Proof.
  intros Rl Iso Ph Rv. pose proof (relabel_isobar p c p0 r a b k i j Rl Iso) as Iso'.
  destruct (c36_total w _ _ _ _ _ _ _ _ Iso) as [T N]. destruct (c36_total w _ _ _ _ _ _ _ _ Iso') as [T' N'].
  assert (Dec : ((needs_decay_ls w = true -> j <> None) /\ (needs_production_ls w = true -> i <> None)) \/
    ((needs_decay_ls w = true /\ j = None) \/ (needs_production_ls w = true /\ i = None))).
  { destruct (needs_decay_ls w), (needs_production_ls w), i, j; try (right; auto; fail); left; split; congruence. }
  destruct Dec as [H|H]; [right|left; auto].
  destruct (T H) as [e E]. destruct (T' H) as [e' E']. exists e, e'. do 2 (split; [assumption|]). split.
  - rewrite (c36_value _ _ _ _ _ _ _ _ _ _ _ (Env base cpl) h Ph Iso E).
    rewrite (c36_value _ _ _ _ _ _ _ _ _ _ _ (Env base' cpl') h' Ph Iso' E').
    destruct Iso as (_ & I0 & P). cbn [e_sym].
    assert (In3 : forall x, In x [a; b; k] -> In (st_index x) [1; 2; 3]).
    { intros x Hx. eapply Permutation_in; [exact P|]. apply (in_map st_index) in Hx. exact Hx. }
    unfold chain_lineshape.
    rewrite (rv_sigma p base base' Rv k), (rv_mass p base base' Rv a), (rv_mass p base base' Rv b), (rv_mass p base base' Rv k),
      (rv_mass0 p base base' Rv Rl p0 I0), (rv_rmass p base base' Rv), (rv_rwidth p base base' Rv), (rv_radius p base base' Rv),
      (rv_pradius p base base' Rv) by (apply In3; cbn; auto). reflexivity.
  - intros x q. rewrite (c36_defaults _ _ _ _ _ _ _ _ _ _ Iso' E'). split.
    + intros (y & q' & Ey & Eq & I). assert (y = x) by congruence. assert (q' = q) by (unfold real_val in Eq; congruence). subst. exact I.
    + intros I. eauto.
Qed.

(** ** Models *)
Lemma two_body_plain d : two_body_resonances d -> plain_resonances d.
Proof. intros Tb c Hc. destruct (Tb c Hc) as (r & x & y & j & ->). cbn. eauto. Qed.
Lemma shapes_relabelled p d s dyn dyn' base base' cpl cpl' : std_decay d s -> two_body_resonances d -> relabelling p ->
  same_lineshapes p d dyn dyn' -> relabelled_values p base base' ->
  forall c, In c (d_chains d) ->
    ceval (Env base' cpl') (fun _ => 0) (de_expr (dyn' (relabel p c))) = ceval (Env base cpl) (fun _ => 0) (de_expr (dyn c)).
Proof.
  intros D Tb Rl Sh Rv c Hc. destruct (Sh c Hc) as [[-> ->]|(w & f & Ph & E & E')]; [reflexivity|].
  destruct (std_isobar _ _ c D (two_body_plain d Tb) Hc) as (r & a & b & k & Iso & _).
  { destruct (Tb c Hc) as (r & x & y & j & ->). eauto. }
  destruct (c89 w p c (s 0) r a b k _ _ f base base' cpl cpl' (fun _ => 0) (fun _ => 0) Rl Iso Ph Rv) as [[N _]|(e & e' & X & X' & V & _)];
    [rewrite N in E; discriminate E|].
  rewrite E in X. rewrite E' in X'. inversion X. inversion X'. subst. exact V.
Qed.
Lemma c89_cyclic b b' p s s' dyn dyn' uc ref cl m ref' cl' m' r base base' cpl :
  std_decay (b_decay b) s -> std_decay (b_decay b') s' -> dynamics_of b dyn -> dynamics_of b' dyn' ->
  two_body_resonances (b_decay b) -> same_lineshapes p (b_decay b) dyn dyn' ->
  b_prod_helicity b' = b_prod_helicity b -> b_dec_helicity b' = b_dec_helicity b ->
  formulate b ref cl uc = Ok m -> formulate b' ref' cl' uc = Ok m' ->
  resolve_reference (b_decay b) ref = Ok r -> resolve_reference (b_decay b') ref' = Ok (p r) ->
  relabelling p -> keeps_order p -> relabelled_decay p (b_decay b) s (b_decay b') s' -> relabelled_values p base base' ->
  full_value (at_point (m_variables m') base' cpl) m' = full_value (at_point (m_variables m) base cpl) m.
Proof.
  intros D D' Y Y' Tb Sh HP HD F F' R1 R2 P O RD Rv.
  apply (c86 b b' p s s' dyn dyn' uc ref cl m ref' cl' m' r base base' cpl); auto.
  - intros _. apply two_body_plain. exact Tb.
  - apply Rv.
  - apply (shapes_relabelled p _ s); auto.
Qed.
Lemma c89_identical b p s dyn uc ref cl m r base base' cpl e :
  std_decay (b_decay b) s -> dynamics_of b dyn ->
  two_body_resonances (b_decay b) -> same_lineshapes p (b_decay b) dyn dyn ->
  formulate b ref cl uc = Ok m -> resolve_reference (b_decay b) ref = Ok r -> p r = r ->
  relabelling p -> exchanges p -> relabelled_decay p (b_decay b) s (b_decay b) s -> relabelled_values p base base' ->
  physical (fun x => Re (base x)) -> nonsingular (fun x => Re (base x)) ->
  (b_dec_helicity b = false \/ forall i, In i [1; 2; 3] -> p_spin (s i) = 0) ->
  (forall c, In c (d_chains (b_decay b)) -> exchange_sign c = e) ->
  full_value (at_point (m_variables m) base' cpl) m = full_value (at_point (m_variables m) base cpl) m.
Proof.
  intros D Y Tb Sh F R1 Pr P O RD Rv Ph Ns Hl Sg.
  apply (c88 b p s dyn uc ref cl m r base base' cpl e); auto.
  - intros _. apply two_body_plain. exact Tb.
  - apply Rv.
  - apply (shapes_relabelled p _ s); auto.
Qed.
