(** The order of the decay products in the nodes of a chain: lineshapes of BreitWignerBuilder (C108, C109) *)
From Coq Require Import String ZArith QArith Qcanon List Bool Reals Lia Permutation.
From Coquelicot Require Import Complex.
From Verif Require Import DecayProofs.
From Verif Require Import Prelude Spin Decay Expr CExpr Builder SpecKin SpecDPD SpecBuilder Dynamics SpecDynamics Sums CExprFacts
  BuilderFacts DynamicsProofs LineshapeFacts LineshapeProofs SpecRelabel RelabelFacts RelabelProofs RelabelShapes SpecReorder ReorderFacts ReorderProofs.
Import ListNotations.
Local Open Scope string_scope.
Local Open Scope Z_scope.
Local Open Scope list_scope.

Lemma reorder_isobar pr de c p0 r a b k i j : isobar_chain c p0 r a b k i j ->
  isobar_chain (reorder pr de c) p0 r (if de c then b else a) (if de c then a else b) k i j.
Proof.
  intros (Hc & I0 & P). split; [|split].
  - destruct Hc as [->| ->]; unfold reorder; destruct (pr _), (de _); cbn; auto.
  - exact I0.
  - destruct (de c); [|exact P]. eapply Permutation_trans; [apply perm_swap|exact P].
Qed.
Lemma chain_lineshape_sym w f Lp Ld d v p0 r a b k : symmetric_phsp f ->
  chain_lineshape w f Lp Ld d v p0 r b a k = chain_lineshape w f Lp Ld d v p0 r a b k.
Proof.
  intros S. unfold chain_lineshape, running_width.
  rewrite !(S _ (v (outer_mass a)) (v (outer_mass b))), !(form_factor_sym _ _ (v (outer_mass b)) (v (outer_mass a))). reflexivity.
Qed.

Lemma c108_shape w pr de c p0 r a b k i j f ev h : isobar_chain c p0 r a b k i j ->
  phsp_value (bw_phsp_factor w) f -> symmetric_phsp f ->
  (bw_call w c = Err ValueError /\ bw_call w (reorder pr de c) = Err ValueError) \/
  exists e e', bw_call w c = Ok e /\ bw_call w (reorder pr de c) = Ok e' /\ ceval ev h (de_expr e') = ceval ev h (de_expr e).
Proof.
  intros Iso Ph S. pose proof (reorder_isobar pr de c p0 r a b k i j Iso) as Iso'.
  destruct (c36_total w _ _ _ _ _ _ _ _ Iso) as [T N]. destruct (c36_total w _ _ _ _ _ _ _ _ Iso') as [T' N'].
  assert (Dec : ((needs_decay_ls w = true -> j <> None) /\ (needs_production_ls w = true -> i <> None)) \/
    ((needs_decay_ls w = true /\ j = None) \/ (needs_production_ls w = true /\ i = None))).
  { destruct (needs_decay_ls w), (needs_production_ls w), i, j; try (right; auto; fail); left; split; congruence. }
  destruct Dec as [H|H]; [right|left; auto].
  destruct (T H) as [e E]. destruct (T' H) as [e' E']. exists e, e'. do 2 (split; [assumption|]).
  rewrite (c36_value _ _ _ _ _ _ _ _ _ _ _ ev h Ph Iso E), (c36_value _ _ _ _ _ _ _ _ _ _ _ ev h Ph Iso' E').
  destruct (de c); [apply chain_lineshape_sym; exact S|reflexivity].
Qed.

Lemma shapes_reordered p pr de d s dyn dyn' base base' cpl cpl' : std_decay d s -> two_body_resonances d -> relabelling p ->
  same_lineshapes_up_to_order p pr de d dyn dyn' -> relabelled_values p base base' ->
  forall c, In c (d_chains d) ->
    ceval (Env base' cpl') (fun _ => 0) (de_expr (dyn' (relabel p (reorder pr de c)))) = ceval (Env base cpl) (fun _ => 0) (de_expr (dyn c)).
Proof.
  intros D Tb Rl Sh Rv c Hc. destruct (Sh c Hc) as [[-> ->]|(w & f & Ph & Sy & E & E')]; [reflexivity|].
  destruct (std_isobar _ _ c D (two_body_plain d Tb) Hc) as (r & a & b & k & Iso & _).
  { destruct (Tb c Hc) as (r & x & y & j & ->). eauto. }
  destruct (c108_shape w pr de c (s 0) r a b k _ _ f (Env base cpl) (fun _ => 0) Iso Ph Sy) as [[N _]|(e & e1 & X & X1 & V1)];
    [rewrite N in E; discriminate E|].
  destruct (c89 w p _ (s 0) r _ _ k _ _ f base base' cpl cpl' (fun _ => 0) (fun _ => 0) Rl (reorder_isobar pr de _ _ _ _ _ _ _ _ Iso) Ph Rv)
    as [[_ N]|(e2 & e' & X2 & X' & V & _)]; [rewrite N in E'; discriminate E'|].
  rewrite E in X. rewrite E' in X'. rewrite X1 in X2. inversion X. inversion X'. inversion X2. subst. rewrite V. exact V1.
Qed.
Lemma c109_breit_wigner b p s dyn uc ref cl m r base base' cpl pr de e :
  std_decay (b_decay b) s -> dynamics_of b dyn ->
  two_body_resonances (b_decay b) -> same_lineshapes_up_to_order p pr de (b_decay b) dyn dyn ->
  formulate b ref cl uc = Ok m -> resolve_reference (b_decay b) ref = Ok r -> p r = r ->
  relabelling p -> exchanges p -> relabelled_up_to_order p pr de (b_decay b) s (b_decay b) s -> relabelled_values p base base' ->
  physical (fun x => Re (base x)) -> nonsingular (fun x => Re (base x)) ->
  (b_dec_helicity b = false \/ forall i, In i [1; 2; 3] -> p_spin (s i) = 0) ->
  (forall c, In c (d_chains (b_decay b)) ->
    (exchange_sign c * order_sign (b_prod_helicity b) (b_dec_helicity b) pr de c = e)%R) ->
  full_value (at_point (m_variables m) base' cpl) m = full_value (at_point (m_variables m) base cpl) m.
Proof.
  intros D Y Tb Sh F R1 Pr P O RD Rv Ph Ns Hl Sg.
  apply (c109_identical b p s dyn uc ref cl m r base base' cpl pr de e); auto.
  - intros _. apply two_body_plain. exact Tb.
  - apply Rv.
  - apply (shapes_reordered p pr de _ s); auto.
Qed.
