(** The order of the chains of a decay (C100) *)
From Coq Require Import String ZArith QArith Qcanon List Bool Lia Reals Permutation.
From Coquelicot Require Import Complex.
From Verif Require Import DecayProofs.
From Verif Require Import Prelude Decay DecayFacts Expr Angles Sums CExpr SpecKin SpecDPD Builder SpecBuilder BuilderFacts ModelFacts
  OccFacts BuilderProofs ChainProofs.
Import ListNotations.
Local Open Scope string_scope.
Local Open Scope Z_scope.
Local Open Scope list_scope.

Lemma perm_filter_length {A} (p : A -> bool) l l' : Permutation l l' -> length (filter p l) = length (filter p l').
Proof.
  induction 1; cbn [filter]; auto.
  - destruct (p x); cbn [length]; congruence.
  - destruct (p x), (p y); reflexivity.
  - congruence.
Qed.
Lemma reference_order d d' s ref : std_decay d s -> std_decay d' s -> Permutation (d_chains d) (d_chains d') ->
  resolve_reference d' ref = resolve_reference d ref.
Proof.
  intros D D' P. destruct (c30 d s D) as (E & N & S & _). destruct (c30 d' s D') as (E' & N' & S' & _).
  destruct ref as [r|]; [rewrite S, S'; reflexivity|].
  destruct (d_chains d) as [|c cs] eqn:Ec.
  - apply Permutation_nil in P. rewrite E, E'; auto.
  - destruct N as (r & Er & _ & Mx); [discriminate|].
    destruct N' as (r' & Er' & _ & Mx'). { intros X. rewrite X in P. apply Permutation_sym, Permutation_nil in P. discriminate P. }
    assert (Q : forall k, chain_count d' k = chain_count d k).
    { intros k. unfold chain_count. rewrite Ec. apply perm_filter_length. symmetry. exact P. }
    rewrite Er, Er'. f_equal. destruct (Mx r') as [A1 A2]. destruct (Mx' r) as [B1 B2]. rewrite !Q in B1, B2.
    assert (chain_count d r' = chain_count d r) by lia. specialize (A2 H). specialize (B2 (eq_sym H)). lia.
Qed.

Lemma c100_order b b' s dyn ref cl cl' uc m :
  std_decay (b_decay b) s -> std_decay (b_decay b') s -> dynamics_of b dyn -> dynamics_of b' dyn ->
  (b_prod_helicity b = false -> plain_resonances (b_decay b)) ->
  b_prod_helicity b' = b_prod_helicity b -> b_dec_helicity b' = b_dec_helicity b -> b_all_subsystems b' = b_all_subsystems b ->
  Permutation (d_chains (b_decay b)) (d_chains (b_decay b')) ->
  ref = None \/ (exists r, ref = Some r /\ In r [1; 2; 3]) ->
  formulate b ref cl uc = Ok m ->
  exists m', formulate b' ref cl' uc = Ok m' /\
    (forall x, dget x (m_variables m') = dget x (m_variables m)) /\
    (forall ev k l, In k [1; 2; 3] -> helicity_tuple s l -> amp_value ev m' k l = amp_value ev m k l) /\
    (forall ev, full_value ev m' = full_value ev m).
Proof.
  intros D D' Dyn Dyn' Pl Ep Ed Ea P Hr F.
  assert (Rf := reference_order _ _ s ref D D' P).
  assert (Pl' : b_prod_helicity b' = false -> plain_resonances (b_decay b')).
  { rewrite Ep. intros H c Hc. apply (Pl H). apply (Permutation_in _ (Permutation_sym P)). exact Hc. }
  destruct (formulate_inv b s D ref cl uc m F) as (r & _ & _ & _ & _ & _ & _ & _ & _ & Er & _).
  assert (F' : exists m', formulate b' ref cl' uc = Ok m').
  { apply (c63 b' s dyn D' Dyn').
    - intros c Hc. rewrite Ep, Ed. apply (c63_ls b s dyn ref cl uc m D Dyn F).
      apply (Permutation_in _ (Permutation_sym P)). exact Hc.
    - destruct Hr as [->|Hr]; [left; split; [reflexivity|]|right; exact Hr].
      intros N. destruct (c30 (b_decay b') s D') as (E & _). rewrite (E N), Er in Rf. discriminate Rf. }
  destruct F' as (m' & F'). exists m'. split; [exact F'|]. rewrite Er in Rf.
  assert (P0 : Permutation (d_chains (b_decay b)) (d_chains (b_decay b') ++ [])) by (rewrite app_nil_r; exact P).
  assert (P1 : Permutation (d_chains (b_decay b')) (d_chains (b_decay b) ++ [])) by (rewrite app_nil_r; symmetry; exact P).
  destruct (c83_off b b' s dyn uc ref cl m ref cl' m' r [] D D' Dyn Dyn' Pl Ep Ed Ea F F' Er Rf P0) as [V1 W1].
  destruct (c83_off b' b s dyn uc ref cl' m' ref cl m r [] D' D Dyn' Dyn Pl' (eq_sym Ep) (eq_sym Ed) (eq_sym Ea) F' F Rf Er P1)
    as [V2 W2].
  split; [|split].
  - intros x. destruct (dget x (m_variables m')) as [e|] eqn:X; [symmetry; apply V1; exact X|].
    destruct (dget x (m_variables m)) as [e|] eqn:Y; [|reflexivity]. rewrite (V2 x e Y) in X. discriminate X.
  - intros ev k l Hk Hl. symmetry. apply W1; auto. intros ? ? ? ? ? [].
  - intros ev. symmetry. apply W1. intros ? ? ? ? ? [].
Qed.
