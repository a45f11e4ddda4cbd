(** Facts about the order of the decay products in the nodes of a chain (C108, C109) *)
From Coq Require Import String ZArith QArith Qcanon List Bool Reals Lia Lra Permutation.
From Coquelicot Require Import Complex.
From Verif Require Import Prelude Spin Decay DecayFacts Expr Angles Sums Wigner CG CGFacts CExpr SpecKin SpecDPD Builder
  BuilderFacts ModelFacts ChainProofs SpecLS LSBasis LSProofs ParityProofs SpecRelabel SpecReorder.
Import ListNotations.
Local Open Scope string_scope.
Local Open Scope Z_scope.
Local Open Scope list_scope.

Lemma triangle_comm a b c : triangle a b c = triangle b a c.
Proof. unfold triangle. replace (a - b) with (- (b - a)) by lia. rewrite Z.abs_opp, (Z.add_comm a b). reflexivity. Qed.
Lemma ls_factor_swap J c j1 l1 j2 l2 :
  ls_factor J c j2 l2 j1 l1 = (parity_sign (2 * ls_L c + ls_S c - J) * ls_factor J c j1 l1 j2 l2)%R.
Proof.
  destruct (triangle j1 j2 (ls_S c)) eqn:T1.
  2:{ rewrite (ls_factor_unphysical J j1 j2) by auto. rewrite (ls_factor_unphysical J j2 j1); [ring|].
      left. rewrite triangle_comm. exact T1. }
  destruct (triangle (ls_S c) J (2 * ls_L c)) eqn:T2.
  2:{ rewrite !ls_factor_unphysical by auto. ring. }
  unfold ls_factor. replace (l2 - l1) with (- (l1 - l2)) by lia.
  rewrite (cg_swap j1 (- l1) j2 l2 (ls_S c) (- (l1 - l2))).
  replace (cg j1 (- l1) j2 l2 (ls_S c) (- (l1 - l2))) with (cg j1 (- l1) j2 (- - l2) (ls_S c) (- (l1 - l2))) by (f_equal; lia).
  rewrite (cg_flip j1 l1 j2 (- l2) (ls_S c) (l1 - l2)).
  replace (cg (2 * ls_L c) 0 (ls_S c) (- (l1 - l2)) J (- (l1 - l2)))
    with (cg (2 * ls_L c) (- 0) (ls_S c) (- (l1 - l2)) J (- (l1 - l2))) by reflexivity.
  rewrite (cg_flip (2 * ls_L c) 0 (ls_S c) (l1 - l2) J (l1 - l2)).
  rewrite (cg_sign_parity (2 * ls_L c) (ls_S c) J) by (rewrite triangle_rot; exact T2).
  transitivity ((cg_sign j1 j2 (ls_S c) * cg_sign j1 j2 (ls_S c)) *
    (parity_sign (2 * ls_L c + ls_S c - J) * (sqrt (IZR (2 * ls_L c + 1) / IZR (J + 1)) *
     cg (2 * ls_L c) 0 (ls_S c) (l1 - l2) J (l1 - l2) * cg j1 l1 j2 (- l2) (ls_S c) (l1 - l2))))%R; [ring|].
  rewrite cg_sign_sq. ring.
Qed.

(** A resonance and a spectator, in either order; the resonance decays to two states. *)
Definition two_nodes (c : chain) : Prop := exists s0 c1 c2 i R d1 d2 j sp s1 s2,
  c = Node (PSt s0) c1 c2 i /\
  (c1 = Node R d1 d2 j /\ c2 = Leaf (PSt sp) \/ c2 = Node R d1 d2 j /\ c1 = Leaf (PSt sp)) /\
  to_particle d1 = PSt s1 /\ to_particle d2 = PSt s2.
Lemma valid_two_nodes c : valid_chain c -> two_nodes c.
Proof.
  intros V. destruct (valid_chain_shape c V) as (s0 & c1 & c2 & i & R & d1 & d2 & j & sp & s1 & s2 & E & S & E1 & E2 & _).
  exists s0, c1, c2, i, R, d1, d2, j, sp, s1, s2. auto.
Qed.
Lemma relabel_two_nodes p c : two_nodes c -> two_nodes (relabel p c).
Proof.
  intros (s0 & c1 & c2 & i & R & d1 & d2 & j & sp & s1 & s2 & -> & S & E1 & E2).
  exists (relabel_state p s0), (relabel p c1), (relabel p c2), i, (relabel_pobj p R), (relabel p d1), (relabel p d2), j,
    (relabel_state p sp), (relabel_state p s1), (relabel_state p s2).
  split; [reflexivity|]. split; [destruct S as [[-> ->]|[-> ->]]; [left|right]; split; reflexivity|].
  split; [destruct d1|destruct d2]; cbn [to_particle relabel] in *; rewrite ?E1, ?E2; reflexivity.
Qed.

Lemma reorder_plain pr de c q : two_nodes c -> to_particle (ch_decay_node c) = PPart q ->
  to_particle (ch_decay_node (reorder pr de c)) = PPart q.
Proof.
  intros (s0 & c1 & c2 & i & R & d1 & d2 & j & sp & s1 & s2 & -> & S & E1 & E2) H. rewrite <- H.
  unfold reorder. destruct S as [[-> ->]|[-> ->]], (pr _), (de _); reflexivity.
Qed.
Lemma reorder_accessors pr de c : two_nodes c ->
  ch_parent (reorder pr de c) = ch_parent c /\ ch_resonance (reorder pr de c) = ch_resonance c /\
  ch_spectator (reorder pr de c) = ch_spectator c /\
  ch_incoming_ls (reorder pr de c) = ch_incoming_ls c /\ ch_outgoing_ls (reorder pr de c) = ch_outgoing_ls c /\
  resonance_first (reorder pr de c) = xorb (pr c) (resonance_first c) /\
  ch_decay_products (reorder pr de c)
  = (if de c then (snd (ch_decay_products c), fst (ch_decay_products c)) else ch_decay_products c).
Proof.
  intros (s0 & c1 & c2 & i & R & d1 & d2 & j & sp & s1 & s2 & -> & S & E1 & E2).
  unfold reorder. destruct S as [[-> ->]|[-> ->]], (pr _), (de _);
    unfold ch_parent, ch_resonance, ch_spectator, ch_incoming_ls, ch_outgoing_ls, ch_decay_node, ch_decay_products,
      decay_products_r, decay_node_r, spectator_r, children;
    cbn [swap_products swap_children to_particle obj_state find_first is_node get_or bind first_state as_state resonance_first
         node_interaction children xorb negb fst snd];
    rewrite ?E1, ?E2; repeat split; reflexivity.
Qed.

Section Factors.
  Variables (pr de : chain -> bool) (c : chain).
  Hypothesis V : two_nodes c.
  Lemma reorder_prod ph r lk :
    prod_factor ph (reorder pr de c) r lk
    = ((if pr c && negb ph then coupling_sign (p_spin (ch_parent c)) (ch_incoming_ls c) else 1) * prod_factor ph c r lk)%R.
  Proof.
    destruct (reorder_accessors pr de c V) as (A & B & C & D & E & F & G).
    unfold prod_factor. destruct ph; [rewrite andb_false_r; ring|]. rewrite A, B, C, D, F, andb_true_r.
    unfold coupling_sign. destruct (ch_incoming_ls c) as [ls|]; [|destruct (pr c); ring].
    destruct (pr c), (resonance_first c); cbn [xorb]; try ring; apply ls_factor_swap.
  Qed.
  Lemma reorder_dec dh lam :
    dec_factor dh (reorder pr de c) lam
    = ((if de c && negb dh then coupling_sign (p_spin (ch_resonance c)) (ch_outgoing_ls c) else 1) * dec_factor dh c lam)%R.
  Proof.
    destruct (reorder_accessors pr de c V) as (A & B & C & D & E & F & G).
    unfold dec_factor. destruct dh; [rewrite andb_false_r; ring|]. rewrite B, E, G, andb_true_r.
    unfold coupling_sign. destruct (ch_outgoing_ls c) as [ls|]; [|destruct (de c); ring].
    destruct (ch_decay_products c) as [s1 s2]. cbn [fst snd]. destruct (de c); [|ring]. apply ls_factor_swap.
  Qed.
  Lemma reorder_coupling (uc : bool) ev ph dh r lk li lj :
    (if uc then coefficient else coupling_product) ev ph dh (reorder pr de c) r lk li lj
    = (if uc then coefficient else coupling_product) ev ph dh c r lk li lj.
  Proof.
    destruct (reorder_accessors pr de c V) as (A & B & C & D & E & F & G).
    destruct uc; unfold coefficient, coupling_product; rewrite B, D, E; reflexivity.
  Qed.
  Lemma order_sign_sq ph dh : (order_sign ph dh pr de c * order_sign ph dh pr de c = 1)%R.
  Proof.
    unfold order_sign, coupling_sign. destruct (pr c && negb ph), (de c && negb dh);
      try destruct (ch_incoming_ls c); try destruct (ch_outgoing_ls c);
      repeat match goal with |- context [parity_sign ?z] =>
        let X := fresh in assert (X := LSProofs.parity_sign_sq z); set (parity_sign z) in * end; nra.
  Qed.
End Factors.

