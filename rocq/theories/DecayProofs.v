(** Proofs of properties C05-C10: decay chains and decays. *)
From Coq Require Import String ZArith QArith Qcanon List Bool Lia Sorted Permutation.
From Verif Require Import Prelude Spin Decay SpinFacts DecayFacts.
Import ListNotations.
Local Open Scope string_scope.
Local Open Scope Z_scope.
Local Open Scope list_scope.

(** ** Specification: what a three-body decay chain is *)

(** The particle a child of a node stands for: itself, or the parent of a sub-decay. *)
Definition child_is (c : tree) (o : pobj) : Prop :=
  c = Leaf o \/ exists c1 c2 i, c = Node o c1 c2 i.

(** [t]: the state [s0] decays to the resonance [R] and the state [s]; [R] decays to
    the states [s1] and [s2]; the resonance may be the first or the second child. *)
Definition is_three_body_chain (t : tree) (s0 : state) (R : pobj) (s1 s2 s : state) : Prop :=
  exists d1 d2 i j,
    (t = Node (PSt s0) (Node R d1 d2 j) (Leaf (PSt s)) i \/
     t = Node (PSt s0) (Leaf (PSt s)) (Node R d1 d2 j) i) /\
    child_is d1 (PSt s1) /\ child_is d2 (PSt s2).

Definition distinct_ids (l : list state) : Prop := NoDup (map st_index l).

Lemma child_is_to_particle c o : child_is c o <-> to_particle c = o.
Proof.
  unfold child_is. destruct c as [o'|p c1 c2 i]; simpl; split.
  - intros [E|(? & ? & ? & E)]; [inversion E; auto|discriminate].
  - intros ->. auto.
  - intros [E|(? & ? & ? & E)]; [discriminate|inversion E; auto].
  - intros ->. right; eauto.
Qed.

Lemma chain_accept_aux t :
  (mk_chain t = Ok t <->
   exists s0 R s1 s2 s, is_three_body_chain t s0 R s1 s2 s /\ distinct_ids [s0; s1; s2; s]).
Proof.
  rewrite mk_chain_ok. split.
  - intros (_ & s0 & c1 & c2 & i & R & d1 & d2 & j & s & s1 & s2 & -> & S & E1 & E2 & ND).
    exists s0, R, s1, s2, s. split; [|exact ND].
    exists d1, d2, i, j. rewrite !child_is_to_particle. split; auto.
    destruct S as [[-> ->]|[-> ->]]; auto.
  - intros (s0 & R & s1 & s2 & s & (d1 & d2 & i & j & S & E1 & E2) & ND). split; auto.
    rewrite child_is_to_particle in E1, E2.
    destruct S as [->| ->]; repeat eexists; eauto.
Qed.

Lemma chain_accepted_iff_aux t :
  (exists c, mk_chain t = Ok c) <->
  exists s0 R s1 s2 s, is_three_body_chain t s0 R s1 s2 s /\ distinct_ids [s0; s1; s2; s].
Proof.
  rewrite <- chain_accept_aux. split.
  - intros [c H]. pose proof H as H'. apply mk_chain_ok in H'. destruct H' as [-> _]. exact H.
  - intros H. exists t. exact H.
Qed.

Lemma chain_ls_aux s0 R d1 d2 s incoming outgoing t :
  (t = Node (PSt s0) (Node R d1 d2 outgoing) (Leaf (PSt s)) incoming \/
   t = Node (PSt s0) (Leaf (PSt s)) (Node R d1 d2 outgoing) incoming) ->
  ch_incoming_ls t = incoming /\ ch_outgoing_ls t = outgoing /\
  ch_decay_node t = Node R d1 d2 outgoing.
Proof. intros [-> | ->]; repeat split. Qed.

Lemma chain_accessors_aux t s0 R s1 s2 s :
  is_three_body_chain t s0 R s1 s2 s -> distinct_ids [s0; s1; s2; s] ->
  ch_parent t = s0 /\ ch_resonance t = pobj_particle R /\ ch_spectator t = s /\
  ch_decay_products t = (s1, s2) /\
  StronglySorted (fun a b => st_index a < st_index b) (ch_final_state t) /\
  Permutation (ch_final_state t) [s1; s2; s].
Proof.
  intros (d1 & d2 & i & j & S & E1 & E2) ND.
  rewrite child_is_to_particle in E1, E2.
  assert (V : valid_chain t).
  { apply chain_accept_aux. exists s0, R, s1, s2, s. split; auto.
    exists d1, d2, i, j. rewrite !child_is_to_particle. auto. }
  assert (F : ch_final_state t = sort_by_index [s1; s2; s] /\
     ch_parent t = s0 /\ ch_resonance t = pobj_particle R /\ ch_spectator t = s /\
     ch_decay_products t = (s1, s2)).
  { destruct S as [->| ->];
    unfold ch_final_state, ch_parent, ch_resonance, ch_spectator, ch_decay_products, ch_decay_node,
      final_state_r, decay_products_r, decay_node_r, spectator_r, children; simpl;
    rewrite E1, E2; simpl; auto. }
  destruct F as (F & A & B & C & D). rewrite F. repeat (split; [assumption|]).
  assert (P : Permutation (sort_by_index [s1; s2; s]) [s1; s2; s])
    by (symmetry; apply sort_by_index_perm).
  split; [|exact P].
  pose proof (sort_by_index_sorted [s1; s2; s]) as SS.
  assert (ND' : NoDup (map st_index (sort_by_index [s1; s2; s]))).
  { eapply Permutation_NoDup; [apply Permutation_map; symmetry; exact P|].
    unfold distinct_ids in ND. simpl in *. inversion ND; auto. }
  revert SS ND'. generalize (sort_by_index [s1; s2; s]) as l. clear.
  induction 1 as [|a l SS IH FF]; intros ND; constructor.
  - apply IH. inversion ND; auto.
  - inversion ND as [|? ? N _]; subst. rewrite Forall_forall in *. intros x Hx.
    specialize (FF x Hx). unfold index_le in FF.
    assert (st_index a <> st_index x); [|lia].
    intros E. apply N. rewrite E. apply in_map; auto.
Qed.

(** A concrete chain: Lc -> (L(1405) -> K- p) pi. *)
Definition ex_p name spin := Particle name name spin (Some 1) (Qc_of_Z 1) (Qc_of_Z 0).
Definition ex_s name spin i := State (ex_p name spin) i.
Definition ex_chain : tree :=
  Node (PSt (ex_s "Lc" 1 0))
    (Leaf (PSt (ex_s "pi" 0 2)))
    (Node (PPart (ex_p "L(1405)" 1)) (Leaf (PSt (ex_s "K" 0 3))) (Leaf (PSt (ex_s "p" 1 1)))
       (Some (LS 0 1)))
    (Some (LS 1 1)).
(** Which exception is raised when a chain is rejected. *)
Lemma chain_reject_aux t e : mk_chain t = Err e ->
  (e = TypeError /\ (exists o, t = Leaf o)) \/
  (e = ValueError /\ exists p c1 c2 i, t = Node p c1 c2 i /\
     ~ (exists R d1 d2 j s, (c1 = Node R d1 d2 j /\ c2 = Leaf (PSt s)) \/
                            (c2 = Node R d1 d2 j /\ c1 = Leaf (PSt s)))) \/
  (e = AttributeError /\ exists p c1 c2 i R d1 d2 j s q, t = Node p c1 c2 i /\
     ((c1 = Node R d1 d2 j /\ c2 = Leaf (PSt s)) \/ (c2 = Node R d1 d2 j /\ c1 = Leaf (PSt s))) /\
     (child_is d1 (PPart q) \/ child_is d2 (PPart q))) \/
  (e = TypeError /\ exists p c1 c2 i, t = Node (PPart p) c1 c2 i /\ is_ok (final_state_r t)) \/
  (e = ValueError /\ exists s0 R s1 s2 s,
     is_three_body_chain t s0 R s1 s2 s /\ ~ distinct_ids [s0; s1; s2; s]).
Proof.
  destruct t as [o|p c1 c2 i]; unfold mk_chain.
  - intros X; inversion X; subst. left; eauto.
  - destruct (final_state_r (Node p c1 c2 i)) as [fs|e'] eqn:F; cbn [bind].
    + destruct p as [p|s0].
      * intros X; inversion X; subst. right; right; right; left. split; auto.
        exists p, c1, c2, i. split; auto. exists fs; reflexivity.
      * destruct (Nat.eqb _ 4) eqn:N; [discriminate|]. intros X; inversion X; subst.
        right; right; right; right. split; auto.
        pose proof F as F'. apply final_state_r_ok in F'.
        destruct F' as (R & d1 & d2 & j & s & s1 & s2 & S & E1 & E2 & ->).
        exists s0, R, s1, s2, s. split.
        { exists d1, d2, i, j. rewrite !child_is_to_particle. split; auto.
          destruct S as [[-> ->]|[-> ->]]; auto. }
        intros D. apply Nat.eqb_neq in N. apply N.
        unfold distinct_ids in D. apply to_set_length_4 in D. rewrite <- D.
        apply to_set_length_perm.
        change [st_index s0; st_index s1; st_index s2; st_index s]
          with (map st_index (s0 :: [s1; s2; s])).
        apply Permutation_map. constructor. symmetry; apply sort_by_index_perm.
    + intros X; inversion X; subst. apply final_state_r_err in F.
      destruct F as [[-> N]|[-> (R & d1 & d2 & j & s & q & S & D)]].
      * right; left. split; auto. exists p, c1, c2, i. auto.
      * right; right; left. split; auto. rewrite <- !child_is_to_particle in D.
        repeat eexists; eauto.
Qed.

(** ** C06: refuted for decay products, true for the initial state. *)
Definition ex_bad_chain : tree :=
  Node (PSt (ex_s "Lc" 1 0))
    (Node (PPart (ex_p "L(1405)" 1)) (Leaf (PPart (ex_p "K" 0))) (Leaf (PSt (ex_s "p" 1 1))) None)
    (Leaf (PSt (ex_s "pi" 0 2))) None.
Lemma C06_refuted_aux :
  exists s0 R o1 s2 s3 e,
    mk_chain (Node (PSt s0) (Node R (Leaf (PPart o1)) (Leaf (PSt s2)) None) (Leaf (PSt s3)) None)
      = Err e /\ e <> TypeError.
Proof.
  exists (ex_s "Lc" 1 0), (PPart (ex_p "L(1405)" 1)), (ex_p "K" 0), (ex_s "p" 1 1),
    (ex_s "pi" 0 2), AttributeError. split; [reflexivity|discriminate].
Qed.
(** Every non-State decay product gives an AttributeError instead. *)
Lemma C06_attr_aux t p c1 c2 i R d1 d2 j s q : t = Node p c1 c2 i ->
  ((c1 = Node R d1 d2 j /\ c2 = Leaf (PSt s)) \/ (c2 = Node R d1 d2 j /\ c1 = Leaf (PSt s))) ->
  (child_is d1 (PPart q) \/ child_is d2 (PPart q)) ->
  mk_chain t = Err AttributeError.
Proof.
  intros -> S D. rewrite !child_is_to_particle in D.
  assert (F : final_state_r (Node p c1 c2 i) = Err AttributeError).
  { destruct S as [[-> ->]|[-> ->]];
      unfold final_state_r, decay_products_r, decay_node_r, spectator_r, children; simpl;
      destruct D as [D|D]; rewrite D; destruct (to_particle d1), (to_particle d2); simpl; auto. }
  unfold mk_chain. rewrite F. reflexivity.
Qed.
Lemma C06_initial_aux p R d1 d2 i j s s1 s2 :
  child_is d1 (PSt s1) -> child_is d2 (PSt s2) ->
  mk_chain (Node (PPart p) (Node R d1 d2 j) (Leaf (PSt s)) i) = Err TypeError /\
  mk_chain (Node (PPart p) (Leaf (PSt s)) (Node R d1 d2 j) i) = Err TypeError.
Proof.
  rewrite !child_is_to_particle. intros E1 E2.
  unfold mk_chain, final_state_r, decay_products_r, decay_node_r, spectator_r, children; simpl.
  rewrite E1, E2. simpl. auto.
Qed.
(** ** C07 *)
(** The final state a [states] dict stands for: its values with non-zero index (the
    last one, if an index occurs more than once). *)
Definition final_state_of (states : dict Z state) (s : state) : Prop :=
  st_index s <> 0 /\ exists l1 l2, map snd states = l1 ++ s :: l2 /\
    forall s', In s' l2 -> st_index s' <> st_index s.

Lemma C07_aux states chains :
  (is_ok (mk_decay states chains) <->
   exists s0, dget 0 states = Some s0 /\
     forall c, In c chains -> ch_parent c = s0 /\
       forall s, (s = ch_spectator c \/ s = fst (ch_decay_products c) \/
                  s = snd (ch_decay_products c)) <-> final_state_of states s) /\
  (forall d, mk_decay states chains = Ok d -> d = Decay states chains) /\
  (forall e, mk_decay states chains = Err e ->
     (e = KeyError /\ dget 0 states = None) \/ (e = ValueError /\ dget 0 states <> None)).
Proof.
  split; [|split].
  - split.
    + intros [d H]. apply mk_decay_ok in H. destruct H as (_ & s0 & E & H).
      exists s0. split; auto. intros c Hc. destruct (H c Hc) as [P Q]. split; auto.
      intros s. unfold final_state_of. fold (last_with_index (map snd states) s).
      change (map snd states) with (dvalues states). rewrite <- Q. simpl.
      intuition congruence.
    + intros (s0 & E & H). exists (Decay states chains). apply mk_decay_ok. split; auto.
      exists s0. split; auto. intros c Hc. destruct (H c Hc) as [P Q]. split; auto.
      intros s. unfold last_with_index. fold (final_state_of states s).
      change (dvalues states) with (map snd states).
      fold (final_state_of states s). rewrite <- Q. simpl. intuition congruence.
  - intros d H. apply mk_decay_ok in H. tauto.
  - apply mk_decay_err.
Qed.

Lemma C07_lookup_aux d c s : valid_decay d -> In c (d_chains d) ->
  (s = ch_spectator c \/ s = fst (ch_decay_products c) \/ s = snd (ch_decay_products c)) ->
  dgetitem (st_index s) (final_states d) = Ok s.
Proof.
  intros V Hc Hs. apply dgetitem_ok. apply (valid_decay_lookup d c); auto. simpl. intuition.
Qed.
Definition ex_chain2 : tree :=
  Node (PSt (ex_s "Lc" 1 0))
    (Leaf (PSt (ex_s "K" 0 3)))
    (Node (PPart (ex_p "D(1232)" 3)) (Leaf (PSt (ex_s "p" 1 1))) (Leaf (PSt (ex_s "pi" 0 2)))
       (Some (LS 1 1)))
    (Some (LS 1 3)).
Definition ex_states : dict Z state :=
  [(0, ex_s "Lc" 1 0); (1, ex_s "p" 1 1); (2, ex_s "pi" 0 2); (3, ex_s "K" 0 3)].
Definition ex_decay : decay := Decay ex_states [ex_chain; ex_chain2].
(** ** C08 *)
Lemma C08_aux d : valid_decay d ->
  (forall k, exists sub, fst (get_subsystem d k) = Ok sub /\
     valid_decay sub /\ d_states sub = d_states d /\
     d_chains sub = filter (fun c => st_index (ch_spectator c) =? k) (d_chains d) /\
     fst (get_subsystem sub k) = Ok sub /\
     (snd (get_subsystem d k) = true <->
        forall c, In c (d_chains d) -> st_index (ch_spectator c) <> k)) /\
  (forall ids, NoDup ids ->
     (forall c, In c (d_chains d) -> In (st_index (ch_spectator c)) ids) ->
     Permutation (d_chains d)
       (flat_map (fun k => match fst (get_subsystem d k) with
                           | Ok sub => d_chains sub | Err _ => [] end) ids)).
Proof.
  intros V. split.
  - intros k. eexists; split; [apply get_subsystem_ok; auto|].
    destruct (valid_decay_filter d (fun c => st_index (ch_spectator c) =? k) V) as [V' _].
    split; auto. simpl d_states. simpl d_chains. split; auto. split; auto. split.
    + rewrite get_subsystem_ok by auto. cbn [d_states d_chains]. do 2 f_equal. clear V V'.
      induction (d_chains d) as [|c cs IH]; simpl; auto.
      destruct (st_index (ch_spectator c) =? k) eqn:E; simpl; rewrite ?E, ?IH; auto.
    + simpl. destruct (filter _ _) as [|c cs] eqn:F; split; auto; try discriminate.
      * intros _ c Hc E. assert (X : In c []); [|destruct X].
        rewrite <- F. apply filter_In. split; auto. apply Z.eqb_eq; auto.
      * intros H. exfalso. assert (X : In c (c :: cs)) by (left; auto).
        rewrite <- F in X. apply filter_In in X. destruct X as [X1 X2].
        apply Z.eqb_eq in X2. apply (H c X1 X2).
  - intros ids ND H.
    rewrite (filter_partition (fun c => st_index (ch_spectator c)) (d_chains d) ids ND H).
    clear H ND. induction ids as [|k ids IH]; cbn [flat_map]; auto.
    pose proof (get_subsystem_ok d k V) as E. rewrite E. cbn [d_chains].
    apply Permutation_app; auto.
Qed.

Lemma C08_ids_aux d : NoDup (get_subsystem_ids d) /\
  forall k, In k (get_subsystem_ids d) <->
    exists c, In c (d_chains d) /\ st_index (ch_spectator c) = k.
Proof. split; [apply to_set_NoDup|]. intros k. apply get_subsystem_ids_In. Qed.
(** ** C09 *)
Lemma C09_aux d name :
  (forall c, find_chain d name = Ok c <->
     exists l1 l2, d_chains d = l1 ++ c :: l2 /\ p_name (ch_resonance c) = name /\
       forall c', In c' l1 -> p_name (ch_resonance c') <> name) /\
  (forall e, find_chain d name = Err e <->
     e = KeyError /\ forall c, In c (d_chains d) -> p_name (ch_resonance c) <> name).
Proof.
  unfold find_chain. split.
  - intros c. destruct (find_first _ _) as [c'|] eqn:F.
    + apply find_first_Some in F. destruct F as (l1 & l2 & E & P & N).
      rewrite eqb_eq in P. split.
      * intros X; inversion X; subst. exists l1, l2. split; auto. split; auto.
        intros c' Hc'. apply eqb_neq. apply N; auto.
      * intros (l1' & l2' & E' & P' & N'). f_equal.
        assert (F' : find_first (fun c => eqb (p_name (ch_resonance c)) name) (d_chains d) = Some c).
        { apply find_first_Some. exists l1', l2'. split; auto. split; [apply eqb_eq; auto|].
          intros x Hx. apply eqb_neq. auto. }
        assert (F : find_first (fun c => eqb (p_name (ch_resonance c)) name) (d_chains d) = Some c').
        { apply find_first_Some. exists l1, l2. split; auto. split; [apply eqb_eq; auto|auto]. }
        congruence.
    + split; [discriminate|]. intros (l1 & l2 & E & P & _).
      rewrite find_first_None in F. assert (X : In c (d_chains d)).
      { rewrite E. apply in_or_app; right; left; auto. }
      apply F in X. apply eqb_neq in X. contradiction.
  - intros e. destruct (find_first _ _) as [c'|] eqn:F.
    + apply find_first_Some in F. destruct F as (l1 & l2 & E & P & N). split; [discriminate|].
      intros [_ H]. exfalso. apply (H c'); [|apply eqb_eq; auto].
      rewrite E. apply in_or_app; right; left; auto.
    + rewrite find_first_None in F. split.
      * intros X; inversion X. split; auto. intros c Hc. apply eqb_neq. auto.
      * intros [-> _]. reflexivity.
Qed.
(** ** C10 *)
(** [(k, i, j)] is a cyclic permutation of [(1, 2, 3)]. *)
Definition cyclic (k i j : Z) : Prop :=
  (k, i, j) = (1, 2, 3) \/ (k, i, j) = (2, 3, 1) \/ (k, i, j) = (3, 1, 2).
Lemma C10_aux k :
  (forall i j, get_decay_product_ids k = Ok (i, j) <-> cyclic k i j) /\
  (forall e, get_decay_product_ids k = Err e <-> e = ValueError /\ ~ (1 <= k <= 3)).
Proof.
  unfold get_decay_product_ids, cyclic.
  destruct (Z.eqb_spec k 1); [subst; split; intros; split; intuition (try congruence; lia)|].
  destruct (Z.eqb_spec k 2); [subst; split; intros; split; intuition (try congruence; lia)|].
  destruct (Z.eqb_spec k 3); [subst; split; intros; split; intuition (try congruence; lia)|].
  split; intros; split; intuition (try congruence; lia).
Qed.
