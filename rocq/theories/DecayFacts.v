(** Proofs about [Decay.v]. *)
From Coq Require Import String ZArith QArith Qcanon List Bool Lia Sorted Permutation.
From Verif Require Import Prelude Spin SpinFacts Decay.
Import ListNotations.
Local Open Scope Z_scope.

(** ** Order laws *)
Global Instance CmpLaws_particle : CmpLaws particle.
Proof.
  apply (cmp_via_laws particle_tuple). intros [] []; unfold particle_tuple; simpl.
  intros E; inversion E; reflexivity.
Qed.
Definition state_tuple (s : state) := (st_particle s, st_index s).
Global Instance CmpLaws_state : CmpLaws state.
Proof.
  change (@CmpLaws state (cmp_via state_tuple)).
  apply (cmp_via_laws state_tuple). intros [] [] E; inversion E; reflexivity.
Qed.
Definition pobj_sum (o : pobj) : particle + state :=
  match o with PPart p => inl p | PSt s => inr s end.
Global Instance CmpLaws_pobj : CmpLaws pobj.
Proof.
  assert (X : @CmpLaws pobj (cmp_via pobj_sum)).
  { apply (cmp_via_laws pobj_sum). intros [] [] E; inversion E; reflexivity. }
  destruct X as [X1 X2 X3].
  assert (E : forall a b : pobj, @cmp _ (cmp_via pobj_sum) a b = cmp a b)
    by (intros [] []; reflexivity).
  split; intros.
  - rewrite <- E. apply X1.
  - rewrite <- E in *. apply X2; auto.
  - rewrite <- E in *. eapply X3; eauto.
Qed.
Global Instance CmpLaws_ls : CmpLaws ls_coupling.
Proof.
  apply cmp_via_laws. intros [] [] E; inversion E; reflexivity.
Qed.

Lemma cmp_then_eq c k : cmp_then c k = Ok Eq <-> c = Ok Eq /\ k = Ok Eq.
Proof. destruct c as [[]|]; simpl; intuition congruence. Qed.
Lemma cmp_then_lt c k :
  cmp_then c k = Ok Lt <-> c = Ok Lt \/ (c = Ok Eq /\ k = Ok Lt).
Proof. destruct c as [[]|]; simpl; intuition congruence. Qed.

Lemma cmp_tree_eq a : forall b, cmp_tree a b = Ok Eq <-> a = b.
Proof.
  induction a as [o|p c1 IH1 c2 IH2 i]; intros [o'|p' c1' c2' i']; simpl;
    try (split; congruence).
  - rewrite cmp_eq. split; congruence.
  - rewrite !cmp_then_eq, !cmp_eq, IH1, IH2. split.
    + intros (-> & -> & -> & ->). reflexivity.
    + intros E; inversion E; auto.
Qed.
Lemma cmp_tree_refl a : cmp_tree a a = Ok Eq.
Proof. apply cmp_tree_eq; reflexivity. Qed.
Lemma cmp_then_sym c c' k k' d :
  (forall x, c = Ok x -> c' = Ok (CompOpp x)) ->
  (forall x, k = Ok x -> k' = Ok (CompOpp x)) ->
  cmp_then c k = Ok d -> cmp_then c' k' = Ok (CompOpp d).
Proof.
  intros H1 H2. destruct c as [x|]; simpl; [|discriminate].
  rewrite (H1 x eq_refl). destruct x; simpl; auto; intros E; inversion E; reflexivity.
Qed.
Lemma cmp_tree_sym a : forall b c, cmp_tree a b = Ok c -> cmp_tree b a = Ok (CompOpp c).
Proof.
  induction a as [o|p c1 IH1 c2 IH2 i]; intros [o'|p' c1' c2' i'] c; simpl; try discriminate.
  - apply cmp_sym.
  - intros E. eapply cmp_then_sym; [| |exact E]; [intros; apply cmp_sym; auto|].
    intros. eapply cmp_then_sym; [| |eassumption]; [auto|].
    intros. eapply cmp_then_sym; [| |eassumption]; [auto|].
    intros; apply cmp_sym; auto.
Qed.
Lemma cmp_tree_trans a : forall b c,
  cmp_tree a b = Ok Lt -> cmp_tree b c = Ok Lt -> cmp_tree a c = Ok Lt.
Proof.
  induction a as [o|p c1 IH1 c2 IH2 i];
    intros [o'|p' c1' c2' i'] [o''|p'' c1'' c2'' i'']; simpl; try discriminate.
  - apply cmp_trans.
  - rewrite !cmp_then_lt, !cmp_eq, !cmp_tree_eq.
    intros [A|[-> [A|[-> [A|[-> A]]]]]] [B|[-> [B|[-> [B|[-> B]]]]]]; subst;
      eauto 10 using cmp_trans.
    all: try (left; eapply cmp_trans; eauto; fail).
    all: right; split; [reflexivity|].
    all: try (left; eapply IH1; eauto; fail); try (left; eauto; fail).
    all: right; split; [reflexivity|].
    all: try (left; eapply IH2; eauto; fail); try (left; eauto; fail).
    all: right; split; [reflexivity|]; eapply cmp_trans; eauto.
Qed.
Global Instance CmpLaws_tree : CmpLaws tree.
Proof.
  split.
  - apply cmp_tree_eq.
  - apply cmp_tree_sym.
  - apply cmp_tree_trans.
Qed.

(** ** Sorting by index *)
Lemma insert_by_index_perm s l : Permutation (s :: l) (insert_by_index s l).
Proof.
  induction l as [|t l IH]; simpl; auto. destruct (_ <=? _); auto.
  rewrite perm_swap. auto.
Qed.
Lemma sort_by_index_fold_perm l : forall acc,
  Permutation (acc ++ l) (fold_left (fun acc s => insert_by_index s acc) l acc).
Proof.
  induction l as [|s l IH]; simpl; intros acc; [rewrite app_nil_r; auto|].
  rewrite <- IH, <- insert_by_index_perm. simpl. symmetry. apply Permutation_middle.
Qed.
Lemma sort_by_index_perm l : Permutation l (sort_by_index l).
Proof. apply (sort_by_index_fold_perm l []). Qed.
Definition index_le (a b : state) : Prop := st_index a <= st_index b.
Lemma insert_by_index_sorted s l :
  StronglySorted index_le l -> StronglySorted index_le (insert_by_index s l).
Proof.
  induction l as [|t l IH]; simpl; intros H; [repeat constructor|].
  inversion H as [|? ? H1 H2]; subst. destruct (Z.leb_spec (st_index t) (st_index s)).
  - constructor; auto. eapply Permutation_Forall; [apply insert_by_index_perm|].
    constructor; auto.
  - constructor; auto. constructor; [unfold index_le; lia|].
    eapply Forall_impl; [|exact H2]. unfold index_le. intros; lia.
Qed.
Lemma sort_by_index_sorted l : StronglySorted index_le (sort_by_index l).
Proof.
  unfold sort_by_index.
  enough (G : forall l acc, StronglySorted index_le acc ->
    StronglySorted index_le (fold_left (fun acc s => insert_by_index s acc) l acc))
    by (apply G; constructor).
  clear l. induction l as [|s l IH]; simpl; intros acc H; auto.
  apply IH, insert_by_index_sorted, H.
Qed.

(** ** Chains *)
(** The shape of an accepted chain. *)
Lemma to_set_length_4 a b c d :
  length (to_set [a; b; c; d]) = 4%nat <-> NoDup [a; b; c; d : Z].
Proof.
  split.
  - intros H. apply (@NoDup_incl_NoDup _ (to_set [a; b; c; d])).
    + apply to_set_NoDup.
    + rewrite H. simpl. lia.
    + intros x. apply to_set_In.
  - intros H. rewrite to_set_id; auto.
Qed.
Lemma to_set_length_perm (l l' : list Z) :
  Permutation l l' -> length (to_set l) = length (to_set l').
Proof.
  intros P. apply Permutation_length. apply NoDup_Permutation; [apply to_set_NoDup|apply to_set_NoDup|].
  intros x. rewrite !to_set_In. split; apply Permutation_in; [exact P|symmetry; exact P].
Qed.

Lemma final_state_r_ok pr c1 c2 i fs :
  final_state_r (Node pr c1 c2 i) = Ok fs <->
  exists R d1 d2 j s s1 s2,
    ((c1 = Node R d1 d2 j /\ c2 = Leaf (PSt s)) \/ (c2 = Node R d1 d2 j /\ c1 = Leaf (PSt s))) /\
    to_particle d1 = PSt s1 /\ to_particle d2 = PSt s2 /\ fs = sort_by_index [s1; s2; s].
Proof.
  unfold final_state_r, decay_products_r, decay_node_r, spectator_r, children.
  split.
  - destruct c1 as [o1|R1 d11 d12 j1], c2 as [o2|R2 d21 d22 j2]; simpl;
      try discriminate; try (destruct o1; simpl; discriminate);
      try (destruct o2; simpl; discriminate).
    + destruct o1 as [p|s]; simpl; try discriminate.
      destruct (to_particle d21) eqn:E1, (to_particle d22) eqn:E2; simpl; try discriminate.
      intros X; inversion X; subst. repeat eexists; eauto.
    + destruct o2 as [p|s]; simpl; try discriminate.
      destruct (to_particle d11) eqn:E1, (to_particle d12) eqn:E2; simpl; try discriminate.
      intros X; inversion X; subst. repeat eexists; eauto.
  - intros (R & d1 & d2 & j & s & s1 & s2 & [[-> ->]|[-> ->]] & E1 & E2 & ->); simpl;
      rewrite E1, E2; reflexivity.
Qed.

(** Exceptions of [final_state]: which one, when. *)
Lemma final_state_r_err pr c1 c2 i e :
  final_state_r (Node pr c1 c2 i) = Err e ->
  (e = ValueError /\ ~ (exists R d1 d2 j s,
     (c1 = Node R d1 d2 j /\ c2 = Leaf (PSt s)) \/ (c2 = Node R d1 d2 j /\ c1 = Leaf (PSt s))))
  \/ (e = AttributeError /\ exists R d1 d2 j s p,
     ((c1 = Node R d1 d2 j /\ c2 = Leaf (PSt s)) \/ (c2 = Node R d1 d2 j /\ c1 = Leaf (PSt s))) /\
     (to_particle d1 = PPart p \/ to_particle d2 = PPart p)).
Proof.
  unfold final_state_r, decay_products_r, decay_node_r, spectator_r, children.
  destruct c1 as [o1|R1 d11 d12 j1], c2 as [o2|R2 d21 d22 j2]; simpl.
  - intros E; inversion E; subst. left. split; auto.
    intros (R & d1 & d2 & j & s & [[A B]|[A B]]); discriminate.
  - destruct o1 as [p|s]; simpl.
    + intros E; inversion E; subst. left. split; auto.
      intros (R & d1 & d2 & j & s & [[A B]|[A B]]); discriminate.
    + destruct (to_particle d21) eqn:E1, (to_particle d22) eqn:E2; simpl; intros E;
        inversion E; subst; right; split; auto; repeat eexists; eauto.
  - destruct o2 as [p|s]; simpl.
    + intros E; inversion E; subst. left. split; auto.
      intros (R & d1 & d2 & j & s & [[A B]|[A B]]); discriminate.
    + destruct (to_particle d11) eqn:E1, (to_particle d12) eqn:E2; simpl; intros E;
        inversion E; subst; right; split; auto; repeat eexists; eauto.
  - intros E; inversion E; subst. left. split; auto.
    intros (R & d1 & d2 & j & s & [[A B]|[A B]]); discriminate.
Qed.

Lemma mk_chain_ok t c :
  mk_chain t = Ok c <-> c = t /\
  exists s0 c1 c2 i R d1 d2 j s s1 s2,
    t = Node (PSt s0) c1 c2 i /\
    ((c1 = Node R d1 d2 j /\ c2 = Leaf (PSt s)) \/ (c2 = Node R d1 d2 j /\ c1 = Leaf (PSt s))) /\
    to_particle d1 = PSt s1 /\ to_particle d2 = PSt s2 /\
    NoDup [st_index s0; st_index s1; st_index s2; st_index s].
Proof.
  split.
  - destruct t as [o|pr c1 c2 i]; unfold mk_chain; [discriminate|].
    destruct (final_state_r (Node pr c1 c2 i)) as [fs|e] eqn:E; cbn [bind]; [|discriminate].
    apply final_state_r_ok in E.
    destruct E as (R & d1 & d2 & j & s & s1 & s2 & S & E1 & E2 & ->).
    destruct pr as [p|s0]; [discriminate|].
    destruct (Nat.eqb _ _) eqn:L; [|discriminate].
    intros X; inversion X; subst. split; auto.
    repeat eexists; eauto.
    rewrite Nat.eqb_eq in L. apply to_set_length_4. rewrite <- L.
    change [st_index s0; st_index s1; st_index s2; st_index s]
      with (map st_index (s0 :: [s1; s2; s])).
    apply to_set_length_perm, Permutation_map. constructor. apply sort_by_index_perm.
  - intros (-> & s0 & c1 & c2 & i & R & d1 & d2 & j & s & s1 & s2 & -> & S & E1 & E2 & ND).
    assert (F : final_state_r (Node (PSt s0) c1 c2 i) = Ok (sort_by_index [s1; s2; s])).
    { apply final_state_r_ok. repeat eexists; eauto. }
    unfold mk_chain. rewrite F. cbn [bind].
    replace (Nat.eqb _ _) with true; auto. symmetry. apply Nat.eqb_eq.
    apply to_set_length_4 in ND. rewrite <- ND.
    change [st_index s0; st_index s1; st_index s2; st_index s]
      with (map st_index (s0 :: [s1; s2; s])).
    apply to_set_length_perm, Permutation_map. constructor. symmetry. apply sort_by_index_perm.
Qed.

Lemma valid_chain_shape t : valid_chain t -> exists s0 c1 c2 i R d1 d2 j s s1 s2,
    t = Node (PSt s0) c1 c2 i /\
    ((c1 = Node R d1 d2 j /\ c2 = Leaf (PSt s)) \/ (c2 = Node R d1 d2 j /\ c1 = Leaf (PSt s))) /\
    to_particle d1 = PSt s1 /\ to_particle d2 = PSt s2 /\
    NoDup [st_index s0; st_index s1; st_index s2; st_index s].
Proof. intros H. apply mk_chain_ok in H. tauto. Qed.

Lemma valid_chain_accessors t : valid_chain t ->
  exists s0 n s s1 s2,
    to_particle t = PSt s0 /\ ch_parent t = s0 /\
    decay_node_r t = Ok n /\ ch_decay_node t = n /\
    spectator_r t = Ok s /\ ch_spectator t = s /\
    decay_products_r t = Ok (PSt s1, PSt s2) /\ ch_decay_products t = (s1, s2) /\
    final_state_r t = Ok (sort_by_index [s1; s2; s]) /\
    ch_final_state t = sort_by_index [s1; s2; s] /\
    NoDup [st_index s0; st_index s1; st_index s2; st_index s].
Proof.
  intros H. apply valid_chain_shape in H.
  destruct H as (s0 & c1 & c2 & i & R & d1 & d2 & j & s & s1 & s2 & -> & S & E1 & E2 & ND).
  exists s0, (Node R d1 d2 j), s, s1, s2.
  assert (F : final_state_r (Node (PSt s0) c1 c2 i) = Ok (sort_by_index [s1; s2; s])).
  { apply final_state_r_ok. repeat eexists; eauto. }
  unfold ch_final_state, ch_decay_products, ch_spectator, ch_decay_node, ch_parent.
  rewrite F.
  destruct S as [[-> ->]|[-> ->]];
    unfold decay_products_r, decay_node_r, spectator_r, children; simpl; rewrite E1, E2; simpl;
    repeat split; auto.
Qed.

(** ** Decays *)
Lemma check_chains_ok s0 ex cs :
  check_chains s0 ex cs = Ok tt <->
  forall c, In c cs -> ch_parent c = s0 /\
    forall s, In s [ch_spectator c; fst (ch_decay_products c); snd (ch_decay_products c)] <-> In s ex.
Proof.
  induction cs as [|c cs IH]; [simpl; split; [tauto|auto]|].
  cbn [check_chains].
  destruct (ch_decay_products c) as [a b] eqn:D.
  destruct (eq_dec (ch_parent c) s0) as [E|N].
  - destruct (set_eqb [ch_spectator c; a; b] ex) eqn:Q.
    + rewrite IH. rewrite set_eqb_spec in Q. split.
      * intros H c' [<-|Hc]; [|auto]. split; auto. rewrite D. exact Q.
      * intros H c' Hc. apply H. right; auto.
    + split; [discriminate|]. intros H.
      destruct (H c (or_introl eq_refl)) as [_ X]. rewrite D in X. simpl fst in X. simpl snd in X.
      apply set_eqb_spec in X. congruence.
  - split; [discriminate|]. intros H. destruct (H c (or_introl eq_refl)). contradiction.
Qed.
Lemma check_chains_err s0 ex cs e : check_chains s0 ex cs = Err e -> e = ValueError.
Proof.
  induction cs as [|c cs IH]; simpl; [discriminate|].
  destruct (eq_dec _ _); [|congruence]. destruct (ch_decay_products c).
  destruct (set_eqb _ _); [auto|congruence].
Qed.

(** [s] is the last value with its index and has a non-zero index. *)
Definition last_with_index (vals : list state) (s : state) : Prop :=
  st_index s <> 0 /\ exists l1 l2, vals = l1 ++ s :: l2 /\
    forall s', In s' l2 -> st_index s' <> st_index s.

Lemma dupdate_index_values l : forall d s,
  (forall k v, In (k, v) d -> st_index v = k) -> NoDup (dkeys d) ->
  (In s (dvalues (dupdate d (map (fun s => (st_index s, s)) l))) <->
   (exists l1 l2, l = l1 ++ s :: l2 /\ forall s', In s' l2 -> st_index s' <> st_index s) \/
   (In s (dvalues d) /\ forall s', In s' l -> st_index s' <> st_index s)).
Proof.
  induction l as [|a l IH]; intros d s Hd Hnd.
  - simpl. split.
    + intros H. right. split; auto.
    + intros [(l1 & l2 & E & _)|[H _]]; auto. destruct l1; discriminate.
  - simpl. rewrite IH.
    + assert (V : In s (dvalues (dset (st_index a) a d)) <->
                  s = a \/ (In s (dvalues d) /\ st_index s <> st_index a)).
      { clear IH. induction d as [|[k v] d IHd]; simpl.
        - intuition.
        - inversion Hnd; subst.
          assert (Hk : st_index v = k) by (apply Hd; left; auto).
          assert (Hd' : forall k v, In (k, v) d -> st_index v = k) by (intros; apply Hd; right; auto).
          destruct (eq_dec (st_index a) k) as [E|N]; simpl.
          + split.
            * intros [<-|H]; auto. right. split; auto. intros E2.
              apply H1. rewrite <- E, <- E2. unfold dvalues in H. apply in_map_iff in H.
              destruct H as ([k' v'] & E3 & H). simpl in E3; subst v'.
              rewrite (Hd' _ _ H). change k' with (fst (k', s)). apply in_map; auto.
            * intros [->|[[<-|H] N]]; auto. congruence.
          + fold (dvalues (dset (st_index a) a d)). rewrite IHd; auto. fold (dvalues d).
            split.
            * intros [<-|[->|[H N2]]]; auto. right. split; auto. congruence.
            * intros [->|[[<-|H] N2]]; auto. }
      rewrite V. split.
      * intros [(l1 & l2 & -> & H)|[[->|[H N]] H2]].
        -- left. exists (a :: l1), l2. auto.
        -- left. exists [], l. auto.
        -- right. split; auto. intros s' [<-|Hs]; auto.
      * intros [(l1 & l2 & E & H)|[H N]].
        -- destruct l1 as [|b l1]; simpl in E; inversion E; subst.
           ++ right. split; auto.
           ++ left. eauto.
        -- right. split; [|intros; apply N; right; auto]. right. split; auto.
           intros E. apply (N a); auto.
    + intros k v Hin. clear IH.
      induction d as [|[k0 v0] d IHd]; simpl in Hin.
      * destruct Hin as [E|[]]. inversion E; auto.
      * destruct (eq_dec (st_index a) k0) as [E|N].
        -- destruct Hin as [E'|Hin]; [inversion E'; congruence|]. apply Hd. right; auto.
        -- destruct Hin as [E'|Hin]; [inversion E'; subst; apply Hd; left; auto|].
           inversion Hnd; subst. apply IHd; auto. intros; apply Hd; right; auto.
    + apply dset_NoDup; auto.
Qed.

Lemma last_filter (p : state -> bool) vals s :
  (forall a b, st_index a = st_index b -> p a = p b) ->
  (exists l1 l2, filter p vals = l1 ++ s :: l2 /\
     forall s', In s' l2 -> st_index s' <> st_index s) <->
  p s = true /\ exists l1 l2, vals = l1 ++ s :: l2 /\
     forall s', In s' l2 -> st_index s' <> st_index s.
Proof.
  intros Hp. induction vals as [|a vals IH]; simpl.
  - split.
    + intros (l1 & l2 & E & _). destruct l1; discriminate.
    + intros (_ & l1 & l2 & E & _). destruct l1; discriminate.
  - assert (Hin : forall vals0 s0, (exists l1 l2, vals0 = l1 ++ s0 :: l2 /\
       forall s' : state, In s' l2 -> st_index s' <> st_index s0) -> In s0 vals0).
    { intros ? ? (l1 & l2 & -> & _). apply in_or_app; right; left; auto. }
    destruct (p a) eqn:Pa.
    + split.
      * intros (l1 & l2 & E & H). destruct l1 as [|b l1]; simpl in E; inversion E; subst.
        -- split; auto. exists [], vals. split; auto. intros s' Hs' Ei.
           apply (H s'); auto. apply filter_In. split; auto. rewrite (Hp _ _ Ei). auto.
        -- destruct IH as [IH _]. destruct IH as (P & l1' & l2' & -> & H'); [eauto|].
           split; auto. exists (b :: l1'), l2'. auto.
      * intros (P & l1 & l2 & E & H). destruct l1 as [|b l1]; simpl in E; inversion E; subst.
        -- exists [], (filter p l2). split; auto. intros s' Hs'. apply filter_In in Hs'.
           apply H; tauto.
        -- destruct IH as [_ IH]. destruct IH as (l1' & l2' & E' & H'); [split; eauto|].
           exists (b :: l1'), l2'. rewrite E'. auto.
    + rewrite IH. split.
      * intros (P & l1 & l2 & -> & H). split; auto. exists (a :: l1), l2. auto.
      * intros (P & l1 & l2 & E & H). split; auto.
        destruct l1 as [|b l1]; simpl in E; inversion E; subst; [congruence|]. eauto.
Qed.

Lemma final_states_values d s :
  In s (dvalues (final_states d)) <-> last_with_index (dvalues (d_states d)) s.
Proof.
  unfold final_states, dict_of. rewrite dupdate_index_values.
  - simpl. rewrite (last_filter (fun s => negb (st_index s =? 0))).
    + unfold last_with_index. rewrite negb_true_iff, Z.eqb_neq.
      split; [intros [H|[[] _]]; auto|auto].
    + intros a b ->. reflexivity.
  - intros k v [].
  - constructor.
Qed.

Lemma mk_decay_ok states chains d :
  mk_decay states chains = Ok d <->
  d = Decay states chains /\ exists s0, dget 0 states = Some s0 /\
    forall c, In c chains -> ch_parent c = s0 /\
      forall s, In s [ch_spectator c; fst (ch_decay_products c); snd (ch_decay_products c)]
                <-> last_with_index (dvalues states) s.
Proof.
  unfold mk_decay, initial_state_r. simpl d_states.
  unfold dgetitem. destruct (dget 0 states) as [s0|] eqn:E0; cbn [bind].
  - destruct (check_chains _ _ _) as [[]|e] eqn:C; cbn [bind].
    + rewrite check_chains_ok in C. split.
      * intros X; inversion X; subst. split; auto. exists s0. split; auto.
        intros c Hc. destruct (C c Hc) as [P Q]. split; auto. intros s. rewrite Q, to_set_In.
        apply (final_states_values (Decay states chains)).
      * intros (-> & _). reflexivity.
    + split; [discriminate|]. intros (-> & s0' & E' & H). inversion E'; subst s0'.
      exfalso. assert (X : check_chains s0 (to_set (dvalues (final_states (Decay states chains)))) chains = Ok tt).
      { apply check_chains_ok. intros c Hc. destruct (H c Hc) as [P Q]. split; auto.
        intros s. rewrite Q, to_set_In. symmetry.
        apply (final_states_values (Decay states chains)). }
      congruence.
  - split; [discriminate|]. intros (_ & s0 & E' & _). discriminate.
Qed.

Lemma mk_decay_err states chains e :
  mk_decay states chains = Err e ->
  (e = KeyError /\ dget 0 states = None) \/ (e = ValueError /\ dget 0 states <> None).
Proof.
  unfold mk_decay, initial_state_r, dgetitem. simpl d_states.
  destruct (dget 0 states) eqn:E; cbn [bind].
  - destruct (check_chains _ _ _) as [[]|e'] eqn:C; cbn [bind]; [discriminate|].
    intros X; inversion X; subst. apply check_chains_err in C. right; split; auto; congruence.
  - intros X; inversion X; subst. auto.
Qed.

(** In an accepted decay every outer state of a chain is found under its index. *)
Lemma last_with_index_dget vals s :
  last_with_index vals s ->
  dget (st_index s) (dict_of (map (fun s => (st_index s, s))
     (filter (fun s => negb (st_index s =? 0)) vals))) = Some s.
Proof.
  intros H. unfold dict_of. rewrite dget_dupdate. simpl.
  destruct H as (N & l1 & l2 & -> & H).
  rewrite filter_app. simpl. replace (negb (st_index s =? 0)) with true
    by (symmetry; rewrite negb_true_iff, Z.eqb_neq; auto).
  rewrite map_app, rev_app_distr. simpl. rewrite <- app_assoc.
  set (f := fun s0 : state => (st_index s0, s0)).
  assert (G : forall l (r : dict Z state), (forall s', In s' l -> st_index s' <> st_index s) ->
     dget (st_index s) (rev (map f l) ++ (st_index s, s) :: r) = Some s).
  { intros l. induction l as [|a l IH] using rev_ind; intros r Hl; simpl.
    - destruct (eq_dec (st_index s) (st_index s)); congruence.
    - rewrite map_app, rev_app_distr. simpl.
      destruct (eq_dec (st_index s) (st_index a)) as [E|_].
      + exfalso. apply (Hl a); auto. apply in_or_app; right; left; auto.
      + apply IH. intros s' Hs'. apply Hl. apply in_or_app; auto. }
  simpl. rewrite G; auto.
  intros s' Hs'. apply filter_In in Hs'. apply H; tauto.
Qed.

Lemma valid_decay_spec d : valid_decay d -> exists s0,
  dget 0 (d_states d) = Some s0 /\
  forall c, In c (d_chains d) ->
    valid_chain c /\ ch_parent c = s0 /\
    (forall s, In s [ch_spectator c; fst (ch_decay_products c); snd (ch_decay_products c)]
               <-> last_with_index (dvalues (d_states d)) s).
Proof.
  intros [V M]. apply mk_decay_ok in M. destruct M as (_ & s0 & E & H).
  exists s0. split; auto. intros c Hc. rewrite Forall_forall in V.
  split; auto.
Qed.

Lemma valid_decay_lookup d c s : valid_decay d -> In c (d_chains d) ->
  In s [ch_spectator c; fst (ch_decay_products c); snd (ch_decay_products c)] ->
  dget (st_index s) (final_states d) = Some s.
Proof.
  intros V Hc Hs. destruct (valid_decay_spec d V) as (s0 & _ & H).
  destruct (H c Hc) as (_ & _ & H2). apply last_with_index_dget. apply H2. auto.
Qed.

Lemma valid_decay_filter d p : valid_decay d ->
  valid_decay (Decay (d_states d) (filter p (d_chains d))) /\
  mk_decay (d_states d) (filter p (d_chains d)) = Ok (Decay (d_states d) (filter p (d_chains d))).
Proof.
  intros V. destruct (valid_decay_spec d V) as (s0 & E & H).
  assert (M : mk_decay (d_states d) (filter p (d_chains d)) = Ok (Decay (d_states d) (filter p (d_chains d)))).
  { apply mk_decay_ok. split; auto. exists s0. split; auto. intros c Hc.
    apply filter_In in Hc. destruct (H c) as (_ & P & Q); [tauto|]. auto. }
  split; auto. split; auto. apply Forall_forall. simpl. intros c Hc. apply filter_In in Hc.
  destruct (H c) as (X & _); tauto.
Qed.

Lemma get_subsystem_ok d k : valid_decay d ->
  fst (get_subsystem d k) =
    Ok (Decay (d_states d) (filter (fun c => st_index (ch_spectator c) =? k) (d_chains d))).
Proof. intros V. simpl. apply valid_decay_filter, V. Qed.

Lemma get_subsystem_ids_In d k :
  In k (get_subsystem_ids d) <-> exists c, In c (d_chains d) /\ st_index (ch_spectator c) = k.
Proof.
  unfold get_subsystem_ids. rewrite to_set_In, in_map_iff. firstorder.
Qed.

Lemma filter_partition {A} (f : A -> Z) (l : list A) : forall ks,
  NoDup ks -> (forall a, In a l -> In (f a) ks) ->
  Permutation l (flat_map (fun k => filter (fun a => f a =? k) l) ks).
Proof.
  induction l as [|a l IH]; intros ks Hnd Hin; simpl.
  - clear. induction ks as [|k ks IHk]; simpl; auto.
  - rewrite (IH ks Hnd) by (intros; apply Hin; right; auto). clear IH.
    assert (Ha : In (f a) ks) by (apply Hin; left; auto). clear Hin.
    apply in_split in Ha. destruct Ha as (k1 & k2 & ->).
    rewrite !flat_map_app. simpl. rewrite Z.eqb_refl. simpl.
    assert (G : forall ks', ~ In (f a) ks' ->
      flat_map (fun k => if f a =? k then a :: filter (fun a0 => f a0 =? k) l
                          else filter (fun a0 => f a0 =? k) l) ks' =
      flat_map (fun k => filter (fun a0 => f a0 =? k) l) ks').
    { induction ks' as [|k ks' IHk]; simpl; auto. intros N.
      destruct (Z.eqb_spec (f a) k); [subst; tauto|]. f_equal. apply IHk. tauto. }
    apply NoDup_remove_2 in Hnd. rewrite in_app_iff in Hnd.
    rewrite !G by tauto. apply Permutation_middle.
Qed.
