(** Three-body transitions, and proofs about [permute_equal_final_states] (C42). *)
From Coq Require Import String ZArith QArith Qcanon List Bool Lia Sorted Permutation.
From Verif Require Import Prelude Spin SpinFacts Decay DecayFacts Qrules SpecQrules QrulesFacts.
Import ListNotations.
Local Open Scope string_scope.
Local Open Scope Z_scope.
Local Open Scope list_scope.

(** ** The isobar graph *)
Lemma zsort1 a : zsort [a] = [a].
Proof. reflexivity. Qed.
Lemma zsort2 a b : a < b -> zsort [a; b] = [a; b].
Proof. intros L. apply zsort_id. repeat constructor. auto. Qed.

Section Graph.
  Context (g : topology) (p k i j r : Z) (G : isobar_graph g p k i j r).
  Lemma isobar_NoDup : NoDup (dkeys (t_edges g)).
  Proof.
    destruct G as (_ & _ & ND & P). apply (Permutation_map fst) in P. cbn in P.
    eapply Permutation_NoDup; [symmetry; exact P|].
    eapply Permutation_NoDup; [|exact ND]. constructor. constructor.
    eapply perm_trans; [|apply perm_swap]. constructor. apply perm_swap.
  Qed.
  Ltac ids := destruct G as (_ & L & ND & P); unfold incoming_edge_ids, outgoing_edge_ids,
    intermediate_edge_ids, outgoing_from, ingoing_to; rewrite (ids_where_perm _ _ _ P);
    cbn -[zsort]; try reflexivity.
  Lemma isobar_incoming : incoming_edge_ids g = [p].
  Proof. ids. Qed.
  Lemma isobar_outgoing : outgoing_edge_ids g = zsort [k; i; j].
  Proof. ids. Qed.
  Lemma isobar_intermediate : intermediate_edge_ids g = [r].
  Proof. ids. Qed.
  Lemma isobar_from0 : outgoing_from 0 g = zsort [k; r].
  Proof. ids. Qed.
  Lemma isobar_from1 : outgoing_from 1 g = [i; j].
  Proof. ids. apply zsort2. auto. Qed.
  Lemma isobar_to1 : ingoing_to 1 g = [r].
  Proof. ids. Qed.
  Lemma isobar_edge x e : dget x (t_edges g) = Some e <->
    In (x, e) [(p, Edge None (Some 0)); (k, Edge (Some 0) None); (r, Edge (Some 0) (Some 1));
     (i, Edge (Some 1) None); (j, Edge (Some 1) None)].
  Proof.
    pose proof isobar_NoDup as ND. destruct G as (_ & _ & _ & P). split.
    - intros X. apply dget_Some_In in X. eapply Permutation_in; eauto.
    - intros X. apply In_dget; auto. eapply Permutation_in; [symmetry|]; eauto.
  Qed.
  Lemma isobar_length : length (t_edges g) = 5%nat.
  Proof. destruct G as (_ & _ & _ & P). rewrite (Permutation_length P). reflexivity. Qed.
  Lemma isobar_products : decay_product_ids g r = Ok [i; j].
  Proof.
    unfold decay_product_ids. unfold dgetitem.
    rewrite (proj2 (isobar_edge r (Edge (Some 0) (Some 1)))) by (cbn; auto).
    cbn [bind e_end]. unfold originating_final_state_edge_ids. rewrite isobar_length, isobar_from1.
    cbn [final_below]. rewrite isobar_outgoing.
    assert (Mi : memb i (zsort [k; i; j]) = true) by (apply memb_In, zsort_In; cbn; auto).
    assert (Mj : memb j (zsort [k; i; j]) = true) by (apply memb_In, zsort_In; cbn; auto).
    cbn [filter]. rewrite Mi, Mj. cbn [negb filter mapM bind concat to_set to_set_acc final_below app].
    rewrite zsort2; auto. destruct G; tauto.
  Qed.
End Graph.

Lemma three_body_transition {E N} (t : transition E N) p k i j r :
  three_body t p k i j r -> is_transition t.
Proof.
  intros (G & A & K & _). unfold is_transition. rewrite K.
  split; [|split]; try (apply ascending_NoDup; auto). tauto.
Qed.
Lemma three_body_ids {E N} (t : transition E N) p k i j r x :
  three_body t p k i j r -> In x (edge_ids t) <-> In x [p; k; i; j; r].
Proof.
  intros ((_ & _ & _ & P) & _). unfold edge_ids. apply (Permutation_map fst) in P. cbn [map fst] in P.
  split; intros X.
  - apply (Permutation_in _ P) in X. cbn in *. tauto.
  - apply (Permutation_in _ (Permutation_sym P)). cbn in *. tauto.
Qed.
Lemma three_body_state {E N} (t : transition E N) p k i j r x :
  three_body t p k i j r -> In x [p; k; i; j; r] -> exists s, state_of t x = Some s.
Proof.
  intros T X. apply (three_body_ids t p k i j r x T) in X. apply In_keys_dget.
  destruct T as (_ & _ & K & _). unfold dkeys. rewrite K. auto.
Qed.
Lemma three_body_coupling {E N} (t : transition E N) p k i j r n :
  three_body t p k i j r -> In n [0; 1] -> exists c, coupling_of t n = Some c.
Proof. intros (_ & _ & _ & K) X. apply In_keys_dget. unfold dkeys. rewrite K. auto. Qed.
Lemma three_body_initial {E N} (t : transition E N) p k i j r : three_body t p k i j r ->
  exists s, state_of t p = Some s /\ initial_states t = Ok [(p, s)].
Proof.
  intros T. destruct (three_body_state t p k i j r p T) as [s S]; [cbn; auto|]. exists s. split; auto.
  unfold initial_states. rewrite (isobar_incoming _ _ _ _ _ _ (proj1 T)). unfold filter_states, dgetitem.
  cbn [mapM]. unfold state_of in S. rewrite S. reflexivity.
Qed.
Lemma three_body_intermediate {E N} (t : transition E N) p k i j r : three_body t p k i j r ->
  exists s, state_of t r = Some s /\ intermediate_states t = Ok [(r, s)].
Proof.
  intros T. destruct (three_body_state t p k i j r r T) as [s S]; [cbn; auto 6|]. exists s. split; auto.
  unfold intermediate_states. rewrite (isobar_intermediate _ _ _ _ _ _ (proj1 T)). unfold filter_states, dgetitem.
  cbn [mapM]. unfold state_of in S. rewrite S. reflexivity.
Qed.
Lemma three_body_final {E N} (t : transition E N) p k i j r : three_body t p k i j r ->
  exists d, tr_final_states t = Ok d /\ map fst d = zsort [k; i; j] /\
    forall x s, In (x, s) d <-> In x [k; i; j] /\ state_of t x = Some s.
Proof.
  intros T. unfold tr_final_states. rewrite (isobar_outgoing _ _ _ _ _ _ (proj1 T)).
  destruct (filter_states_ok (zsort [k; i; j]) t) as (d & E1 & E2 & E3).
  - intros x X. rewrite zsort_In in X. destruct (three_body_state t p k i j r x T) as [s S].
    + cbn in *. tauto.
    + eapply dget_In_keys; eauto.
  - exists d. split; auto. split; auto. intros x s. rewrite E3, zsort_In. reflexivity.
Qed.
Lemma three_body_unique {E N} (t t' : transition E N) p k i j r p' k' i' j' r' :
  three_body t p k i j r -> three_body t' p' k' i' j' r' -> tr_topology t = tr_topology t' ->
  p = p' /\ k = k' /\ i = i' /\ j = j' /\ r = r'.
Proof.
  intros T T' X. pose proof (proj1 T) as G. pose proof (proj1 T') as G'. rewrite <- X in G'.
  pose proof (isobar_incoming _ _ _ _ _ _ G) as A1. rewrite (isobar_incoming _ _ _ _ _ _ G') in A1.
  pose proof (isobar_intermediate _ _ _ _ _ _ G) as A2. rewrite (isobar_intermediate _ _ _ _ _ _ G') in A2.
  pose proof (isobar_from1 _ _ _ _ _ _ G) as A3. rewrite (isobar_from1 _ _ _ _ _ _ G') in A3.
  injection A1 as ->. injection A2 as ->. injection A3 as -> ->.
  repeat split; auto. pose proof (proj2 (isobar_edge _ _ _ _ _ _ G k (Edge (Some 0) None))) as K.
  rewrite (isobar_edge _ _ _ _ _ _ G') in K. cbn in K.
  destruct K as [K|[K|[K|[K|[K|[]]]]]]; auto; congruence.
Qed.
(** The topology is determined by the IDs. *)
Lemma three_body_topology {E N} (t t' : transition E N) p k i j r :
  three_body t p k i j r -> three_body t' p k i j r -> tr_topology t = tr_topology t'.
Proof.
  intros (G & A & _) (G' & A' & _). destruct (tr_topology t) as [n e] eqn:X. destruct (tr_topology t') as [n' e'] eqn:X'.
  unfold edge_ids in A, A'. rewrite X, X' in *. cbn [t_edges] in *.
  f_equal; [destruct G, G'; cbn in *; congruence|].
  pose proof (isobar_NoDup _ _ _ _ _ _ G) as ND. pose proof (isobar_NoDup _ _ _ _ _ _ G') as ND'.
  assert (P : Permutation e e').
  { destruct G as (_ & _ & _ & P), G' as (_ & _ & _ & P'). cbn in P, P'. rewrite P, P'. auto. }
  cbn in ND, ND'. apply dict_ext; auto.
  - apply ascending_unique; auto. intros x. split; apply Permutation_in; [|symmetry]; apply Permutation_map; auto.
  - intros x _. apply dget_perm; auto.
Qed.

(** ** Exchange of edges *)
Lemma exchange_invol i j x : exchange i j (exchange i j x) = x.
Proof.
  unfold exchange. destruct (Z.eqb_spec x i) as [->|Ni]; [|destruct (Z.eqb_spec x j) as [->|Nj]].
  - destruct (Z.eqb_spec j i); [congruence|]. rewrite Z.eqb_refl. auto.
  - rewrite Z.eqb_refl. auto.
  - destruct (Z.eqb_spec x i); [congruence|]. destruct (Z.eqb_spec x j); congruence.
Qed.
Lemma exchange_inj i j x y : exchange i j x = exchange i j y -> x = y.
Proof. intros X. rewrite <- (exchange_invol i j x), X. apply exchange_invol. Qed.
Lemma exchange_NoDup i j l : NoDup l -> NoDup (map (exchange i j) l).
Proof.
  induction 1 as [|a l NI ND IH]; cbn; constructor; auto. intros X. apply in_map_iff in X.
  destruct X as (y & X & Y). apply exchange_inj in X. subst. auto.
Qed.
Lemma exchange_In i j l x : In i l -> In j l -> (In x (map (exchange i j) l) <-> In x l).
Proof.
  intros I J. assert (G : forall y, In y l -> In (exchange i j y) l).
  { intros y Y. unfold exchange. destruct (y =? i); auto. destruct (y =? j); auto. }
  rewrite in_map_iff. split.
  - intros (y & <- & Y). auto.
  - intros X. exists (exchange i j x). split; [apply exchange_invol|auto].
Qed.
Lemma swap_edges_eq i j g : i <> j -> NoDup (dkeys (t_edges g)) ->
  swap_edges i j g =
  Topology (t_nodes g) (canonical (map (fun ke => (exchange i j (fst ke), snd ke)) (t_edges g))).
Proof.
  intros N ND. unfold swap_edges, relabel_edges. f_equal. f_equal.
  assert (M : map (fun ke : Z * edge =>
     (match dget (fst ke) (dict_of [(i, j); (j, i)]) with Some j0 => j0 | None => fst ke end, snd ke)) (t_edges g)
     = map (fun ke => (exchange i j (fst ke), snd ke)) (t_edges g)).
  { apply map_ext. intros [x e]. cbn [fst snd]. f_equal.
    rewrite dict_of_nodup by (cbn; repeat constructor; cbn; intuition). cbn [dget].
    unfold exchange. destruct (eq_dec x i) as [->|Ni]; [rewrite Z.eqb_refl; auto|].
    destruct (Z.eqb_spec x i); [congruence|].
    destruct (eq_dec x j) as [->|Nj]; [rewrite Z.eqb_refl; auto|].
    destruct (Z.eqb_spec x j); [congruence|]. auto. }
  rewrite M. apply dict_of_nodup. unfold dkeys. rewrite map_map. cbn [fst].
  rewrite <- (map_map fst (exchange i j)). apply exchange_NoDup. auto.
Qed.
Lemma map_exchange_NoDup i j (d : dict Z edge) : NoDup (dkeys d) ->
  NoDup (dkeys (map (fun ke => (exchange i j (fst ke), snd ke)) d)).
Proof.
  intros ND. unfold dkeys. rewrite map_map. cbn [fst].
  rewrite <- (map_map fst (exchange i j)). apply exchange_NoDup. auto.
Qed.
Lemma swap_edges_get i j g x : i <> j -> NoDup (dkeys (t_edges g)) ->
  dget x (t_edges (swap_edges i j g)) = dget (exchange i j x) (t_edges g).
Proof.
  intros N ND. rewrite swap_edges_eq by auto. cbn [t_edges].
  rewrite canonical_get by (apply map_exchange_NoDup; auto).
  rewrite <- (exchange_invol i j x) at 1.
  rewrite (dget_map_inj (exchange i j) (fun e => e)).
  - destruct (dget _ _); auto.
  - intros y _. apply exchange_inj.
Qed.
Lemma swap_edges_keys i j g : i <> j -> ascending (dkeys (t_edges g)) ->
  In i (dkeys (t_edges g)) -> In j (dkeys (t_edges g)) ->
  dkeys (t_edges (swap_edges i j g)) = dkeys (t_edges g).
Proof.
  intros N A I J. pose proof (ascending_NoDup _ A) as ND. rewrite swap_edges_eq by auto. cbn [t_edges].
  rewrite canonical_keys. apply ascending_unique; auto.
  - apply zsort_ascending. apply map_exchange_NoDup. auto.
  - intros x. rewrite zsort_In. unfold dkeys. rewrite map_map. cbn [fst].
    rewrite <- (map_map fst (exchange i j)). apply exchange_In; auto.
Qed.

(** ** Comparable edge dictionaries *)
Lemma cmp_items_cons {V} `{CmpLaws V} x (e e' : V) (d d' : dict Z V) :
  is_ok (cmp e e') -> is_ok (cmp d d') -> is_ok (cmp ((x, e) :: d) ((x, e') :: d')).
Proof.
  intros [c Ec] [c' Ec'].
  change (cmp ((x, e) :: d) ((x, e') :: d')) with (cmp_then (cmp (x, e) (x, e')) (cmp d d')).
  change (cmp (x, e) (x, e')) with (cmp_then (cmp x x) (cmp e e')).
  rewrite (cmp_refl x), Ec, Ec'. cbn [cmp_then]. destruct c; cbn [cmp_then]; eexists; reflexivity.
Qed.
Lemma cmp_items_ok {V} `{CmpLaws V} (d : dict Z V) : forall d', NoDup (dkeys d) -> dkeys d = dkeys d' ->
  (forall x e e', dget x d = Some e -> dget x d' = Some e' -> is_ok (cmp e e')) -> is_ok (cmp d d').
Proof.
  induction d as [|[x e] d IH]; intros [|[x' e'] d'] ND K C; try discriminate.
  - eexists; reflexivity.
  - unfold dkeys in K. cbn [map fst] in K. injection K as <- K'. inversion ND as [|? ? ND1 ND2]; subst.
    apply cmp_items_cons.
    + apply (C x); cbn [dget]; destruct (eq_dec x x); congruence.
    + apply IH; auto. intros y a a' Y Y'.
      assert (NE : y <> x) by (intros ->; apply ND1; eapply dget_In_keys; eauto).
      apply (C y); cbn [dget]; destruct (eq_dec y x); auto; contradiction.
Qed.

(** ** Groups of equal particles *)
Section Groups.
  Context {E N : Type} (repr : E -> res string).
  Definition ids_named (l : dict Z E) (n : string) : list Z :=
    map fst (filter (fun ks => match repr (snd ks) with Ok m => eqb m n | Err _ => false end) l).
  Lemma group_ids_ok (l : dict Z E) : (forall i s, In (i, s) l -> is_ok (repr s)) ->
    forall acc, NoDup (dkeys acc) -> exists d, group_ids repr l acc = Ok d /\ NoDup (dkeys d) /\
    forall n, dget n d = match ids_named l n with
                         | [] => dget n acc
                         | ids => Some (match dget n acc with Some g => g | None => [] end ++ ids)
                         end.
  Proof.
    induction l as [|[i s] l IH]; intros R acc NDa; cbn [group_ids].
    - exists acc. repeat split; auto.
    - destruct (R i s (or_introl eq_refl)) as [m Em]. rewrite Em. cbn [bind].
      destruct (IH (fun a b X => R a b (or_intror X))
        (dset m (match dget m acc with Some g => g | None => [] end ++ [i]) acc)) as (d & E1 & E2 & E3).
      { apply dset_NoDup; auto. }
      exists d. split; auto. split; auto. intros n. rewrite E3, dget_dset. unfold ids_named. cbn [filter snd].
      rewrite Em. destruct (eq_dec n m) as [->|X].
      + rewrite eqb_refl. cbn [map fst]. destruct (map fst _) as [|a b]; [reflexivity|].
        rewrite <- app_assoc. reflexivity.
      + destruct (eqb_spec m n); [congruence|]. reflexivity.
  Qed.

  (** The characterisation used below: the first group of at least two final states. *)
  Lemma equal_ids_spec (t : transition E N) fin : tr_final_states t = Ok fin -> NoDup (map fst fin) ->
    (forall i s, In (i, s) fin -> is_ok (repr s)) ->
    exists ids, equal_final_state_ids repr t = Ok ids /\ ascending ids /\
    match ids with
    | [] => forall i j si sj n, In (i, si) fin -> In (j, sj) fin -> repr si = Ok n -> repr sj = Ok n -> i = j
    | _ => (exists n, forall i, In i ids <-> exists s, In (i, s) fin /\ repr s = Ok n) /\ (2 <= length ids)%nat
    end.
  Proof.
    intros F ND R. unfold equal_final_state_ids. rewrite F. cbn [bind].
    destruct (group_ids_ok fin R [] (NoDup_nil _)) as (d & E1 & E2 & E3). rewrite E1. cbn [bind].
    assert (IN : forall n i, In i (ids_named fin n) <-> exists s, In (i, s) fin /\ repr s = Ok n).
    { intros n i. unfold ids_named. rewrite in_map_iff. split.
      - intros ((a & s) & <- & X). apply filter_In in X. destruct X as [X Y]. exists s. split; auto. cbn [snd] in Y.
        destruct (repr s); [|discriminate]. rewrite eqb_eq in Y. congruence.
      - intros (s & X & Y). exists (i, s). split; auto. apply filter_In. split; auto. cbn [snd]. rewrite Y. apply eqb_refl. }
    assert (NDn : forall n, NoDup (ids_named fin n)).
    { intros n. unfold ids_named. clear -ND. induction fin as [|[a s] l IH]; cbn; [constructor|].
      inversion ND; subst. destruct (repr s) as [m|]; [destruct (eqb m n)|]; cbn; auto.
      constructor; auto. intros X. apply H1. apply in_map_iff in X. destruct X as (y & <- & Y).
      apply filter_In in Y. apply in_map. tauto. }
    assert (V : forall v, In v (dvalues d) <-> exists n, v = ids_named fin n /\ v <> []).
    { intros v. unfold dvalues. rewrite in_map_iff. split.
      - intros ((n & w) & <- & X). cbn [snd]. apply In_dget in X; auto. rewrite E3 in X. exists n.
        destruct (ids_named fin n) as [|a b]; [discriminate|]. cbn in X. split; congruence.
      - intros (n & -> & X). exists (n, ids_named fin n). split; auto. apply dget_Some_In. rewrite E3.
        destruct (ids_named fin n); [congruence|]. reflexivity. }
    destruct (filter (fun ids => (1 <? length ids)%nat) (dvalues d)) as [|v vs] eqn:Fl.
    - exists []. split; auto. split; [constructor|]. intros i j si sj n I J Ri Rj.
      destruct (Z.eq_dec i j) as [|Nij]; auto. exfalso.
      assert (Ii : In i (ids_named fin n)) by (apply IN; eauto).
      assert (Ij : In j (ids_named fin n)) by (apply IN; eauto).
      assert (X : In (ids_named fin n) (dvalues d)).
      { apply V. exists n. split; auto. intros X. rewrite X in Ii. destruct Ii. }
      assert (Y : In (ids_named fin n) (filter (fun ids => (1 <? length ids)%nat) (dvalues d))).
      { apply filter_In. split; auto. apply Nat.ltb_lt.
        destruct (ids_named fin n) as [|a [|b c]]; cbn in *; try tauto; try lia. }
      rewrite Fl in Y. destruct Y.
    - assert (Hv : In v (v :: vs)) by (left; auto). rewrite <- Fl in Hv. apply filter_In in Hv.
      destruct Hv as [Hv L]. apply Nat.ltb_lt in L. apply V in Hv. destruct Hv as (n & -> & _).
      exists (zsort (to_set (ids_named fin n))). split; auto. rewrite to_set_id by auto.
      split; [apply zsort_ascending; auto|].
      pose proof (zsort_length (ids_named fin n)) as ZL.
      pose proof (zsort_In (ids_named fin n)) as ZI.
      destruct (zsort (ids_named fin n)) as [|a b]; [cbn in ZL; lia|]. split; [|lia].
      exists n. intros i. rewrite ZI. apply IN.
  Qed.
End Groups.

Lemma pairs_of_In l a b : ascending l -> (In (a, b) (pairs_of l) <-> In a l /\ In b l /\ a < b).
Proof.
  induction 1 as [|x l S IH F]; cbn [pairs_of]; [cbn; tauto|]. rewrite in_app_iff, IH, in_map_iff. cbn [In].
  rewrite Forall_forall in F. split.
  - intros [(y & X & Y)|(X & Y & Z0)]; [injection X as -> ->|]; auto.
  - intros ([->|A] & [->|B] & L); [lia|left; eauto| |right; auto]. specialize (F _ A). lia.
Qed.

Lemma strictly_sorted_NoDup {A} `{CmpLaws A} (l : list A) : StronglySorted clt l -> NoDup l.
Proof.
  induction 1 as [|a l S IH F]; constructor; auto. intros X. rewrite Forall_forall in F.
  apply (clt_irrefl a). auto.
Qed.

(** ** C42 *)
Section C42.
  Context {E N : Type} `{EqDec E} `{EqDec N} `{CmpLaws E} `{CmpLaws N}.
  Context (repr : E -> res string).

  Definition swapped (i j : Z) (t : transition E N) : transition E N :=
    Transition (swap_edges i j (tr_topology t)) (tr_states t) (tr_interactions t).

  Lemma final_ids (t : transition E N) i : NoDup (edge_ids t) ->
    (In i (outgoing_edge_ids (tr_topology t)) <-> is_final t i).
  Proof.
    intros ND. unfold outgoing_edge_ids. rewrite ids_where_In by auto. unfold is_final, edge_of.
    split; intros (e & X & Y); exists e; split; auto; apply is_none_true; auto.
  Qed.

  Lemma finals (t : transition E N) : is_transition t ->
    exists d, tr_final_states t = Ok d /\ NoDup (map fst d) /\
      forall x s, In (x, s) d <-> is_final t x /\ state_of t x = Some s.
  Proof.
    intros (N1 & N2 & K). unfold tr_final_states.
    destruct (filter_states_ok (outgoing_edge_ids (tr_topology t)) t) as (d & E1 & E2 & E3).
    - intros x X. apply final_ids in X; auto. destruct X as (e & X & _). apply K. eapply dget_In_keys; eauto.
    - exists d. split; auto. split.
      + change (NoDup (dkeys d)). rewrite E2. apply ascending_NoDup, ids_where_ascending. auto.
      + intros x s. rewrite E3, final_ids; auto. reflexivity.
  Qed.

  (** All variants have comparable topologies. *)
  Definition final_swap (t u : transition E N) : Prop :=
    tr_states u = tr_states t /\ tr_interactions u = tr_interactions t /\
    t_nodes (tr_topology u) = t_nodes (tr_topology t) /\ edge_ids u = edge_ids t /\
    forall x, edge_of u x = edge_of t x \/ (is_final t x /\ exists y, is_final t y /\ edge_of u x = edge_of t y).
  Lemma final_swap_comparable t u v : NoDup (edge_ids t) -> anchored t ->
    final_swap t u -> final_swap t v -> is_ok (cmp u v).
  Proof.
    intros ND An (S1 & I1 & N1 & K1 & X1) (S2 & I2 & N2 & K2 & X2).
    assert (C : is_ok (cmp (tr_topology u) (tr_topology v))).
    { unfold cmp, Cmp_topology. rewrite N1, N2.
      replace (cmp (t_nodes (tr_topology t)) (t_nodes (tr_topology t))) with (Ok Eq) by (symmetry; apply cmp_refl).
      cbn [cmp_then]. apply cmp_items_ok.
      - change (NoDup (edge_ids u)). rewrite K1. auto.
      - change (edge_ids u = edge_ids v). congruence.
      - intros x e e' Xe Xe'. fold (edge_of u x) in Xe. fold (edge_of v x) in Xe'.
        assert (Fe : forall y f, is_final t y -> edge_of t y = Some f -> exists n, f = Edge (Some n) None).
        { intros y f (f' & Y1 & Y2) Y. rewrite Y in Y1. injection Y1 as <-. destruct f as [[n|] o]; cbn in Y2; subst.
          - eauto.
          - destruct (An y _ Y); cbn in *; congruence. }
        assert (Case : is_final t x \/ (edge_of u x = edge_of t x /\ edge_of v x = edge_of t x)).
        { destruct (X1 x) as [|[]]; auto. destruct (X2 x) as [|[]]; auto. }
        destruct Case as [Fx|[Eu Ev]].
        + assert (exists n, e = Edge (Some n) None) as [n ->].
          { destruct (X1 x) as [Y|(_ & y & Fy & Y)]; rewrite Y in Xe; eapply Fe; [exact Fx|exact Xe|exact Fy|exact Xe]. }
          assert (exists n, e' = Edge (Some n) None) as [n' ->].
          { destruct (X2 x) as [Y|(_ & y & Fy & Y)]; rewrite Y in Xe'; eapply Fe; [exact Fx|exact Xe'|exact Fy|exact Xe']. }
          unfold cmp, Cmp_edge, cmp_via, cmp, Cmp_prod, cmp, Cmp_option, cmp, Cmp_Z. cbn.
          destruct (n ?= n'); eexists; reflexivity.
        + rewrite Eu in Xe. rewrite Ev in Xe'. assert (e = e') by congruence. subst.
          rewrite cmp_refl. eexists; reflexivity. }
    destruct C as [c Ec]. unfold cmp, Cmp_transition. rewrite Ec. destruct c; try (eexists; reflexivity).
    cbn [cmp_then]. rewrite S1, S2, I1, I2, !cmp_refl. eexists; reflexivity.
  Qed.

  Lemma swapped_final t i j : i <> j -> ascending (edge_ids t) -> is_final t i -> is_final t j ->
    final_swap t (swapped i j t) /\ edges_exchanged i j t (swapped i j t).
  Proof.
    intros Nij A Fi Fj. pose proof (ascending_NoDup _ A) as ND.
    assert (X : edges_exchanged i j t (swapped i j t)).
    { intros x. unfold edge_of, swapped. cbn [tr_topology]. apply swap_edges_get; auto. }
    split; auto. repeat split.
    - unfold edge_ids, swapped. cbn [tr_topology]. apply swap_edges_keys; auto.
      + destruct Fi as (e & Y & _). eapply dget_In_keys; eauto.
      + destruct Fj as (e & Y & _). eapply dget_In_keys; eauto.
    - intros x. rewrite (X x). unfold exchange.
      destruct (Z.eqb_spec x i) as [->|]; [right; split; eauto|].
      destruct (Z.eqb_spec x j) as [->|]; [right; split; eauto|]. left; auto.
  Qed.
  Lemma final_swap_refl t : final_swap t t.
  Proof. repeat split; auto. Qed.

  (** The result in terms of the group of equal final states *)
  Lemma permute_spec t : is_transition t -> ascending (edge_ids t) -> anchored t ->
    (forall i s, is_final t i -> state_of t i = Some s -> is_ok (repr s)) ->
    exists l ids, permute_equal_final_states repr t = Ok l /\ StronglySorted clt l /\ ascending ids /\
    (forall u, In u l <-> u = t \/ exists i j, In i ids /\ In j ids /\ i < j /\ u = swapped i j t) /\
    (match ids with
     | [] => forall i j si sj n, is_final t i -> is_final t j -> state_of t i = Some si -> state_of t j = Some sj ->
               repr si = Ok n -> repr sj = Ok n -> i = j
     | _ => (exists n, forall i, In i ids <-> is_final t i /\ exists s, state_of t i = Some s /\ repr s = Ok n) /\
            (2 <= length ids)%nat
     end).
  Proof.
    intros T A An R. destruct (finals t T) as (fin & F1 & F2 & F3).
    destruct (equal_ids_spec repr t fin F1 F2) as (ids & I1 & I2 & I3).
    { intros i s X. apply F3 in X. destruct X. eapply R; eauto. }
    assert (I3' : match ids with
     | [] => forall i j si sj n, is_final t i -> is_final t j -> state_of t i = Some si -> state_of t j = Some sj ->
               repr si = Ok n -> repr sj = Ok n -> i = j
     | _ => (exists n, forall i, In i ids <-> is_final t i /\ exists s, state_of t i = Some s /\ repr s = Ok n) /\
            (2 <= length ids)%nat
     end).
    { destruct ids as [|a ids].
      - intros i j si sj n Fi Fj Si Sj. apply I3; apply F3; auto.
      - destruct I3 as [[n I3] L]. split; auto. exists n. intros i. rewrite I3. split.
        + intros (s & X & Y). apply F3 in X. destruct X. split; eauto.
        + intros (X & s & Y & Z0). exists s. split; auto. apply F3. auto. }
    unfold permute_equal_final_states. rewrite I1. cbn [bind].
    destruct ids as [|a ids].
    - exists [t], []. split; auto. split; [repeat constructor|]. split; auto. split; auto.
      intros u. cbn. split; [intros [<-|[]]; auto|intros [->|(i & j & [] & _)]; auto].
    - remember (a :: ids) as L eqn:EL.
      set (us := to_set (t :: map (fun ij => Transition (swap_edges (fst ij) (snd ij) (tr_topology t))
               (tr_states t) (tr_interactions t)) (pairs_of L))).
      assert (Hus : forall u, In u us <-> u = t \/ exists i j, In i L /\ In j L /\ i < j /\ u = swapped i j t).
      { intros u. unfold us. rewrite to_set_In. cbn [In]. rewrite in_map_iff. split.
        - intros [->|((i & j) & <- & X)]; auto. apply pairs_of_In in X; auto. right. exists i, j. intuition.
        - intros [->|(i & j & X & Y & Z0 & ->)]; auto. right. exists (i, j). split; auto. apply pairs_of_In; auto. }
      assert (Fin : forall i, In i L -> is_final t i).
      { intros i Hi. subst L. destruct I3' as [[n I3'] _]. apply I3'; auto. }
      destruct (sorted_ok us) as [l El].
      { intros u v Hu Hv. apply (final_swap_comparable t); auto.
        - apply ascending_NoDup; auto.
        - apply Hus in Hu. destruct Hu as [->|(i & j & X & Y & Z0 & ->)]; [apply final_swap_refl|].
          apply swapped_final; auto; lia.
        - apply Hus in Hv. destruct Hv as [->|(i & j & X & Y & Z0 & ->)]; [apply final_swap_refl|].
          apply swapped_final; auto; lia. }
      exists l, L. assert (P : Permutation us l) by (apply sorted_perm; auto).
      rewrite EL. rewrite <- EL. split; [exact El|].
      split; [apply sorted_NoDup_strict; [eapply sorted_sorted; eauto|]; eapply Permutation_NoDup; [exact P|apply to_set_NoDup]|].
      split; [auto|]. split.
      + intros u. rewrite <- Hus. split; apply Permutation_in; [symmetry|]; auto.
      + subst L. auto.
  Qed.

  Lemma c42_general t : is_transition t -> ascending (edge_ids t) -> anchored t ->
    (forall i s, is_final t i -> state_of t i = Some s -> is_ok (repr s)) ->
    exists l, permute_equal_final_states repr t = Ok l /\ In t l /\ StronglySorted clt l /\ NoDup l /\
    (forall u, In u l -> tr_states u = tr_states t /\ tr_interactions u = tr_interactions t /\
       t_nodes (tr_topology u) = t_nodes (tr_topology t) /\ edge_ids u = edge_ids t /\
       (u = t \/ exists i j si sj n, is_final t i /\ is_final t j /\ i <> j /\
          state_of t i = Some si /\ state_of t j = Some sj /\ repr si = Ok n /\ repr sj = Ok n /\
          edges_exchanged i j t u)) /\
    ((forall i j si sj n, is_final t i -> is_final t j -> state_of t i = Some si -> state_of t j = Some sj ->
        repr si = Ok n -> repr sj = Ok n -> i = j) -> l = [t]).
  Proof.
    intros T A An R. destruct (permute_spec t T A An R) as (l & ids & E1 & E2 & E3 & E4 & E5).
    assert (ND : NoDup l).
    { eapply strictly_sorted_NoDup; eauto. }
    exists l. split; auto. split; [apply E4; auto|]. split; auto. split; auto. split.
    - intros u U. apply E4 in U. destruct U as [->|(i & j & I & J & L & ->)]; [auto 6|].
      assert (G : exists n, forall i, In i ids <-> is_final t i /\ exists s, state_of t i = Some s /\ repr s = Ok n).
      { destruct ids; [destruct I|]. apply E5. }
      destruct G as [n G]. apply G in I. apply G in J.
      destruct I as (Fi & si & Si & Ri), J as (Fj & sj & Sj & Rj).
      destruct (swapped_final t i j) as [(X1 & X2 & X3 & X4 & _) X5]; auto; [lia|].
      repeat (split; auto). right. exists i, j, si, sj, n. repeat (split; auto). lia.
    - intros U. destruct ids as [|a [|b ids]].
      + assert (Ht : In t l) by (apply E4; auto). destruct l as [|x [|y l]]; [destruct Ht| |].
        * destruct Ht as [->|[]]. auto.
        * exfalso. assert (X : x = t).
          { destruct (proj1 (E4 x)) as [|(i & j & [] & _)]; [left; auto|auto]. }
          assert (Y : y = t).
          { destruct (proj1 (E4 y)) as [|(i & j & [] & _)]; [right; left; auto|auto]. }
          inversion ND as [|? ? NI _]; subst. apply NI. left; auto.
      + destruct E5 as [_ X]. cbn in X. lia.
      + exfalso. destruct E5 as [[n G] _].
        destruct (proj1 (G a)) as (Fa & sa & Sa & Ra); [left; auto|].
        destruct (proj1 (G b)) as (Fb & sb & Sb & Rb); [right; left; auto|].
        specialize (U a b sa sb n Fa Fb Sa Sb Ra Rb). subst. inversion E3 as [|? ? _ FF]; subst. rewrite Forall_forall in FF.
        specialize (FF b (or_introl eq_refl)). lia.
  Qed.

  Lemma c42_reaction r :
    (forall t, In t (rx_transitions r) -> is_transition t /\ ascending (edge_ids t) /\ anchored t /\
       forall i s, is_final t i -> state_of t i = Some s -> is_ok (repr s)) ->
    exists r' ls, permute_reaction repr r = Ok r' /\ rx_formalism r' = rx_formalism r /\ rx_transitions r' = concat ls /\
      Forall2 (fun t l => permute_equal_final_states repr t = Ok l) (rx_transitions r) ls.
  Proof.
    intros Hr. destruct (mapM_is_ok (permute_equal_final_states repr) (rx_transitions r)) as [ls M].
    { intros t Ht. destruct (Hr t Ht) as (T & A & An & Ok_). destruct (c42_general t T A An Ok_) as (l & X & _). exists l. exact X. }
    unfold permute_reaction, permute_all. rewrite M. cbn [bind]. exists (Reaction (concat ls) (rx_formalism r)), ls.
    do 3 (split; [reflexivity|]). exact (mapM_ok_inv _ _ _ M).
  Qed.

  (** Three-body transitions: exchanging final states gives a three-body transition. *)
  Lemma three_body_final_iff (t : transition E N) p k i j r x : three_body t p k i j r -> (is_final t x <-> In x [k; i; j]).
  Proof.
    intros T. pose proof (proj1 T) as G. unfold is_final, edge_of. split.
    - intros (e & X & Y). apply (isobar_edge _ _ _ _ _ _ G) in X. cbn in X.
      destruct X as [X|[X|[X|[X|[X|[]]]]]]; injection X as <- <-; cbn in *; try discriminate; auto.
    - intros X. cbn in X. destruct X as [X|[X|[X|[]]]]; subst x; eexists; (split; [apply (isobar_edge _ _ _ _ _ _ G)|]).
      + right; left; eauto.
      + auto.
      + do 3 right; left; eauto.
      + auto.
      + do 4 right; left; eauto.
      + auto.
  Qed.
  Lemma three_body_anchored (t : transition E N) p k i j r : three_body t p k i j r -> anchored t.
  Proof.
    intros T x e X. unfold edge_of in X. apply (isobar_edge _ _ _ _ _ _ (proj1 T)) in X. cbn in X.
    destruct X as [X|[X|[X|[X|[X|[]]]]]]; injection X as <- <-; cbn; first [left; congruence|right; congruence].
  Qed.
  Lemma swapped_three_body t p k i j r a b : three_body t p k i j r ->
    In a [k; i; j] -> In b [k; i; j] -> a <> b ->
    exists i' j', three_body (swapped a b t) p (exchange a b k) i' j' r.
  Proof.
    intros T Ia Ib Nab. pose proof T as (G & A & K1 & K2). pose proof G as (G1 & G2 & G3 & G4).
    assert (Fa : is_final t a) by (apply (three_body_final_iff t p k i j r); auto).
    assert (Fb : is_final t b) by (apply (three_body_final_iff t p k i j r); auto).
    destruct (swapped_final t a b Nab A Fa Fb) as [(X1 & X2 & X3 & X4 & _) _].
    assert (Pp : exchange a b p = p /\ exchange a b r = r).
    { unfold exchange. assert (~ In p [k; i; j] /\ ~ In r [k; i; j]) as [Np Nr].
      { inversion G3 as [|? ? Y1 Y2]; subst. split.
        - intros Z0. apply Y1. cbn in *. tauto.
        - inversion Y2 as [|? ? Y3 Y4]; subst. inversion Y4 as [|? ? Y5 Y6]; subst.
          inversion Y6 as [|? ? Y7 Y8]; subst. clear -Y3 Y5 Y7. cbn in *. intuition. }
      split.
      - destruct (Z.eqb_spec p a); [subst; tauto|]. destruct (Z.eqb_spec p b); [subst; tauto|auto].
      - destruct (Z.eqb_spec r a); [subst; tauto|]. destruct (Z.eqb_spec r b); [subst; tauto|auto]. }
    destruct Pp as [Pp Pr].
    assert (P : Permutation (t_edges (tr_topology (swapped a b t)))
       [(p, Edge None (Some 0)); (exchange a b k, Edge (Some 0) None); (r, Edge (Some 0) (Some 1));
        (exchange a b i, Edge (Some 1) None); (exchange a b j, Edge (Some 1) None)]).
    { unfold swapped. cbn [tr_topology]. rewrite swap_edges_eq by (auto; apply ascending_NoDup; auto). cbn [t_edges].
      eapply perm_trans; [symmetry; apply canonical_perm; apply map_exchange_NoDup; apply ascending_NoDup; auto|].
      apply (Permutation_map (fun ke => (exchange a b (fst ke), snd ke))) in G4. cbn [map fst snd] in G4.
      rewrite Pp, Pr in G4. exact G4. }
    assert (ND : NoDup [p; exchange a b k; exchange a b i; exchange a b j; r]).
    { rewrite <- Pp at 1. rewrite <- Pr at 1. apply (exchange_NoDup a b _ G3). }
    assert (Rest : ascending (edge_ids (swapped a b t)) /\
       map fst (tr_states (swapped a b t)) = edge_ids (swapped a b t) /\
       map fst (tr_interactions (swapped a b t)) = [0; 1]).
    { rewrite X4, X1, X2. auto. }
    destruct (Z.lt_trichotomy (exchange a b i) (exchange a b j)) as [L|[L|L]].
    - exists (exchange a b i), (exchange a b j). split; auto. split; [congruence|]. auto.
    - apply exchange_inj in L. lia.
    - exists (exchange a b j), (exchange a b i). split; auto. split; [congruence|]. split; auto. split.
      + eapply Permutation_NoDup; [|exact ND]. do 2 constructor. apply perm_swap.
      + eapply perm_trans; [exact P|]. do 3 constructor. apply perm_swap.
  Qed.


  Lemma c42_three_body t p k i j r sk n : three_body t p k i j r ->
    (forall x s, In x [k; i; j] -> state_of t x = Some s -> is_ok (repr s)) ->
    state_of t k = Some sk -> repr sk = Ok n ->
    exists l, permute_equal_final_states repr t = Ok l /\
    (forall u, In u l -> exists k', In k' [k; i; j] /\ spectator_is u k') /\
    (forall k' s', In k' [k; i; j] -> state_of t k' = Some s' ->
       ((exists u, In u l /\ spectator_is u k') <-> repr s' = Ok n)) /\
    (forall u u' k', In u l -> In u' l -> spectator_is u k' -> spectator_is u' k' -> u = u').
  Proof.
    intros T R Sk Rk. pose proof (three_body_final_iff t p k i j r) as Fin.
    destruct (permute_spec t) as (l & ids & E1 & E2 & E3 & E4 & E5).
    { eapply three_body_transition; eauto. }
    { destruct T; tauto. }
    { eapply three_body_anchored; eauto. }
    { intros x s X. apply (Fin x T) in X. apply R; auto. }
    assert (Ids : forall x, In x ids -> In x [k; i; j] /\ exists s, state_of t x = Some s).
    { intros x X. destruct ids as [|a ids]; [destruct X|]. destruct E5 as [[m G] _]. apply G in X.
      destruct X as (X & s & Y & _). split; eauto. apply (Fin x T); auto. }
    assert (Same : forall x y sx sy m, In x ids -> state_of t x = Some sx -> state_of t y = Some sy ->
               repr sx = Ok m -> In y [k; i; j] -> (In y ids <-> repr sy = Ok m)).
    { intros x y sx sy m X Sx Sy Rx Y. destruct ids as [|a ids']; [destruct X|]. remember (a :: ids') as ids.
      destruct E5 as [[m' G] _].
      pose proof (proj1 (G x) X) as (_ & s & S1 & S2). assert (m' = m) by congruence. subst m'.
      rewrite G. split.
      - intros (_ & s' & Z1 & Z2). congruence.
      - intros Z1. split; [apply (Fin y T); auto|eauto]. }
    assert (Shape : forall u, In u l -> exists k' i' j', three_body u p k' i' j' r /\ In k' [k; i; j] /\
              edge_ids u = edge_ids t /\ tr_states u = tr_states t /\ tr_interactions u = tr_interactions t /\
              (k' = k \/ (In k ids /\ In k' ids))).
    { intros u U. apply E4 in U. destruct U as [->|(a & b & Ia & Ib & L & ->)].
      - exists k, i, j. repeat (split; auto). cbn; auto.
      - destruct (Ids a Ia) as [Fa _]. destruct (Ids b Ib) as [Fb _].
        destruct (swapped_three_body t p k i j r a b T Fa Fb) as (i' & j' & T'); [lia|].
        exists (exchange a b k), i', j'. split; auto. split.
        { unfold exchange. destruct (k =? a); auto. destruct (k =? b); auto. cbn; auto. }
        split.
        { destruct (swapped_final t a b) as [(_ & _ & _ & X & _) _]; auto; [lia|destruct T; tauto| |]; apply (Fin _ T); auto. }
        split; auto. split; auto. unfold exchange.
        destruct (Z.eqb_spec k a) as [->|]; [right; auto|]. destruct (Z.eqb_spec k b) as [->|]; [right; auto|left; auto]. }
    exists l. split; auto. split; [|split].
    - intros u U. destruct (Shape u U) as (k' & i' & j' & T' & K' & _). exists k'. split; auto. exists p, i', j', r. auto.
    - intros k' s' K' S'. split.
      + intros (u & U & p1 & i1 & j1 & r1 & T1). destruct (Shape u U) as (k2 & i2 & j2 & T2 & _ & _ & _ & _ & C).
        destruct (three_body_unique u u _ _ _ _ _ _ _ _ _ _ T1 T2 eq_refl) as (_ & -> & _).
        destruct C as [->|[C1 C2]]; [congruence|]. apply (Same k k2 sk s' n); auto.
      + intros R'. destruct (Z.eq_dec k' k) as [->|Nk].
        * exists t. split; [apply E4; auto|]. exists p, i, j, r. auto.
        * assert (Ik : In k ids /\ In k' ids).
          { assert (Hk : In k [k; i; j]) by (cbn; auto).
            destruct ids as [|a ids'].
            - exfalso. apply Nk. apply (E5 k' k s' sk n); auto; apply (Fin _ T); auto.
            - remember (a :: ids') as ids. destruct E5 as [[m G] L2].
              (* a third final state cannot form a group of two *)
              assert (X : exists x y, In x ids /\ In y ids /\ x <> y).
              { destruct ids' as [|b ids']; [subst ids; cbn in L2; lia|]. exists a, b. subst ids.
                split; [left; auto|]. split; [right; left; auto|]. intros ->. inversion E3 as [|? ? _ FF]; subst.
                rewrite Forall_forall in FF. specialize (FF b (or_introl eq_refl)). lia. }
              destruct X as (x & y & X & Y & Nxy).
              assert (Some_in : In k ids \/ In k' ids).
              { destruct (Ids x X) as [Fx _]. destruct (Ids y Y) as [Fy _].
                assert (NDf : NoDup [k; i; j]).
                { destruct T as ((_ & _ & ND & _) & _). inversion ND as [|? ? Q1 Q2]; subst.
                  inversion Q2 as [|? ? Q3 Q4]; subst. inversion Q4 as [|? ? Q5 Q6]; subst.
                  inversion Q6; subst. clear -Q1 Q3 Q5 ND. cbn in *.
                  repeat constructor; cbn; tauto. }
                destruct (in_dec Z.eq_dec k ids) as [|N1]; auto. destruct (in_dec Z.eq_dec k' ids) as [|N2]; auto.
                exfalso. assert (x <> k /\ x <> k' /\ y <> k /\ y <> k') as (D1 & D2 & D3 & D4)
                  by (repeat split; intros ->; auto).
                clear -Fx Fy K' NDf D1 D2 D3 D4 Nk Nxy. cbn in *.
                destruct Fx as [|[|[|[]]]]; destruct Fy as [|[|[|[]]]]; destruct K' as [|[|[|[]]]]; subst; congruence. }
              destruct Some_in as [I1|I1]; split; auto.
              + apply (Same k k' sk s' n); auto.
              + apply (Same k' k s' sk n); auto. }
          destruct Ik as [Ik Ik'].
          assert (U : exists u, In u l /\ exists a b, u = swapped a b t /\ a <> b /\ In a [k; i; j] /\ In b [k; i; j] /\ exchange a b k = k').
          { destruct (Z.lt_trichotomy k k') as [L|[L|L]]; [|congruence|].
            - exists (swapped k k' t). split; [apply E4; right; exists k, k'; auto|].
              exists k, k'. repeat (split; auto). + cbn; auto. + unfold exchange. rewrite Z.eqb_refl. auto.
            - exists (swapped k' k t). split; [apply E4; right; exists k', k; auto|].
              exists k', k. repeat (split; auto). + cbn; auto.
              + unfold exchange. destruct (Z.eqb_spec k k'); [congruence|]. rewrite Z.eqb_refl. auto. }
          destruct U as (u & U & a & b & -> & Nab & Fa & Fb & X). exists (swapped a b t). split; auto.
          destruct (swapped_three_body t p k i j r a b T Fa Fb Nab) as (i' & j' & T'). rewrite X in T'.
          exists p, i', j', r. auto.
    - intros u u' k' U U' (p1 & i1 & j1 & r1 & T1) (p2 & i2 & j2 & r2 & T2).
      destruct (Shape u U) as (k3 & i3 & j3 & T3 & _ & Q1 & Q2 & Q3 & _).
      destruct (Shape u' U') as (k4 & i4 & j4 & T4 & _ & Q4 & Q5 & Q6 & _).
      destruct (three_body_unique u u _ _ _ _ _ _ _ _ _ _ T1 T3 eq_refl) as (-> & <- & -> & -> & ->).
      destruct (three_body_unique u' u' _ _ _ _ _ _ _ _ _ _ T2 T4 eq_refl) as (-> & <- & -> & -> & ->).
      assert (IJ : i3 = i4 /\ j3 = j4).
      { assert (X : forall x, In x [p; k'; i3; j3; r] <-> In x [p; k'; i4; j4; r]).
        { intros x. rewrite <- (three_body_ids u _ _ _ _ _ x T3), <- (three_body_ids u' _ _ _ _ _ x T4). rewrite Q1, Q4. tauto. }
        destruct T3 as ((_ & L3 & ND3 & _) & _). destruct T4 as ((_ & L4 & ND4 & _) & _).
        pose proof (proj1 (X i3)) as Xi. pose proof (proj1 (X j3)) as Xj. cbn in Xi, Xj.
        specialize (Xi ltac:(auto)). specialize (Xj ltac:(auto)). clear -Xi Xj L3 L4 ND3 ND4.
        repeat match goal with H : NoDup (_ :: _) |- _ => inversion H; clear H; subst end. cbn in *.
        destruct Xi as [|[|[|[|[|[]]]]]]; destruct Xj as [|[|[|[|[|[]]]]]]; subst; try (exfalso; tauto); auto; lia. }
      destruct IJ as [-> ->]. pose proof (three_body_topology u u' _ _ _ _ _ T3 T4) as X.
      destruct u, u'. cbn in *. subst. congruence.
  Qed.
End C42.
