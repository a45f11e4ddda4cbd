(** Proofs about [normalize_state_ids] (C41). *)
From Coq Require Import String ZArith QArith Qcanon List Bool Lia Sorted Permutation.
From Verif Require Import Prelude Spin SpinFacts Decay DecayFacts Qrules SpecQrules QrulesFacts.
Import ListNotations.
Local Open Scope string_scope.
Local Open Scope Z_scope.
Local Open Scope list_scope.

Lemma enumerate_gen (l : list Z) : forall k,
  combine (map Z.of_nat (seq k (length l))) l =
  combine (map (fun n => Z.of_nat k + n) (map Z.of_nat (seq 0 (length l)))) l.
Proof.
  intros k. f_equal. rewrite map_map. revert k. induction (length l) as [|n IH]; intros k; [reflexivity|].
  cbn [seq map]. f_equal; [lia|]. rewrite IH. rewrite <- seq_shift, map_map. apply map_ext. intros a. lia.
Qed.
Lemma enumerate_cons {A} (a : A) l : enumerate (a :: l) = (0, a) :: map (fun ni => (1 + fst ni, snd ni)) (enumerate l).
Proof.
  unfold enumerate. cbn [length seq map combine]. f_equal. rewrite <- seq_shift, map_map.
  generalize (seq 0 (length l)). intros s. revert l. induction s as [|x s IH]; intros [|b l]; auto.
  cbn [map combine fst snd]. rewrite Nat2Z.inj_succ. f_equal; [|apply IH]. f_equal. lia.
Qed.
Lemma enumerate_index (l : list Z) : NoDup l -> enumerate l = map (fun x => (index_in x l, x)) l.
Proof.
  induction 1 as [|a l NI ND IH]; [reflexivity|]. rewrite enumerate_cons, IH. cbn [map index_in].
  rewrite Z.eqb_refl. f_equal. rewrite map_map. apply map_ext_in. intros x X. cbn [fst snd].
  destruct (Z.eqb_spec x a) as [->|]; [tauto|]. reflexivity.
Qed.
Lemma enumerate_fst {A} (l : list A) : map fst (enumerate l) = map Z.of_nat (seq 0 (length l)).
Proof.
  unfold enumerate. assert (X : length (map Z.of_nat (seq 0 (length l))) = length l)
    by (rewrite map_length, seq_length; auto).
  revert X. generalize (map Z.of_nat (seq 0 (length l))). intros m. revert l.
  induction m as [|x m IH]; intros [|b l] X; cbn in *; try discriminate; auto. f_equal. apply IH. congruence.
Qed.
Lemma zrange_ascending n : ascending (map Z.of_nat (seq 0 n)).
Proof.
  generalize 0%nat. induction n as [|n IH]; intros k; [constructor|]. cbn [seq map]. constructor; [apply IH|].
  rewrite Forall_forall. intros x X. apply in_map_iff in X. destruct X as (y & <- & Y).
  apply in_seq in Y. lia.
Qed.

Lemma index_inj (l : list Z) x y : In x l -> In y l -> index_in x l = index_in y l -> x = y.
Proof.
  induction l as [|a l IH]; intros X Y E; [destruct X|]. cbn [index_in] in E.
  destruct (Z.eqb_spec x a); destruct (Z.eqb_spec y a); try congruence.
  - destruct Y as [->|Y]; [congruence|]. pose proof (index_in_range _ _ Y). lia.
  - destruct X as [->|X]; [congruence|]. pose proof (index_in_range _ _ X). lia.
  - destruct X as [->|X]; [congruence|]. destruct Y as [->|Y]; [congruence|]. apply IH; auto; lia.
Qed.

(** The renumbered topology and transition in closed form *)
Definition renumber_with (z : list Z) (g : topology) : topology :=
  Topology (t_nodes g) (canonical (map (fun ke => (index_in (fst ke) z, snd ke)) (t_edges g))).
Lemma map_fst_pair {A B C D} (f : A -> C) (g : B -> D) (l : list (A * B)) :
  map fst (map (fun p => (f (fst p), g (snd p))) l) = map f (map fst l).
Proof. rewrite !map_map. reflexivity. Qed.
Lemma NoDup_map_index (l z : list Z) : (forall x, In x l -> In x z) -> NoDup l ->
  NoDup (map (fun x => index_in x z) l).
Proof.
  induction 2 as [|a l NI ND IH]; cbn [map]; constructor.
  - intros X. apply in_map_iff in X. destruct X as (y & E & Y). apply NI.
    rewrite <- (index_inj z y a); auto; apply H; [right|left]; auto.
  - apply IH. intros x X. apply H. right; auto.
Qed.
Lemma normalize_topology_eq g : NoDup (dkeys (t_edges g)) ->
  normalize_topology g = renumber_with (zsort (dkeys (t_edges g))) g.
Proof.
  intros ND. unfold normalize_topology, relabel_edges, renumber_with. f_equal.
  set (z := zsort (dkeys (t_edges g))).
  assert (Hz : forall x, In x (dkeys (t_edges g)) -> In x z) by (intros x; apply zsort_In).
  rewrite enumerate_index by (apply zsort_NoDup; auto). fold z. rewrite map_map. cbn [fst snd].
  assert (M : map (fun ke : Z * edge =>
     (match dget (fst ke) (dict_of (map (fun x => (x, index_in x z)) z)) with
      | Some j => j | None => fst ke end, snd ke)) (t_edges g) =
     map (fun ke => (index_in (fst ke) z, snd ke)) (t_edges g)).
  { apply map_ext_in. intros [k e] X. cbn [fst snd].
    rewrite dict_of_nodup.
    2:{ unfold dkeys. rewrite map_map. cbn [fst]. rewrite map_id. apply zsort_NoDup. auto. }
    assert (K : In k z) by (apply Hz; apply (in_map fst) in X; auto).
    erewrite In_dget; [reflexivity| |].
    - unfold dkeys. rewrite map_map. cbn [fst]. rewrite map_id. apply zsort_NoDup. auto.
    - apply in_map_iff. exists k. auto. }
  rewrite M. f_equal. apply dict_of_nodup. unfold dkeys. rewrite (map_fst_pair (fun k => index_in k z) (fun e => e)).
  apply NoDup_map_index; auto.
Qed.

Lemma keys_perm {E N} (t : transition E N) : is_transition t ->
  Permutation (dkeys (tr_states t)) (dkeys (t_edges (tr_topology t))).
Proof. intros (N1 & N2 & K). apply NoDup_Permutation; auto. Qed.

Lemma normalize_eq {E N} (t : transition E N) : is_transition t ->
  let z := zsort (edge_ids t) in
  exists st, normalize_transition t =
    Ok (Transition (renumber_with z (tr_topology t)) st (tr_interactions t)) /\
  map fst st = map (fun x => index_in x z) z /\
  forall i, In i (edge_ids t) -> dget (index_in i z) st = dget i (tr_states t).
Proof.
  intros T z. pose proof T as (N1 & N2 & K). unfold normalize_transition.
  rewrite (zsort_unique _ _ (keys_perm t T)). change (dkeys (t_edges (tr_topology t))) with (edge_ids t).
  fold z. assert (Hz : forall x, In x z <-> In x (edge_ids t)) by (intros x; apply zsort_In).
  assert (NDz : NoDup z) by (apply zsort_NoDup; auto).
  rewrite enumerate_index by auto.
  assert (G : forall l, (forall x, In x l -> In x (edge_ids t)) ->
     exists st, mapM (fun ni : Z * Z => let* s := dgetitem (snd ni) (tr_states t) in Ok (fst ni, s))
        (map (fun x => (index_in x z, x)) l) = Ok st /\ map fst st = map (fun x => index_in x z) l /\
        forall i s, In i l -> dget i (tr_states t) = Some s -> In (index_in i z, s) st).
  { induction l as [|a l IH]; intros L; [exists []; repeat split; auto; intros i s []|].
    destruct IH as (st & E1 & E2 & E3); [intros; apply L; right; auto|].
    destruct (In_keys_dget (tr_states t) a) as [s Es]; [apply K, L; left; auto|].
    cbn [map mapM fst snd]. unfold dgetitem at 1. rewrite Es. cbn [bind]. rewrite E1. cbn [bind].
    exists ((index_in a z, s) :: st). split; [reflexivity|]. split; [cbn; f_equal; auto|].
    intros i s' [->|I] X; [left; congruence|right; auto]. }
  destruct (G z) as (st & E1 & E2 & E3); [apply Hz|]. rewrite E1. cbn [bind].
  assert (NDs : NoDup (dkeys st)).
  { unfold dkeys. rewrite E2. apply NoDup_map_index; auto. }
  exists st. split; [|split; [exact E2|]].
  - rewrite dict_of_nodup by auto. rewrite normalize_topology_eq by auto. reflexivity.
  - intros i I. destruct (In_keys_dget (tr_states t) i) as [s Es]; [apply K; auto|]. rewrite Es.
    apply In_dget; auto. apply E3; auto. apply Hz; auto.
Qed.

Lemma index_range (z : list Z) : NoDup z ->
  map (fun x => index_in x z) z = map Z.of_nat (seq 0 (length z)).
Proof.
  intros ND. pose proof (enumerate_index z ND) as X. apply (f_equal (map fst)) in X.
  rewrite enumerate_fst, map_map in X. cbn [fst] in X. auto.
Qed.
Lemma renumber_keys z g :
  dkeys (t_edges (renumber_with z g)) = zsort (map (fun x => index_in x z) (dkeys (t_edges g))).
Proof.
  unfold renumber_with. cbn [t_edges]. rewrite canonical_keys. unfold dkeys.
  rewrite (map_fst_pair (fun k => index_in k z) (fun e => e)). reflexivity.
Qed.
Lemma renumber_edge z g i : NoDup (dkeys (t_edges g)) ->
  (forall x, In x (dkeys (t_edges g)) -> In x z) -> In i z ->
  dget (index_in i z) (t_edges (renumber_with z g)) = dget i (t_edges g).
Proof.
  intros ND Hz I. unfold renumber_with. cbn [t_edges].
  rewrite canonical_get.
  2:{ unfold dkeys. rewrite (map_fst_pair (fun k => index_in k z) (fun e => e)). apply NoDup_map_index; auto. }
  rewrite (dget_map_inj (fun k => index_in k z) (fun e => e)).
  - destruct (dget i (t_edges g)); reflexivity.
  - intros x X E. apply (index_inj z); auto.
Qed.
Lemma renumber_ids_where p z g : ascending z -> NoDup (dkeys (t_edges g)) ->
  (forall x, In x (dkeys (t_edges g)) -> In x z) ->
  ids_where p (renumber_with z g) = map (fun i => index_in i z) (ids_where p g).
Proof.
  intros A ND Hz. assert (ND' : NoDup (dkeys (t_edges (renumber_with z g)))).
  { rewrite renumber_keys. apply zsort_NoDup, NoDup_map_index; auto. }
  apply ascending_unique.
  - apply ids_where_ascending; auto.
  - pose proof (ids_where_ascending p g ND) as B.
    assert (I : forall x, In x (ids_where p g) -> In x z).
    { intros x X. apply ids_where_In in X; auto. destruct X as (e & X & _).
      apply Hz. eapply dget_In_keys; eauto. }
    revert B I. generalize (ids_where p g). induction 1 as [|a l S IH F]; intros I; constructor.
    + apply IH. intros x X. apply I. right; auto.
    + rewrite Forall_forall in *. intros y Y. apply in_map_iff in Y. destruct Y as (x & <- & X).
      apply (index_in_mono z A a x); [apply I; left; auto|apply I; right; auto|apply F; auto].
  - intros x. rewrite in_map_iff. rewrite ids_where_In by auto. split.
    + intros (e & X & P). pose proof (dget_In_keys _ _ _ X) as XK. rewrite renumber_keys, zsort_In in XK.
      apply in_map_iff in XK. destruct XK as (i & <- & I). exists i. split; auto.
      apply ids_where_In; auto. exists e. split; auto. rewrite <- X. symmetry. apply renumber_edge; auto.
    + intros (i & <- & I). apply ids_where_In in I; auto. destruct I as (e & I & P).
      exists e. split; auto. rewrite renumber_edge; auto. apply Hz. eapply dget_In_keys; eauto.
Qed.

(** The states selected by role *)

Lemma filter_states_rename {E N} (t t' : transition E N) (f : Z -> Z) ids d :
  (forall i, In i ids -> dget (f i) (tr_states t') = dget i (tr_states t)) ->
  filter_states ids t = Ok d -> filter_states (map f ids) t' = Ok (rename_keys f d).
Proof.
  revert d. induction ids as [|i ids IH]; intros d Hs; cbn.
  - intros X; injection X as <-. reflexivity.
  - unfold dgetitem at 1. destruct (dget i (tr_states t)) as [s|] eqn:Es; cbn [bind]; [|discriminate].
    fold (filter_states ids t). destruct (filter_states ids t) as [d0|] eqn:Ed; cbn [bind]; [|discriminate].
    intros X; injection X as <-. unfold dgetitem at 1. rewrite Hs by (left; auto). rewrite Es. cbn [bind].
    fold (filter_states (map f ids) t'). rewrite (IH d0); auto. intros j J. apply Hs. right; auto.
Qed.

Lemma c41_renumbering {E N} (t : transition E N) : is_transition t ->
  exists t' f, normalize_transition t = Ok t' /\
    renumbering f (edge_ids t) /\
    is_transition t' /\
    (forall x, In x (edge_ids t') <-> exists i, In i (edge_ids t) /\ x = f i) /\
    (forall i, In i (edge_ids t) -> edge_of t' (f i) = edge_of t i /\ state_of t' (f i) = state_of t i) /\
    (forall d, initial_states t = Ok d -> initial_states t' = Ok (rename_keys f d)) /\
    (forall d, tr_final_states t = Ok d -> tr_final_states t' = Ok (rename_keys f d)) /\
    (forall d, intermediate_states t = Ok d -> intermediate_states t' = Ok (rename_keys f d)) /\
    t_nodes (tr_topology t') = t_nodes (tr_topology t) /\
    tr_interactions t' = tr_interactions t.
Proof.
  intros T. destruct (normalize_eq t T) as (st & E1 & E2 & E3). set (z := zsort (edge_ids t)) in *.
  pose proof T as (N1 & N2 & K).
  assert (A : ascending z) by (apply zsort_ascending; auto).
  assert (Hz : forall x, In x (edge_ids t) -> In x z) by (intros x; apply zsort_In).
  assert (EI : map fst (t_edges (renumber_with z (tr_topology t))) = zsort (map (fun x => index_in x z) (edge_ids t))).
  { apply renumber_keys. }
  eexists. exists (fun i => index_in i z). split; [exact E1|]. split; [|split; [|split; [|split; [|split; [|split; [|split]]]]]].
  - apply renumbering_index; auto. apply Permutation_sym, zsort_perm.
  - split; [|split].
    + unfold edge_ids. cbn [tr_topology]. rewrite EI. apply zsort_NoDup, NoDup_map_index; auto.
    + cbn [tr_states]. rewrite E2. apply NoDup_map_index; auto using ascending_NoDup.
    + intros x. unfold edge_ids at 1. cbn [tr_topology tr_states]. rewrite EI, E2, zsort_In, !in_map_iff.
      split; intros (y & Y & Z0); exists y; split; auto. apply zsort_In; auto.
  - intros x. unfold edge_ids at 1. cbn [tr_topology]. rewrite EI, zsort_In, in_map_iff.
    split; intros (y & Y & Z0); exists y; auto.
  - intros i I. split.
    + unfold edge_of. cbn [tr_topology]. apply renumber_edge; auto.
    + unfold state_of. cbn [tr_states]. auto.
  - intros d. unfold initial_states, incoming_edge_ids. cbn [tr_topology].
    rewrite renumber_ids_where by auto. apply filter_states_rename. cbn [tr_states]. intros i I.
    apply E3. apply ids_where_In in I; auto. destruct I as (e & I & _). eapply dget_In_keys; eauto.
  - intros d. unfold tr_final_states, outgoing_edge_ids. cbn [tr_topology].
    rewrite renumber_ids_where by auto. apply filter_states_rename. cbn [tr_states]. intros i I.
    apply E3. apply ids_where_In in I; auto. destruct I as (e & I & _). eapply dget_In_keys; eauto.
  - intros d. unfold intermediate_states, intermediate_edge_ids. cbn [tr_topology].
    rewrite renumber_ids_where by auto. apply filter_states_rename. cbn [tr_states]. intros i I.
    apply E3. apply ids_where_In in I; auto. destruct I as (e & I & _). eapply dget_In_keys; eauto.
  - cbn. auto.
Qed.

Lemma index_in_zrange n k : 0 <= k < Z.of_nat n -> index_in k (map Z.of_nat (seq 0 n)) = k.
Proof.
  assert (G : forall n s k, Z.of_nat s <= k < Z.of_nat s + Z.of_nat n ->
            index_in k (map Z.of_nat (seq s n)) = k - Z.of_nat s).
  { clear. induction n as [|n IH]; intros s k Hk; [lia|]. cbn [seq map index_in].
    destruct (Z.eqb_spec k (Z.of_nat s)); [lia|]. rewrite IH; lia. }
  intros Hk. rewrite G; lia.
Qed.

Lemma normalize_length {E N} (t : transition E N) : is_transition t ->
  forall t', normalize_transition t = Ok t' ->
  map fst (tr_states t') = map Z.of_nat (seq 0 (length (edge_ids t))) /\
  edge_ids t' = map Z.of_nat (seq 0 (length (edge_ids t))).
Proof.
  intros T t' E'. destruct (normalize_eq t T) as (st & E1 & E2 & E3). rewrite E1 in E'. injection E' as <-.
  pose proof T as (N1 & N2 & K). cbn [tr_states]. split.
  - rewrite E2, index_range, zsort_length; auto. apply zsort_NoDup; auto.
  - unfold edge_ids at 1. cbn [tr_topology]. fold (dkeys (t_edges (renumber_with (zsort (edge_ids t)) (tr_topology t)))).
    rewrite renumber_keys.
    rewrite (zsort_unique _ (map (fun x => index_in x (zsort (edge_ids t))) (zsort (edge_ids t)))).
    + rewrite index_range, zsort_length by (apply zsort_NoDup; auto). apply zsort_id, zrange_ascending.
    + apply Permutation_map, zsort_perm.
Qed.

Lemma c41_idempotent {E N} (t t' : transition E N) : is_transition t ->
  normalize_transition t = Ok t' -> normalize_transition t' = Ok t'.
Proof.
  intros T E'. destruct (c41_renumbering t T) as (t1 & f & X & _ & T' & _). rewrite E' in X. injection X as <-.
  destruct (normalize_length t T t' E') as [L1 L2].
  destruct (normalize_eq t' T') as (st & E1 & E2 & E3). rewrite E1. f_equal.
  assert (L3 : zsort (edge_ids t') = edge_ids t') by (rewrite L2; apply zsort_id, zrange_ascending).
  rewrite L3 in *. rewrite L2 in E2, E3 |- *. set (n := length (edge_ids t)) in *.
  assert (R : forall i, In i (edge_ids t') -> index_in i (map Z.of_nat (seq 0 n)) = i).
  { intros i I. apply index_in_zrange. rewrite L2 in I. apply in_map_iff in I.
    destruct I as (k & <- & I). apply in_seq in I. lia. }
  destruct t' as [g s i]. cbn [tr_topology tr_states tr_interactions] in *. f_equal.
  - unfold renumber_with. destruct g as [nd ed]. cbn [t_nodes t_edges] in *. f_equal.
    replace (map _ ed) with ed; [apply canonical_id; change (ascending (edge_ids (Transition (Topology nd ed) s i)));
      rewrite L2; apply zrange_ascending|].
    symmetry. rewrite <- (map_id ed) at 2. apply map_ext_in. intros [k e] I. cbn [fst snd]. rewrite R; auto.
    unfold edge_ids. cbn. apply (in_map fst) in I. auto.
  - destruct T' as (N1 & N2 & K). cbn [tr_states] in *.
    assert (KE : map fst st = map fst s).
    { rewrite E2, L1. rewrite index_range by (apply ascending_NoDup, zrange_ascending).
      rewrite map_length, seq_length. reflexivity. }
    apply dict_ext; auto.
    + unfold dkeys. rewrite KE. auto.
    + intros k I. unfold dkeys in I. rewrite KE in I. apply K in I. assert (I2 := I). rewrite L2 in I2. rewrite <- (E3 k I2), R; auto.
Qed.

Lemma c41_reaction {E N} (r : reaction E N) :
  (forall t, In t (rx_transitions r) -> is_transition t) ->
  exists r', normalize_reaction r = Ok r' /\ rx_formalism r' = rx_formalism r /\
    Forall2 (fun t t' => normalize_transition t = Ok t') (rx_transitions r) (rx_transitions r') /\
    normalize_reaction r' = Ok r'.
Proof.
  destruct r as [ts fm]. cbn [rx_transitions rx_formalism]. intros T.
  assert (G : exists ts', mapM normalize_transition ts = Ok ts').
  { apply mapM_is_ok. intros t I. destruct (c41_renumbering t (T t I)) as (t' & f & X & _). eexists; eauto. }
  destruct G as [ts' E1]. exists (Reaction ts' fm). unfold normalize_reaction, normalize_transitions.
  cbn [rx_transitions rx_formalism]. rewrite E1. cbn [bind]. split; [auto|]. split; [auto|].
  pose proof (mapM_ok_inv _ _ _ E1) as F. split; [auto|].
  assert (E2 : mapM normalize_transition ts' = Ok ts').
  { clear E1. revert T. induction F as [|t t' ts ts' X F IH]; intros T; [reflexivity|]. cbn [mapM].
    rewrite (c41_idempotent t t'); auto; [|apply T; left; auto]. cbn [bind]. rewrite IH; auto.
    intros u U. apply T. right; auto. }
  rewrite E2. reflexivity.
Qed.
