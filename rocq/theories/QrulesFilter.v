(** Proofs about [filter_min_ls] (C43-C45). *)
From Coq Require Import String ZArith QArith Qcanon List Bool Lia Sorted Permutation.
From Verif Require Import Prelude Spin SpinFacts Decay DecayFacts Qrules SpecQrules QrulesFacts QrulesThree.
Import ListNotations.
Local Open Scope string_scope.
Local Open Scope Z_scope.
Local Open Scope list_scope.


Lemma three_body_interactions {E N} (t : transition E N) : is_three_body t ->
  exists c0 c1, tr_interactions t = [(0, c0); (1, c1)] /\ coupling_of t 0 = Some c0 /\ coupling_of t 1 = Some c1.
Proof.
  intros (p & k & i & j & r & _ & _ & _ & K).
  destruct (tr_interactions t) as [|[n0 c0] [|[n1 c1] [|]]] eqn:X; cbn in K; try discriminate.
  injection K as -> ->. exists c0, c1. unfold coupling_of. rewrite X. auto.
Qed.
Lemma coupling_domain {E N} (t : transition E N) n c : is_three_body t -> coupling_of t n = Some c -> n = 0 \/ n = 1.
Proof.
  intros T X. destruct (three_body_interactions t T) as (c0 & c1 & I & _). unfold coupling_of in X.
  rewrite I in X. cbn [dget] in X. destruct (eq_dec n 0); auto. destruct (eq_dec n 1); auto. discriminate.
Qed.

Section Filter.
  Context {E M : Type} `{EqDec E} `{EqDec M} `{CmpLaws M}.
  Local Notation trans := (transition E (option M)).
  Implicit Types (t u : trans) (ts g : list trans).

  (** ** Keys *)
  Definition unfiltered (S : list Z) t : list M :=
    flat_map (fun kn => match snd kn with
              | Some m => if memb (fst kn) S then [] else [m]
              | None => [] end) (tr_interactions t).
  Lemma group_key_ok S t p k i j r s : three_body t p k i j r -> state_of t r = Some s ->
    group_key S t = Ok (s, [i; j], unfiltered S t).
  Proof.
    intros T Sr. destruct (three_body_intermediate t p k i j r T) as (s' & S' & I).
    rewrite Sr in S'. injection S' as <-. unfold group_key. rewrite I. cbn [bind].
    rewrite (isobar_products _ _ _ _ _ _ (proj1 T)). reflexivity.
  Qed.

  (** The key determines the unfiltered couplings, except if both nodes are unfiltered and a
      coupling is missing. *)
  Lemma unfiltered_spec S ts t t' : unambiguous S ts -> In t ts -> In t' ts -> is_three_body t -> is_three_body t' ->
    (unfiltered S t = unfiltered S t' <-> forall n, ~ In n S -> coupling_of t n = coupling_of t' n).
  Proof.
    intros U It It' T T'.
    destruct (three_body_interactions t T) as (c0 & c1 & I & C0 & C1).
    destruct (three_body_interactions t' T') as (d0 & d1 & I' & D0 & D1).
    assert (R : (forall n, ~ In n S -> coupling_of t n = coupling_of t' n) <->
                (~ In 0 S -> c0 = d0) /\ (~ In 1 S -> c1 = d1)).
    { split.
      - intros X. split; intros N; specialize (X _ N); congruence.
      - intros [X0 X1] n N. destruct (Z.eq_dec n 0) as [->|N0]; [rewrite C0, D0, X0; auto|].
        destruct (Z.eq_dec n 1) as [->|N1]; [rewrite C1, D1, X1; auto|].
        unfold coupling_of. rewrite I, I'. cbn [dget]. destruct (eq_dec n 0); [congruence|].
        destruct (eq_dec n 1); [congruence|]. auto. }
    rewrite R. unfold unfiltered. rewrite I, I'. cbn [flat_map fst snd]. rewrite !app_nil_r.
    destruct (memb 0 S) eqn:M0; destruct (memb 1 S) eqn:M1.
    - apply memb_In in M0. apply memb_In in M1. split; [intros _; tauto|].
      intros _. destruct c0, c1, d0, d1; reflexivity.
    - apply memb_In in M0. apply memb_notIn in M1. split.
      + intros X. split; [tauto|]. intros _. destruct c0, c1, d0, d1; cbn in X; congruence.
      + intros [_ X]. specialize (X M1). subst. destruct c0, d0; reflexivity.
    - apply memb_notIn in M0. apply memb_In in M1. split.
      + intros X. split; [|tauto]. intros _. destruct c0, c1, d0, d1; cbn in X; congruence.
      + intros [X _]. specialize (X M0). subst. destruct c1, d1; reflexivity.
    - apply memb_notIn in M0. apply memb_notIn in M1. destruct U as [U|[U|U]]; try tauto.
      pose proof (U t t' 0 c0 d0 It It' C0 D0) as [U1 U2]. pose proof (U t t' 1 c1 d1 It It' C1 D1) as [U3 U4].
      split.
      + destruct c0, c1, d0, d1; cbn; intros X; split; intros _; try congruence;
          try (discriminate U1; auto); try (discriminate U2; auto); try (discriminate U3; auto); try (discriminate U4; auto).
      + intros [X Y]. specialize (X M0). specialize (Y M1). subst. reflexivity.
  Qed.
  Lemma key_same_group S ts t t' : unambiguous S ts -> In t ts -> In t' ts -> is_three_body t -> is_three_body t' ->
    (group_key S t = group_key S t' <-> same_group S t t').
  Proof.
    intros U It It' T T'. pose proof (unfiltered_spec S ts t t' U It It' T T') as X.
    destruct T as (p & k & i & j & r & T), T' as (p' & k' & i' & j' & r' & T').
    destruct (three_body_state t _ _ _ _ _ r T) as [s Sr]; [cbn; auto 6|].
    destruct (three_body_state t' _ _ _ _ _ r' T') as [s' Sr']; [cbn; auto 6|].
    rewrite (group_key_ok S t _ _ _ _ _ _ T Sr), (group_key_ok S t' _ _ _ _ _ _ T' Sr'). split.
    - intros Y. injection Y as -> -> -> Y. exists p, k, i', j', r, p', k', i', j', r'. rewrite <- X. repeat (split; auto). congruence.
    - intros (p1 & k1 & i1 & j1 & r1 & p2 & k2 & i2 & j2 & r2 & T1 & T2 & -> & -> & Y & Z0).
      destruct (three_body_unique t t _ _ _ _ _ _ _ _ _ _ T T1 eq_refl) as (-> & -> & -> & -> & ->).
      destruct (three_body_unique t' t' _ _ _ _ _ _ _ _ _ _ T' T2 eq_refl) as (-> & -> & -> & -> & ->).
      apply X in Z0. rewrite Z0. congruence.
  Qed.

  (** ** Groups *)
  Definition key_eqb S (k : E * list Z * list M) t : bool :=
    match group_key S t with Ok k' => eqb k' k | Err _ => false end.
  Lemma group_transitions_ok S ts : (forall t, In t ts -> is_ok (group_key S t)) ->
    forall acc, NoDup (dkeys acc) -> exists d, group_transitions S ts acc = Ok d /\ NoDup (dkeys d) /\
    forall k, dget k d = match filter (key_eqb S k) ts with
                         | [] => dget k acc
                         | g => Some (match dget k acc with Some g => g | None => [] end ++ g)
                         end.
  Proof.
    induction ts as [|t ts IH]; intros R acc NDa; cbn [group_transitions].
    - exists acc. repeat split; auto.
    - destruct (R t (or_introl eq_refl)) as [m Em]. rewrite Em. cbn [bind].
      destruct (IH (fun a X => R a (or_intror X))
        (dset m (match dget m acc with Some g => g | None => [] end ++ [t]) acc)) as (d & E1 & E2 & E3).
      { apply dset_NoDup; auto. }
      exists d. split; auto. split; auto. intros n. rewrite E3, dget_dset. cbn [filter].
      unfold key_eqb at 2. rewrite Em. destruct (eq_dec n m) as [->|X].
      + rewrite eqb_refl. destruct (filter _ ts) as [|a b]; [reflexivity|].
        rewrite <- app_assoc. reflexivity.
      + destruct (eqb_spec m n); [congruence|]. reflexivity.
  Qed.

  (** ** The minimum *)
  Context (total : forall a b : M, is_ok (cmp a b)).
  Lemma py_min_ok l : forall cur, exists m, py_min cur l = Ok m /\ In m (cur :: l) /\
    forall x, In x (cur :: l) -> cle m x.
  Proof.
    induction l as [|a l IH]; intros cur; cbn [py_min].
    - exists cur. split; auto. split; [left; auto|]. intros x [->|[]]. right; auto.
    - destruct (total a cur) as [c Ec]. rewrite Ec. cbn [bind].
      destruct (IH (match c with Lt => a | _ => cur end)) as (m & E1 & E2 & E3). exists m. split; auto.
      destruct c.
      + apply cmp_eq in Ec. subst cur. split; [cbn in *; tauto|]. intros x [->|[->|X]]; apply E3; cbn; auto.
      + split; [cbn in *; tauto|]. intros x [->|[->|X]]; [|apply E3; cbn; auto|apply E3; cbn; auto].
        eapply cle_trans; [apply E3; left; reflexivity|]. left; auto.
      + split; [cbn in *; tauto|]. intros x [->|[->|X]]; [apply E3; cbn; auto| |apply E3; cbn; auto].
        eapply cle_trans; [apply E3; left; reflexivity|]. left. apply cmp_sym in Ec. auto.
  Qed.
  Lemma flat_some (l : list (option M)) : existsb is_none l = false ->
    map Some (flat_map (fun c => match c with Some m => [m] | None => [] end) l) = l.
  Proof.
    induction l as [|[m|] l IH]; cbn; intros X; auto; [|discriminate]. f_equal. auto.
  Qed.
  Lemma min_coupling_ok S g n c0 : g <> [] -> (forall t, In t g -> exists c, coupling_of t n = Some c) ->
    exists c, min_coupling S g n c0 = Ok c /\
    (In n S -> least_coupling (fun c => exists t, In t g /\ coupling_of t n = Some c) c) /\
    (~ In n S -> (forall t, In t g -> coupling_of t n = Some c0) -> c = c0).
  Proof.
    intros NE Hc.
    assert (G : exists cs, mapM (fun t => dgetitem n (tr_interactions t)) g = Ok cs /\
       (forall c, In c cs <-> exists t, In t g /\ coupling_of t n = Some c) /\ length cs = length g).
    { clear NE. induction g as [|t g IH]; cbn [mapM].
      - exists []. split; auto. split; auto. intros c. split; [intros []|intros (t & [] & _)].
      - destruct (Hc t (or_introl eq_refl)) as [c Ec]. destruct IH as (cs & E1 & E2 & E3); [intros; apply Hc; right; auto|].
        unfold dgetitem at 1. unfold coupling_of in Ec. rewrite Ec. cbn [bind]. rewrite E1. cbn [bind].
        exists (c :: cs). split; auto. split; [|cbn; lia]. intros d. cbn [In]. rewrite E2. split.
        + intros [<-|(u & U & X)]; [exists t; auto|exists u; auto].
        + intros (u & [<-|U] & X); [left; unfold coupling_of in X; congruence|right; eauto]. }
    destruct G as (cs & E1 & E2 & E3). unfold min_coupling. rewrite E1. cbn [bind].
    destruct (existsb is_none cs) eqn:Ex.
    - exists None. split; auto. apply existsb_exists in Ex. destruct Ex as ([m|] & X & Y); [discriminate|]. split.
      + intros _. split; auto. apply E2. auto.
      + intros _ A. apply E2 in X. destruct X as (t & T & X). specialize (A t T). congruence.
    - destruct (memb n S) eqn:Mn.
      + apply memb_In in Mn. pose proof (flat_some cs Ex) as F.
        destruct (flat_map _ cs) as [|m ms] eqn:Fm.
        { cbn in F. subst cs. destruct g; [congruence|]. cbn in E3. lia. }
        destruct (py_min_ok ms m) as (x & P1 & P2 & P3). rewrite P1. cbn [bind]. exists (Some x).
        split; auto. split; [|tauto]. intros _. split.
        * apply E2. rewrite <- F. apply in_map. auto.
        * intros c' C'. apply E2 in C'. rewrite <- F in C'. apply in_map_iff in C'. destruct C' as (y & <- & Y).
          exists y. split; auto. apply P3 in Y. exact Y.
      + apply memb_notIn in Mn. exists c0. split; auto. split; [tauto|auto].
  Qed.

  Lemma with_couplings_three_body t p k i j r (l : dict Z (option M)) :
    three_body t p k i j r -> map fst l = [0; 1] ->
    three_body (Transition (tr_topology t) (tr_states t) l) p k i j r.
  Proof. intros (G & A & K & _) L. repeat split; auto; apply G. Qed.

  (** The representative of a group *)
  Lemma min_transition_ok S g t0 g' : g = t0 :: g' -> (forall t, In t g -> is_three_body t) ->
    (forall t n, In t g -> ~ In n S -> coupling_of t n = coupling_of t0 n) ->
    exists u, min_transition S g = Ok u /\ tr_topology u = tr_topology t0 /\ tr_states u = tr_states t0 /\
      map fst (tr_interactions u) = [0; 1] /\
      (forall n, ~ In n S -> coupling_of u n = coupling_of t0 n) /\
      (forall n, In n [0; 1] -> In n S -> exists c, coupling_of u n = Some c /\
         least_coupling (fun c => exists t, In t g /\ coupling_of t n = Some c) c).
  Proof.
    intros Eg T U. unfold min_transition. rewrite Eg. rewrite <- Eg.
    assert (T0 : is_three_body t0) by (apply T; subst; left; auto).
    destruct (three_body_interactions t0 T0) as (c0 & c1 & I & C0 & C1). rewrite I.
    assert (NE : g <> []) by (subst; discriminate).
    assert (Hc : forall n, In n [0; 1] -> forall t, In t g -> exists c, coupling_of t n = Some c).
    { intros n Hn t Ht. destruct (T t Ht) as (p & k & i & j & r & Tt). eapply three_body_coupling; eauto. }
    destruct (min_coupling_ok S g 0 c0 NE (Hc 0 ltac:(cbn; auto))) as (m0 & A0 & B0 & D0).
    destruct (min_coupling_ok S g 1 c1 NE (Hc 1 ltac:(cbn; auto))) as (m1 & A1 & B1 & D1).
    cbn [mapM fst snd]. rewrite A0. cbn [bind]. rewrite A1. cbn [bind]. eexists. split; [reflexivity|].
    cbn [tr_topology tr_states tr_interactions map fst]. repeat (split; auto).
    - intros n N. destruct (Z.eq_dec n 0) as [->|N0]; [|destruct (Z.eq_dec n 1) as [->|N1]].
      + rewrite C0. unfold coupling_of. cbn. f_equal. apply D0; auto. intros t Ht. rewrite <- C0. auto.
      + rewrite C1. unfold coupling_of. cbn. f_equal. apply D1; auto. intros t Ht. rewrite <- C1. auto.
      + unfold coupling_of. rewrite I. cbn [tr_interactions dget]. destruct (eq_dec n 0); [congruence|].
        destruct (eq_dec n 1); [congruence|]. auto.
    - intros n [<-|[<-|[]]] N.
      + exists m0. split; [reflexivity|auto].
      + exists m1. split; [reflexivity|auto].
  Qed.

  Lemma same_group_refl S t : is_three_body t -> same_group S t t.
  Proof. intros (p & k & i & j & r & T). exists p, k, i, j, r, p, k, i, j, r. auto 10. Qed.
  Lemma same_group_sym S t u : same_group S t u -> same_group S u t.
  Proof.
    intros (p & k & i & j & r & p' & k' & i' & j' & r' & T & T' & -> & -> & X & Y).
    exists p', k', i', j', r', p, k, i', j', r. repeat (split; auto). intros n N. symmetry; auto.
  Qed.
  Lemma same_group_trans S t u v : same_group S t u -> same_group S u v -> same_group S t v.
  Proof.
    intros (p & k & i & j & r & p' & k' & i' & j' & r' & T & T' & -> & -> & X & Y)
      (p1 & k1 & i1 & j1 & r1 & p2 & k2 & i2 & j2 & r2 & T1 & T2 & -> & -> & X1 & Y1).
    destruct (three_body_unique u u _ _ _ _ _ _ _ _ _ _ T' T1 eq_refl) as (-> & -> & -> & -> & ->).
    exists p, k, i2, j2, r, p2, k2, i2, j2, r2. repeat (split; auto); [congruence|].
    intros n N. rewrite Y, Y1; auto.
  Qed.
  Lemma same_group_three_body S t u : same_group S t u -> is_three_body t /\ is_three_body u.
  Proof.
    intros (p & k & i & j & r & p' & k' & i' & j' & r' & T & T' & _). split; [exists p, k, i, j, r|exists p', k', i', j', r']; auto.
  Qed.

  Lemma available_ids ts : ts <> [] -> (forall t, In t ts -> is_three_body t) ->
    to_set (flat_map (fun t => dkeys (tr_interactions t)) ts) = [0; 1].
  Proof.
    intros NE T. assert (G : forall l, (forall t, In t l -> is_three_body t) ->
      to_set_acc [1; 0] (flat_map (fun t => dkeys (tr_interactions t)) l) = []).
    { induction l as [|t l IH]; intros Tl; [reflexivity|]. cbn [flat_map].
      destruct (three_body_interactions t) as (c0 & c1 & I & _); [apply Tl; left; auto|]. rewrite I.
      cbn. apply IH. intros u U. apply Tl. right; auto. }
    destruct ts as [|t ts]; [congruence|]. cbn [flat_map].
    destruct (three_body_interactions t) as (c0 & c1 & I & _); [apply T; left; auto|]. rewrite I. unfold to_set. cbn.
    rewrite G; auto. intros u U. apply T. right; auto.
  Qed.
  Lemma one_intermediate ts : (forall t, In t ts -> is_three_body t) ->
    anyM (fun t => let* s := intermediate_states t in Ok (negb (length s =? 1)%nat)) ts = Ok false.
  Proof.
    induction ts as [|t ts IH]; intros T; [reflexivity|]. cbn [anyM].
    destruct (T t (or_introl eq_refl)) as (p & k & i & j & r & T').
    destruct (three_body_intermediate t _ _ _ _ _ T') as (s & _ & ->). cbn. apply IH.
    intros u U. apply T. right; auto.
  Qed.

  Lemma filter_spec ts node_ids : ts <> [] -> (forall t, In t ts -> is_three_body t) ->
    unambiguous (filtered_nodes node_ids) ts ->
    exists l, filter_min_ls (reiterable ts) node_ids = Ok l /\ l <> [] /\ NoDup l /\
      (forall t, In t ts -> exists u, In u l /\ minimal_of (filtered_nodes node_ids) ts t u) /\
      (forall u, In u l -> exists t, In t ts /\ tr_topology u = tr_topology t /\ tr_states u = tr_states t /\
         minimal_of (filtered_nodes node_ids) ts t u) /\
      (forall u u', In u l -> In u' l -> same_group (filtered_nodes node_ids) u u' -> u = u').
  Proof.
    intros NE T U. unfold filter_min_ls, reiterable. rewrite available_ids by auto.
    assert (SE : set_eqb [0; 1] [0; 1] = true) by (apply set_eqb_spec; tauto).
    rewrite SE. cbn [negb]. rewrite one_intermediate by auto. cbn [bind].
    change (match node_ids with Some s => s | None => [0; 1] end) with (filtered_nodes node_ids).
    set (S := filtered_nodes node_ids) in *.
    assert (KO : forall t, In t ts -> is_ok (group_key S t)).
    { intros t Ht. destruct (T t Ht) as (p & k & i & j & r & T').
      destruct (three_body_state t _ _ _ _ _ r T') as [s Sr]; [cbn; auto 6|].
      eexists. eapply group_key_ok; eauto. }
    destruct (group_transitions_ok S ts KO [] (NoDup_nil _)) as (d & D1 & D2 & D3). rewrite D1. cbn [bind].
    assert (D4 : forall k g, In (k, g) d <-> g = filter (key_eqb S k) ts /\ g <> []).
    { intros k g. split.
      - intros X. apply In_dget in X; auto. rewrite D3 in X. destruct (filter _ ts); [discriminate|].
        cbn in X. split; congruence.
      - intros [-> X]. apply dget_Some_In. rewrite D3. destruct (filter _ ts); [congruence|]. reflexivity. }
    assert (FI : forall k t, In t (filter (key_eqb S k) ts) <-> In t ts /\ group_key S t = Ok k).
    { intros k t. rewrite filter_In. unfold key_eqb. split; intros [X Y]; split; auto.
      - destruct (group_key S t); [|discriminate]. rewrite eqb_eq in Y. congruence.
      - rewrite Y. apply eqb_refl. }
    (* the representative of each group *)
    assert (Rep : forall k g, In (k, g) d -> exists u t0, min_transition S g = Ok u /\ In t0 g /\
              tr_topology u = tr_topology t0 /\ tr_states u = tr_states t0 /\
              group_key S u = Ok k /\ forall t, In t g -> minimal_of S ts t u).
    { intros k g X. apply D4 in X. destruct X as [-> X].
      destruct (filter (key_eqb S k) ts) as [|t0 g'] eqn:Fg; [congruence|].
      assert (Hg : forall t, In t (t0 :: g') <-> In t ts /\ group_key S t = Ok k) by (rewrite <- Fg; apply FI).
      assert (SG : forall t t', In t (t0 :: g') -> In t' (t0 :: g') -> same_group S t t').
      { intros t t' A B. apply Hg in A. apply Hg in B. destruct A as [A1 A2], B as [B1 B2].
        apply (key_same_group S ts); auto. congruence. }
      assert (Ht0 : In t0 (t0 :: g')) by (left; auto).
      destruct (min_transition_ok S (t0 :: g') t0 g' eq_refl) as (u & U1 & U2 & U3 & U4 & U5 & U6).
      { intros t A. apply Hg in A. apply T. tauto. }
      { intros t n A N. destruct (SG t t0 A Ht0) as (p & k0 & i & j & r & p' & k' & i' & j' & r' & _ & _ & _ & _ & _ & Y). auto. }
      exists u, t0. split; [exact U1|]. split; [exact Ht0|]. split; [exact U2|]. split; [exact U3|].
      split; [|intros t A4; split].
      - destruct (proj1 (Hg t0) Ht0) as [B1 B2]. destruct (T t0 B1) as (p & k0 & i & j & r & T0).
        assert (Tu : three_body u p k0 i j r).
        { pose proof (with_couplings_three_body t0 p k0 i j r (tr_interactions u) T0 U4) as X0.
          rewrite <- U2, <- U3 in X0. destruct u; exact X0. }
        destruct (three_body_state t0 _ _ _ _ _ r T0) as [s Sr]; [cbn; auto 6|].
        rewrite (group_key_ok S t0 _ _ _ _ _ _ T0 Sr) in B2. injection B2 as <-.
        rewrite (group_key_ok S u _ _ _ _ _ s Tu) by (unfold state_of in *; congruence).
        f_equal. f_equal. unfold unfiltered.
        destruct (three_body_interactions t0) as (c0 & c1 & I & C0 & C1); [exists p, k0, i, j, r; auto|].
        destruct (three_body_interactions u) as (d0 & d1 & I' & E0 & E1); [exists p, k0, i, j, r; auto|].
        rewrite I, I'. cbn [flat_map fst snd].
        pose proof (U5 0) as V0. pose proof (U5 1) as V1. rewrite C0, E0 in V0. rewrite C1, E1 in V1.
        destruct (memb 0 S) eqn:M0; destruct (memb 1 S) eqn:M1;
          repeat match goal with X : memb _ S = false |- _ => apply memb_notIn in X end.
        + destruct d0, d1, c0, c1; reflexivity.
        + specialize (V1 M1). injection V1 as ->. destruct d0, c0; reflexivity.
        + specialize (V0 M0). injection V0 as ->. destruct d1, c1; reflexivity.
        + specialize (V0 M0). specialize (V1 M1). injection V0 as ->. injection V1 as ->. reflexivity.
      - destruct (SG t t0 A4 Ht0) as (p & k0 & i & j & r & p' & k' & i' & j' & r' & Y1 & Y2 & Y3 & Y4 & Y5 & Y6).
        exists p, k0, i, j, r, p', k', i', j', r'. split; auto. split.
        { pose proof (with_couplings_three_body t0 _ _ _ _ _ (tr_interactions u) Y2 U4) as X0.
          rewrite <- U2, <- U3 in X0. destruct u; exact X0. }
        repeat (split; auto).
        + unfold state_of in *. congruence.
        + intros n N. rewrite U5; auto.
      - intros n Hn N. destruct (U6 n Hn N) as (c & V1 & V2 & V3). exists c. split; auto.
        assert (Eq : forall c', (exists t', In t' (t0 :: g') /\ coupling_of t' n = Some c') <->
                                coupling_in_group S ts t n c').
        { intros c'. unfold coupling_in_group. split.
          - intros (t' & A & B). exists t'. split; [apply Hg in A; tauto|]. split; auto.
          - intros (t' & A & B & C). exists t'. split; auto. apply Hg. split; auto.
            apply Hg in A4. destruct A4 as [A1 A2]. rewrite <- A2. symmetry. apply (key_same_group S ts); auto. }
        split; [apply Eq; auto|]. destruct c as [m|]; auto. intros c' C'. apply V3. apply Eq. auto. }
    assert (Res : exists l, mapM (min_transition S) (dvalues d) = Ok l /\
              (forall u, In u l <-> exists k g, In (k, g) d /\ min_transition S g = Ok u) /\
              map (group_key S) l = map Ok (dkeys d)).
    { clear D1 D2 D3 D4. revert Rep. generalize d as dd. clear d. induction dd as [|[k g] d IH]; intros Rep.
      - exists []. split; auto. split; auto. intros u. split; [intros []|intros (k & g & [] & _)].
      - destruct IH as (l & L1 & L2 & L3); [intros k' g' X; apply (Rep k' g'); right; auto|].
        destruct (Rep k g (or_introl eq_refl)) as (u & t0 & R1 & R2 & R3 & R4 & R5 & R6).
        cbn [dvalues map snd mapM]. rewrite R1. cbn [bind]. fold (dvalues d). rewrite L1. cbn [bind].
        exists (u :: l). split; auto. split.
        + intros v. cbn [In]. rewrite L2. split.
          * intros [<-|(k' & g' & X & Y)]; [exists k, g; auto|exists k', g'; auto].
          * intros (k' & g' & [X|X] & Y); [left; congruence|right; eauto].
        + cbn [map dkeys fst]. f_equal; auto. }
    destruct Res as (l & L1 & L2 & L3). exists l. split; auto.
    assert (ND : NoDup l).
    { apply (NoDup_map_inv (group_key S)). rewrite L3. apply FinFun.Injective_map_NoDup; auto. intros a b X. congruence. }
    assert (Key : forall t, In t ts -> exists k g, In (k, g) d /\ In t g).
    { intros t Ht. destruct (KO t Ht) as [k Ek]. exists k, (filter (key_eqb S k) ts). rewrite D4, FI.
      repeat split; auto. intros X. assert (Y : In t (filter (key_eqb S k) ts)) by (apply FI; auto).
      rewrite X in Y. destruct Y. }
    assert (All : forall t, In t ts -> exists u, In u l /\ minimal_of S ts t u).
    { intros t Ht. destruct (Key t Ht) as (k & g & X & Y).
      destruct (Rep k g X) as (u & t0 & R1 & R2 & R3 & R4 & R5 & R6). exists u. split; auto. apply L2. eauto. }
    split.
    { destruct ts as [|t ts']; [congruence|]. destruct (All t (or_introl eq_refl)) as (u & X & _).
      intros ->. destruct X. }
    split; auto. split; auto. split.
    - intros u Hu. apply L2 in Hu. destruct Hu as (k & g & X & Y).
      destruct (Rep k g X) as (u' & t0 & R1 & R2 & R3 & R4 & R5 & R6). assert (u' = u) by congruence. subst u'.
      exists t0. split; auto. apply D4 in X. destruct X as [-> _]. apply FI in R2. tauto.
    - intros u u' Hu Hu' SG. apply L2 in Hu. apply L2 in Hu'.
      destruct Hu as (k & g & X & Y), Hu' as (k' & g' & X' & Y').
      destruct (Rep k g X) as (v & t0 & R1 & R2 & R3 & R4 & R5 & R6). assert (v = u) by congruence. subst v.
      destruct (Rep k' g' X') as (v & t0' & R1' & R2' & R3' & R4' & R5' & R6'). assert (v = u') by congruence. subst v.
      assert (SG0 : same_group S t0 t0').
      { eapply same_group_trans; [apply (R6 t0 R2)|]. eapply same_group_trans; [exact SG|].
        apply same_group_sym. apply (R6' t0' R2'). }
      pose proof X as Xd. pose proof X' as Xd'.
      apply D4 in X. apply D4 in X'. destruct X as [-> _], X' as [-> _]. apply FI in R2. apply FI in R2'.
      apply (key_same_group S ts) in SG0; try tauto; try (apply T; tauto).
      assert (k = k') by (destruct R2, R2'; congruence). subst k'. congruence.
  Qed.

  (** ** C44: which representatives are input transitions *)
  Lemma same_process_ids t t' p k i j r p' k' r' : same_process t t' ->
    three_body t p k i j r -> three_body t' p' k' i j r' -> p = p' /\ k = k' /\ r = r'.
  Proof.
    intros (p0 & r0 & (k1 & i1 & j1 & T1) & (k2 & i2 & j2 & T2) & Ids & _) T T'.
    destruct (three_body_unique t t _ _ _ _ _ _ _ _ _ _ T T1 eq_refl) as (-> & -> & -> & -> & ->).
    destruct (three_body_unique t' t' _ _ _ _ _ _ _ _ _ _ T' T2 eq_refl) as (-> & -> & -> & -> & ->).
    split; auto. split; auto.
    pose proof (proj1 (three_body_ids t' _ _ _ _ _ k1 T2)) as X. rewrite <- Ids in X.
    specialize (X (proj2 (three_body_ids t _ _ _ _ _ k1 T1) ltac:(cbn; auto))).
    destruct T1 as ((_ & _ & ND & _) & _). cbn in X. clear -X ND.
    repeat match goal with H : NoDup (_ :: _) |- _ => inversion H; clear H; subst end. cbn in *.
    destruct X as [|[|[|[|[|[]]]]]]; subst; auto; exfalso; tauto.
  Qed.
  Lemma same_transition S t t' : same_group S t t' -> same_process t t' ->
    coupling_of t 0 = coupling_of t' 0 -> coupling_of t 1 = coupling_of t' 1 -> t = t'.
  Proof.
    intros (p & k & i & j & r & p' & k' & i' & j' & r' & T & T' & -> & -> & X & Y) P C0 C1.
    destruct (same_process_ids t t' _ _ _ _ _ _ _ _ P T T') as (-> & -> & ->).
    pose proof (three_body_topology t t' _ _ _ _ _ T T') as G.
    assert (St : tr_states t = tr_states t').
    { pose proof T as (_ & A & K & _). pose proof T' as (_ & A' & K' & _).
      assert (EE : edge_ids t = edge_ids t') by (unfold edge_ids; rewrite G; auto).
      apply dict_ext.
      - unfold dkeys. rewrite K. apply ascending_NoDup; auto.
      - unfold dkeys. congruence.
      - intros x _. destruct (Z.eq_dec x r') as [->|N]; [exact X|].
        destruct P as (p0 & r0 & (k1 & i1 & j1 & T1) & _ & _ & P).
        destruct (three_body_unique t t _ _ _ _ _ _ _ _ _ _ T T1 eq_refl) as (-> & -> & -> & -> & ->). apply P. auto. }
    destruct (three_body_interactions t) as (c0 & c1 & I & D0 & D1); [exists p', k', i', j', r'; auto|].
    destruct (three_body_interactions t') as (e0 & e1 & I' & E0 & E1); [exists p', k', i', j', r'; auto|].
    destruct t, t'. cbn in *. subst. congruence.
  Qed.
  Lemma same_process_copy t t' u : same_process t t' -> tr_topology u = tr_topology t -> tr_states u = tr_states t ->
    map fst (tr_interactions u) = [0; 1] -> same_process u t'.
  Proof.
    intros (p & r & (k & i & j & T) & T' & Ids & X) G St K. exists p, r. split; [|split; [auto|split]].
    - exists k, i, j. pose proof (with_couplings_three_body t p k i j r (tr_interactions u) T K) as Y.
      rewrite <- G, <- St in Y. destruct u; exact Y.
    - unfold edge_ids in *. rewrite G. auto.
    - intros x N. unfold state_of in *. rewrite St. auto.
  Qed.
  Lemma three_body_nodes t : is_three_body t -> map fst (tr_interactions t) = [0; 1].
  Proof. intros (p & k & i & j & r & _ & _ & _ & K). auto. Qed.

  (** Every pair of production and decay couplings that occurs in a group occurs together. *)
  Lemma selects_product ts node_ids l : ts <> [] -> (forall t, In t ts -> is_three_body t) ->
    (forall t t', In t ts -> In t' ts -> same_process t t') ->
    unambiguous (filtered_nodes node_ids) ts ->
    independent_couplings (filtered_nodes node_ids) ts ->
    filter_min_ls (reiterable ts) node_ids = Ok l -> forall u, In u l -> In u ts.
  Proof.
    intros NE T P U Ind El u Hu. destruct (filter_spec ts node_ids NE T U) as (l' & E1 & _ & _ & _ & E3 & _).
    rewrite El in E1. injection E1 as <-. destruct (E3 u Hu) as (t & Ht & G & St & SG & Min).
    set (S := filtered_nodes node_ids) in *.
    assert (Tu : is_three_body u) by (apply same_group_three_body in SG; tauto).
    assert (Src : forall n, In n [0; 1] -> exists t', In t' ts /\ same_group S t t' /\ coupling_of u n = coupling_of t' n).
    { intros n Hn. destruct (in_dec Z.eq_dec n S) as [I|N].
      - destruct (Min n Hn I) as (c & C1 & (t' & A & B & C) & _). exists t'. split; auto. split; auto. congruence.
      - exists t. split; auto. split; [apply same_group_refl; auto|].
        destruct SG as (p & k & i & j & r & p' & k' & i' & j' & r' & _ & _ & _ & _ & _ & Y). symmetry. auto. }
    destruct (Src 0) as (ta & A1 & A2 & A3); [cbn; auto|]. destruct (Src 1) as (tb & B1 & B2 & B3); [cbn; auto|].
    destruct (Ind ta tb A1 B1) as (tc & C1 & C2 & C3 & C4).
    { eapply same_group_trans; [apply same_group_sym; exact A2|exact B2]. }
    assert (X : u = tc).
    { apply (same_transition S).
      - eapply same_group_trans; [apply same_group_sym; exact SG|]. eapply same_group_trans; [exact A2|exact C2].
      - apply (same_process_copy t tc u); auto. apply three_body_nodes; auto.
      - congruence.
      - congruence. }
    subst; auto.
  Qed.
  Lemma selects_single ts node_ids l : ts <> [] -> (forall t, In t ts -> is_three_body t) ->
    (forall t t', In t ts -> In t' ts -> same_process t t') ->
    unambiguous (filtered_nodes node_ids) ts ->
    ~ (In 0 (filtered_nodes node_ids) /\ In 1 (filtered_nodes node_ids)) ->
    filter_min_ls (reiterable ts) node_ids = Ok l -> forall u, In u l -> In u ts.
  Proof.
    intros NE T P U N. apply selects_product; auto. intros t t' Ht Ht' SG.
    pose proof SG as (p & k & i & j & r & p' & k' & i' & j' & r' & _ & _ & _ & _ & _ & Y).
    destruct (in_dec Z.eq_dec 0 (filtered_nodes node_ids)) as [I0|N0].
    - exists t. split; auto. split; [apply same_group_refl; auto|]. split; auto; apply Y; tauto.
    - exists t'. split; auto. split; auto. split; auto. symmetry. apply Y; auto.
  Qed.

  (** ** C45: a generator yields nothing *)
  Lemma one_shot_empty ts node_ids : ts <> [] -> (forall t, In t ts -> is_three_body t) ->
    filter_min_ls (one_shot ts) node_ids = Ok [].
  Proof.
    intros NE T. unfold filter_min_ls, one_shot. rewrite available_ids by auto.
    assert (SE : set_eqb [0; 1] [0; 1] = true) by (apply set_eqb_spec; tauto).
    rewrite SE. reflexivity.
  Qed.
  Lemma empty_rejected node_ids : @filter_min_ls E M _ _ _ (reiterable []) node_ids = Err ValueError.
  Proof. reflexivity. Qed.
End Filter.

Lemma ls_total (a b : ls_coupling) : is_ok (cmp a b).
Proof.
  unfold cmp, Cmp_ls, cmp_via, cmp, Cmp_prod, cmp, Cmp_Z. cbn.
  destruct (ls_L a ?= ls_L b); eexists; reflexivity.
Qed.
