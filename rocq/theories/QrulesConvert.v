(** The conversion of transitions (C46-C49). *)
From Coq Require Import String ZArith QArith Qcanon List Bool Lia Sorted Permutation Znumtheory.
From Verif Require Import Prelude Spin SpinFacts Decay DecayFacts Qrules SpecQrules QrulesFacts QrulesNorm QrulesThree QrulesFilter.
Import ListNotations.
Local Open Scope string_scope.
Local Open Scope Z_scope.
Local Open Scope list_scope.

(** ** Half-integers *)
Lemma Qc_of_Z_inj a b : Qc_of_Z a = Qc_of_Z b -> a = b.
Proof.
  intros X. assert (Y : (Qc_of_Z a == Qc_of_Z b)%Q) by (rewrite X; reflexivity).
  rewrite !Qc_of_Z_eq in Y. unfold Qeq, inject_Z in Y. cbn [Qnum Qden] in Y. lia.
Qed.
Lemma twice_eq (q : Qc) n : (Qc_of_Z n = Qc_of_Z 2 * q)%Qc <-> n * Zpos (Qden q) = 2 * Qnum q.
Proof.
  assert (X : ((Qc_of_Z 2 * q)%Qc == inject_Z 2 * q)%Q).
  { transitivity (this (Qc_of_Z 2) * this q)%Q; [apply Qred_correct|]. rewrite Qc_of_Z_eq. reflexivity. }
  split.
  - intros Y. assert (Z0 : (Qc_of_Z n == (Qc_of_Z 2 * q)%Qc)%Q) by (rewrite Y; reflexivity).
    rewrite X, Qc_of_Z_eq in Z0. unfold Qeq, Qmult, inject_Z in Z0. cbn [Qnum Qden] in Z0. lia.
  - intros Y. apply Qc_is_canon. rewrite X, Qc_of_Z_eq. unfold Qeq, Qmult, inject_Z. cbn [Qnum Qden]. lia.
Qed.
Lemma spin_value_spec (q : Qc) n : spin_value q = Ok n <-> (Qc_of_Z n = Qc_of_Z 2 * q)%Qc.
Proof.
  rewrite twice_eq. unfold spin_value. split.
  - destruct (Qden q =? 1)%positive eqn:D1.
    + apply Pos.eqb_eq in D1. rewrite D1. intros X. assert (n = 2 * Qnum q) by congruence. lia.
    + destruct (Qden q =? 2)%positive eqn:D2; [|discriminate].
      apply Pos.eqb_eq in D2. rewrite D2. intros X. assert (n = Qnum q) by congruence. lia.
  - intros X. assert (D : (Zpos (Qden q) | 2)).
    { apply Gauss with (Qnum q).
      - exists n. rewrite Z.mul_comm. lia.
      - apply Zgcd_1_rel_prime. rewrite Z.gcd_comm. apply Qred_iff. apply canon. }
    apply Z.divide_pos_le in D as Le; [|lia].
    assert (Zpos (Qden q) = 1 \/ Zpos (Qden q) = 2) as [Y|Y] by lia.
    + assert (Z0 : Qden q = 1%positive) by lia. rewrite Z0. cbn [Pos.eqb]. f_equal. rewrite Y in X. lia.
    + assert (Z0 : Qden q = 2%positive) by lia. rewrite Z0. cbn [Pos.eqb]. f_equal. rewrite Y in X. lia.
Qed.
Lemma spin_value_ok (q : Qc) : is_ok (spin_value q) <-> half_integer q.
Proof.
  split.
  - intros [n X]. apply spin_value_spec in X. exists n. auto.
  - intros [n X]. exists n. apply spin_value_spec. auto.
Qed.

(** ** Objects *)
Lemma copy_qparticle_spec q p : copy_qparticle q = Ok p <-> converts_q q p.
Proof.
  unfold copy_qparticle, converts_q, int_parity, mk_particle. destruct p as [n l j par m w].
  cbn [p_name p_latex p_spin p_parity p_mass p_width]. split.
  - destruct (q_parity q) as [z|] eqn:P; cbn [bind]; [|discriminate].
    destruct (spin_value (q_spin q)) as [k|] eqn:S; cbn [bind]; [|discriminate].
    intros X. injection X as <- <- <- <- <- <-. apply spin_value_spec in S.
    repeat split; auto. discriminate.
  - intros (-> & -> & S & P & N & -> & ->). rewrite <- P. destruct par as [z|]; [|congruence]. cbn [bind].
    apply spin_value_spec in S. rewrite S. reflexivity.
Qed.
Lemma copy_particle_spec p p' : copy_particle p = Ok p' <-> p' = p /\ p_parity p <> None.
Proof.
  unfold copy_particle, int_parity. destruct p as [n l j par m w]. cbn. destruct par; cbn.
  - split; [intros X; injection X as <-; split; congruence|intros [-> _]; auto].
  - split; [discriminate|intros [_ []]; auto].
Qed.
Lemma copy_qparticle_ok q : is_ok (copy_qparticle q) <-> half_integer (q_spin q) /\ q_parity q <> None.
Proof.
  rewrite <- spin_value_ok. unfold copy_qparticle, int_parity, mk_particle. split.
  - intros [p X]. destruct (q_parity q); cbn [bind] in X; [|discriminate].
    destruct (spin_value _) eqn:S; [|discriminate]. split; [eexists; reflexivity|congruence].
  - intros [[n S] P]. destruct (q_parity q); [|congruence]. cbn [bind]. rewrite S. eexists; reflexivity.
Qed.
Lemma copy_particle_ok p : is_ok (copy_particle p) <-> p_parity p <> None.
Proof.
  split.
  - intros [p' X]. apply copy_particle_spec in X. tauto.
  - intros X. exists p. apply copy_particle_spec. auto.
Qed.

Lemma q_to_particle_spec o p : q_to_particle o = Ok p <-> converts_particle o p.
Proof.
  destruct o as [q pr|q|p'|s|]; cbn [q_to_particle converts_particle];
    rewrite ?copy_qparticle_spec, ?copy_particle_spec; try tauto.
  - split; intros [-> X]; auto.
  - split; [discriminate|tauto].
Qed.
Lemma q_to_particle_ok o : is_ok (q_to_particle o) <-> convertible_edge o.
Proof.
  destruct o as [q pr|q|p'|s|]; cbn [q_to_particle convertible_edge];
    rewrite ?copy_qparticle_ok, ?copy_particle_ok; try tauto.
  split; [intros [? X]; discriminate|tauto].
Qed.
Lemma q_to_state_eq o i : o <> EOther -> q_to_state o (Some i) =
  let* p := q_to_particle o in Ok (State p (match o with EState s => st_index s | _ => i end)).
Proof. destruct o; intros X; try congruence; reflexivity. Qed.
Lemma q_to_state_spec o i s : q_to_state o (Some i) = Ok s <->
  converts_particle o (st_particle s) /\ converts_index o i (st_index s).
Proof.
  destruct (match o with EOther => true | _ => false end) eqn:Ot.
  - destruct o; try discriminate. cbn. split; [discriminate|tauto].
  - rewrite q_to_state_eq by (destruct o; congruence). unfold converts_index.
    destruct s as [p n]. cbn [st_particle st_index]. rewrite <- q_to_particle_spec. split.
    + destruct (q_to_particle o) as [p'|]; cbn [bind]; [|discriminate]. intros X; injection X as <- <-. auto.
    + intros [-> ->]. reflexivity.
Qed.
Lemma q_to_state_ok o i : is_ok (q_to_state o (Some i)) <-> convertible_edge o.
Proof.
  destruct (match o with EOther => true | _ => false end) eqn:Ot.
  - destruct o; try discriminate. cbn. split; [intros [? X]; discriminate|tauto].
  - rewrite q_to_state_eq by (destruct o; congruence). rewrite <- q_to_particle_ok. split.
    + intros [s X]. destruct (q_to_particle o); [eexists; reflexivity|discriminate].
    + intros [p X]. rewrite X. eexists; reflexivity.
Qed.
Lemma to_ls_coupling_spec n c : to_ls_coupling n = Ok c <-> converts_coupling n c.
Proof.
  destruct n as [|c'|[l|] [s|]|]; cbn [to_ls_coupling converts_coupling];
    try (split; [intros X; injection X as <-; auto|intros ->; auto]).
  - unfold mk_ls. split.
    + destruct (spin_value s) as [S|] eqn:Sp; cbn [bind]; [|discriminate]. intros X; injection X as <-.
      exists S. split; auto. apply spin_value_spec; auto.
    + intros (S & -> & Sp). apply spin_value_spec in Sp. rewrite Sp. reflexivity.
  - split; [discriminate|tauto].
Qed.
Lemma to_ls_coupling_ok n : is_ok (to_ls_coupling n) <-> convertible_node n.
Proof.
  destruct n as [|c'|[l|] [s|]|]; cbn [to_ls_coupling convertible_node];
    try (split; [auto|intros _; eexists; reflexivity]).
  - rewrite <- spin_value_ok. unfold mk_ls. split.
    + intros [c X]. destruct (spin_value s); [eexists; reflexivity|discriminate].
    + intros [n X]. rewrite X. eexists; reflexivity.
  - split; [intros [? X]; discriminate|tauto].
Qed.

(** ** Transitions *)
Lemma intermediate_ok {E N} (t : transition E N) : is_transition t ->
  exists d, intermediate_states t = Ok d /\ forall i, memb i (dkeys d) = true <-> is_intermediate t i.
Proof.
  intros (ND & NS & K). unfold intermediate_states.
  destruct (filter_states_ok (intermediate_edge_ids (tr_topology t)) t) as (d & E1 & E2 & _).
  - intros x X. apply K. unfold intermediate_edge_ids in X. rewrite ids_where_In in X by exact ND.
    destruct X as (e & X & _). eapply dget_In_keys; eauto.
  - exists d. split; auto. intros i. rewrite memb_In. rewrite E2.
    unfold intermediate_edge_ids. rewrite ids_where_In by exact ND. unfold is_intermediate, edge_of. split.
    + intros (e & X & Y). destruct e as [[m|] [n|]]; try discriminate. exists (Edge (Some m) (Some n)), m, n. auto.
    + intros (e & m & n & X & Y1 & Y2). exists e. split; auto. rewrite Y1, Y2. reflexivity.
Qed.

Section Conv.
  Context (t : raw_transition) (T : is_transition t).
  Definition conv_state (d : dict Z edge_obj) (ks : Z * edge_obj) : res (Z * pobj) :=
    if memb (fst ks) (dkeys d)
    then let* p := q_to_particle (snd ks) in Ok (fst ks, PPart p)
    else let* s := q_to_state (snd ks) (Some (fst ks)) in Ok (fst ks, PSt s).
  Definition conv_node (kn : Z * node_obj) : res (Z * option ls_coupling) :=
    let* c := to_ls_coupling (snd kn) in Ok (fst kn, c).
  Lemma convert_eq : exists d, (forall i, memb i (dkeys d) = true <-> is_intermediate t i) /\
    convert_transition t =
      let* states := mapM (conv_state d) (tr_states t) in
      let* inter := mapM conv_node (tr_interactions t) in
      Ok (Transition (tr_topology t) states inter).
  Proof.
    destruct (intermediate_ok t T) as (d & E1 & E2). exists d. split; auto.
    unfold convert_transition. rewrite E1. reflexivity.
  Qed.
End Conv.

Lemma mapM_is_ok_iff {A B} (f : A -> res B) l : is_ok (mapM f l) <-> forall a, In a l -> is_ok (f a).
Proof.
  split; [|apply mapM_is_ok]. intros [bs X] a I. apply mapM_ok_inv in X.
  induction X as [|a' b l bs X _ IH]; [destruct I|]. destruct I as [<-|I]; auto. eexists; eauto.
Qed.
Lemma Forall2_In_l {A B} (P : A -> B -> Prop) l l' a : Forall2 P l l' -> In a l -> exists b, In b l' /\ P a b.
Proof.
  induction 1 as [|x y l l' X _ IH]; intros I; [destruct I|]. destruct I as [<-|I].
  - exists y. split; [left|]; auto.
  - destruct (IH I) as (b & Y & Z0). exists b. split; [right|]; auto.
Qed.
Lemma Forall2_In_r {A B} (P : A -> B -> Prop) l l' b : Forall2 P l l' -> In b l' -> exists a, In a l /\ P a b.
Proof.
  induction 1 as [|x y l l' X _ IH]; intros I; [destruct I|]. destruct I as [<-|I].
  - exists x. split; [left|]; auto.
  - destruct (IH I) as (a & Y & Z0). exists a. split; [right|]; auto.
Qed.
Lemma mapM_keys {V W} (f : Z * V -> res (Z * W)) (d : dict Z V) d' :
  (forall ks b, f ks = Ok b -> fst b = fst ks) -> mapM f d = Ok d' -> map fst d' = map fst d.
Proof.
  intros F X. apply mapM_ok_inv in X. induction X as [|a b l l' X _ IH]; auto. cbn [map]. f_equal; auto.
Qed.

Lemma conv_state_key d ks b : conv_state d ks = Ok b -> fst b = fst ks.
Proof.
  unfold conv_state. destruct (memb _ _).
  - destruct (q_to_particle _); cbn [bind]; [|discriminate]. intros X; injection X as <-; auto.
  - destruct (q_to_state _ _); cbn [bind]; [|discriminate]. intros X; injection X as <-; auto.
Qed.
Lemma conv_node_key ks b : conv_node ks = Ok b -> fst b = fst ks.
Proof.
  unfold conv_node. destruct (to_ls_coupling _); cbn [bind]; [|discriminate]. intros X; injection X as <-; auto.
Qed.

Lemma convert_transition_converts t u : is_transition t -> convert_transition t = Ok u -> converts t u.
Proof.
  intros T X. destruct (convert_eq t T) as (d & D & E). rewrite E in X. clear E.
  destruct (mapM (conv_state d) (tr_states t)) as [sts|] eqn:S; cbn [bind] in X; [|discriminate].
  destruct (mapM conv_node (tr_interactions t)) as [ns|] eqn:N; cbn [bind] in X; [|discriminate].
  injection X as <-. unfold converts. cbn [tr_topology tr_states tr_interactions].
  pose proof (mapM_ok_inv _ _ _ S) as FS. pose proof (mapM_ok_inv _ _ _ N) as FN.
  split; [auto|]. split; [eapply mapM_keys; [apply conv_state_key|eauto]|].
  split; [eapply mapM_keys; [apply conv_node_key|eauto]|]. split; [|split].
  - intros i o I In_. destruct (Forall2_In_l _ _ _ _ FS I) as (b & Ib & Y). unfold conv_state in Y.
    cbn [fst snd] in Y. rewrite (proj2 (D i) In_) in Y.
    destruct (q_to_particle o) as [p|] eqn:Q; cbn [bind] in Y; [|discriminate]. injection Y as <-.
    exists p. split; auto. apply q_to_particle_spec; auto.
  - intros i o I In_. destruct (Forall2_In_l _ _ _ _ FS I) as (b & Ib & Y). unfold conv_state in Y.
    cbn [fst snd] in Y. destruct (memb i (dkeys d)) eqn:M; [apply D in M; contradiction|].
    destruct (q_to_state o (Some i)) as [s|] eqn:Q; cbn [bind] in Y; [|discriminate]. injection Y as <-.
    apply q_to_state_spec in Q. exists s. split; [|split]; tauto.
  - intros n o I. destruct (Forall2_In_l _ _ _ _ FN I) as (b & Ib & Y). unfold conv_node in Y. cbn [fst snd] in Y.
    destruct (to_ls_coupling o) as [c|] eqn:Q; cbn [bind] in Y; [|discriminate]. injection Y as <-.
    exists c. split; auto. apply to_ls_coupling_spec; auto.
Qed.
Lemma convert_transition_ok t : is_transition t -> is_ok (convert_transition t) <-> convertible t.
Proof.
  intros T. destruct (convert_eq t T) as (d & D & E). rewrite E. clear E.
  assert (A : is_ok (mapM (conv_state d) (tr_states t)) <-> forall i o, In (i, o) (tr_states t) -> convertible_edge o).
  { rewrite mapM_is_ok_iff. split.
    - intros X i o I. specialize (X _ I). unfold conv_state in X. cbn [fst snd] in X. destruct (memb _ _).
      + apply q_to_particle_ok. destruct (q_to_particle o); [eexists; reflexivity|destruct X; discriminate].
      + apply (q_to_state_ok o i). destruct (q_to_state o (Some i)); [eexists; reflexivity|destruct X; discriminate].
    - intros X [i o] I. specialize (X _ _ I). unfold conv_state. cbn [fst snd]. destruct (memb _ _).
      + apply q_to_particle_ok in X. destruct X as [p ->]. eexists; reflexivity.
      + apply (q_to_state_ok o i) in X. destruct X as [p ->]. eexists; reflexivity. }
  assert (B : is_ok (mapM conv_node (tr_interactions t)) <-> forall n o, In (n, o) (tr_interactions t) -> convertible_node o).
  { rewrite mapM_is_ok_iff. split.
    - intros X i o I. specialize (X _ I). unfold conv_node in X. cbn [fst snd] in X.
      apply to_ls_coupling_ok. destruct (to_ls_coupling o); [eexists; reflexivity|destruct X; discriminate].
    - intros X [i o] I. specialize (X _ _ I). unfold conv_node. cbn [fst snd].
      apply to_ls_coupling_ok in X. destruct X as [p ->]. eexists; reflexivity. }
  unfold convertible. rewrite <- A, <- B. split.
  - intros [u X]. destruct (mapM (conv_state d) _); [|discriminate]. cbn [bind] in X.
    destruct (mapM conv_node _); [|discriminate]. split; eexists; reflexivity.
  - intros [[s ->] [n ->]]. eexists; reflexivity.
Qed.

(** A conversion is unique. *)
Lemma Qc_conv_inj a b (q : Qc) : (Qc_of_Z a = Qc_of_Z 2 * q)%Qc -> (Qc_of_Z b = Qc_of_Z 2 * q)%Qc -> a = b.
Proof. intros X Y. apply Qc_of_Z_inj. congruence. Qed.
Lemma converts_particle_fun o p p' : converts_particle o p -> converts_particle o p' -> p = p'.
Proof. rewrite <- !q_to_particle_spec. congruence. Qed.
Lemma converts_coupling_fun o p p' : converts_coupling o p -> converts_coupling o p' -> p = p'.
Proof. rewrite <- !to_ls_coupling_spec. congruence. Qed.
Lemma converts_unique t u : is_transition t -> NoDup (map fst (tr_interactions t)) -> converts t u ->
  convert_transition t = Ok u.
Proof.
  intros T NI (C1 & C2 & C3 & C4 & C5 & C6).
  assert (Cv : convertible t).
  { split.
    - intros i o I. destruct (intermediate_ok t T) as (d & _ & D).
      destruct (memb i (dkeys d)) eqn:M.
      + apply D in M. destruct (C4 i o I M) as (p & P & _). apply q_to_particle_ok. exists p. apply q_to_particle_spec; auto.
      + assert (NM : ~ is_intermediate t i) by (rewrite <- D; congruence).
        destruct (C5 i o I NM) as (p & P & _). apply q_to_particle_ok. eexists. apply q_to_particle_spec; eauto.
    - intros n o I. destruct (C6 n o I) as (c & P & _). apply to_ls_coupling_ok. eexists. apply to_ls_coupling_spec; eauto. }
  apply (convert_transition_ok t T) in Cv. destruct Cv as [v V]. rewrite V. f_equal.
  apply (convert_transition_converts t v T) in V. destruct V as (D1 & D2 & D3 & D4 & D5 & D6).
  pose proof T as (_ & NS & _).
  assert (S : tr_states v = tr_states u).
  { apply dict_ext; unfold dkeys; [rewrite D2; auto|congruence|]. intros i I. rewrite D2 in I.
    apply in_map_iff in I. destruct I as ([i' o] & <- & I). cbn [fst].
    destruct (intermediate_ok t T) as (d & _ & D). destruct (memb i' (dkeys d)) eqn:M.
    - apply D in M. destruct (C4 _ _ I M) as (p & P & IP). destruct (D4 _ _ I M) as (p' & P' & IP').
      rewrite (In_dget _ _ _ (eq_ind_r (@NoDup Z) NS C2) IP). rewrite (In_dget _ _ _ (eq_ind_r (@NoDup Z) NS D2) IP').
      do 2 f_equal. eapply converts_particle_fun; eauto.
    - assert (NM : ~ is_intermediate t i') by (rewrite <- D; congruence).
      destruct (C5 _ _ I NM) as (p & P & Q & IP). destruct (D5 _ _ I NM) as (p' & P' & Q' & IP').
      rewrite (In_dget _ _ _ (eq_ind_r (@NoDup Z) NS C2) IP). rewrite (In_dget _ _ _ (eq_ind_r (@NoDup Z) NS D2) IP').
      do 2 f_equal. destruct p as [pp n], p' as [pp' n']. cbn [st_particle st_index] in *. f_equal.
      + eapply converts_particle_fun; eauto.
      + unfold converts_index in *. congruence. }
  assert (I0 : tr_interactions v = tr_interactions u).
  { apply dict_ext; unfold dkeys; [rewrite D3; auto|congruence|]. intros i I. rewrite D3 in I.
    apply in_map_iff in I. destruct I as ([i' o] & <- & I). cbn [fst].
    destruct (C6 _ _ I) as (p & P & IP). destruct (D6 _ _ I) as (p' & P' & IP').
    rewrite (In_dget _ _ _ (eq_ind_r (@NoDup Z) NI C3) IP). rewrite (In_dget _ _ _ (eq_ind_r (@NoDup Z) NI D3) IP').
    f_equal. eapply converts_coupling_fun; eauto. }
  destruct u, v. cbn in *. congruence.
Qed.

(** ** Converting again *)
Lemma as_raw_transition u : is_transition u -> is_transition (as_raw u).
Proof.
  intros (A & B & C). unfold is_transition, edge_ids, as_raw in *. cbn [tr_topology tr_states].
  rewrite map_map. cbn [fst]. auto.
Qed.
Lemma converts_transition t u : is_transition t -> converts t u -> is_transition u.
Proof.
  intros (A & B & C) (C1 & C2 & _). unfold is_transition, edge_ids in *. rewrite C1, C2. auto.
Qed.
Lemma converts_parity o p : converts_particle o p -> p_parity p <> None.
Proof.
  destruct o as [q pr|q|p'|s|]; cbn.
  - intros X. unfold converts_q in X. tauto.
  - intros X. unfold converts_q in X. tauto.
  - intros [-> X]; auto.
  - tauto.
  - tauto.
Qed.
Lemma convert_again t u : is_transition t -> NoDup (map fst (tr_interactions t)) ->
  convert_transition t = Ok u -> convert_transition (as_raw u) = Ok u.
Proof.
  intros T NI X. apply (convert_transition_converts t u T) in X.
  pose proof (converts_transition t u T X) as TU. pose proof (as_raw_transition u TU) as TR.
  destruct X as (C1 & C2 & C3 & C4 & C5 & C6).
  assert (NI' : NoDup (map fst (tr_interactions (as_raw u)))).
  { unfold as_raw. cbn [tr_interactions]. rewrite map_map. cbn [fst].
    change (NoDup (map fst (tr_interactions u))). rewrite C3. auto. }
  apply converts_unique; auto. unfold converts.
  assert (Im : forall i, is_intermediate (as_raw u) i <-> is_intermediate t i).
  { intros i. unfold is_intermediate, edge_of, as_raw. cbn [tr_topology]. rewrite C1. tauto. }
  pose proof TU as (_ & NU & _).
  assert (St : forall i x, In (i, x) (tr_states u) -> exists o, In (i, o) (tr_states t)).
  { intros i x I. apply (in_map fst) in I. rewrite C2 in I. apply in_map_iff in I.
    destruct I as ([i' o] & Ei & I). cbn [fst] in Ei. subst i'. eauto. }
  split; [reflexivity|]. split; [|split; [|split; [|split]]].
  - unfold as_raw. cbn [tr_states]. rewrite map_map. reflexivity.
  - unfold as_raw. cbn [tr_interactions]. rewrite map_map. reflexivity.
  - intros i o I In_. unfold as_raw in I. cbn [tr_states] in I. apply in_map_iff in I.
    destruct I as ([i' x] & Ei & I). cbn [fst snd] in Ei. injection Ei as -> <-.
    destruct (St _ _ I) as [o' I']. apply Im in In_. destruct (C4 _ _ I' In_) as (p & P & IP).
    assert (x = PPart p).
    { apply (In_dget _ _ _ NU) in I. apply (In_dget _ _ _ NU) in IP. congruence. }
    subst x. exists p. split; auto. cbn. split; auto. eapply converts_parity; eauto.
  - intros i o I In_. unfold as_raw in I. cbn [tr_states] in I. apply in_map_iff in I.
    destruct I as ([i' x] & Ei & I). cbn [fst snd] in Ei. injection Ei as -> <-.
    destruct (St _ _ I) as [o' I']. rewrite Im in In_. destruct (C5 _ _ I' In_) as (p & P & _ & IP).
    assert (x = PSt p).
    { apply (In_dget _ _ _ NU) in I. apply (In_dget _ _ _ NU) in IP. congruence. }
    subst x. exists p. split; [|split]; auto.
    + cbn. split; auto. eapply converts_parity; eauto.
    + reflexivity.
  - intros n o I. unfold as_raw in I. cbn [tr_interactions] in I. apply in_map_iff in I.
    destruct I as ([i' x] & Ei & I). cbn [fst snd] in Ei. injection Ei as -> <-.
    exists x. split; auto. destruct x; reflexivity.
Qed.

Lemma sorted_comparable {A} `{CmpLaws A} (r : list A) : StronglySorted cle r -> comparable r.
Proof.
  assert (G : forall a b : A, cle a b -> is_ok (cmp a b) /\ is_ok (cmp b a)).
  { intros a b [X| ->].
    - split; [eexists; exact X|]. apply cmp_sym in X. eexists; exact X.
    - rewrite cmp_refl. split; eexists; reflexivity. }
  intros S. induction S as [|a r S IH F]; [intros ? ? []|]. rewrite Forall_forall in F.
  intros x y [<-|X] [<-|Y].
  - rewrite cmp_refl. eexists; reflexivity.
  - exact (proj1 (G _ _ (F _ Y))).
  - exact (proj2 (G _ _ (F _ X))).
  - apply IH; auto.
Qed.
Lemma sorted_perm_eq {A} `{CmpLaws A} (l l' r : list A) : sorted l = Ok r -> Permutation l l' -> sorted l' = Ok r.
Proof.
  intros S P. pose proof (sorted_comparable r (sorted_sorted _ _ S)) as C.
  pose proof (sorted_perm _ _ S) as P1.
  destruct (sorted_ok l') as [r' S'].
  - intros a b Ia Ib. apply C; (eapply Permutation_in; [|eassumption]);
      (eapply perm_trans; [symmetry; exact P|exact P1]).
  - rewrite S'. f_equal. symmetry. eapply sorted_unique; eauto.
Qed.
Lemma to_set_same {A} `{EqDec A} (l l' : list A) : (forall x, In x l <-> In x l') -> Permutation (to_set l) (to_set l').
Proof.
  intros X. apply NoDup_Permutation; try apply to_set_NoDup. intros x. rewrite !to_set_In. auto.
Qed.
Lemma mapM_same {A B} (f : A -> res B) l l' bs : mapM f l = Ok bs -> (forall x, In x l <-> In x l') ->
  exists bs', mapM f l' = Ok bs' /\ forall b, In b bs <-> In b bs'.
Proof.
  intros M X. assert (is_ok (mapM f l')) as [bs' M'].
  { apply mapM_is_ok_iff. intros a I. apply X in I. apply (proj1 (mapM_is_ok_iff f l)); auto. eexists; eauto. }
  exists bs'. split; auto. apply mapM_ok_inv in M. apply mapM_ok_inv in M'. intros b. split; intros I.
  - destruct (Forall2_In_r _ _ _ _ M I) as (a & Ia & Fa). apply X in Ia.
    destruct (Forall2_In_l _ _ _ _ M' Ia) as (b' & Ib & Fb). congruence.
  - destruct (Forall2_In_r _ _ _ _ M' I) as (a & Ia & Fa). apply X in Ia.
    destruct (Forall2_In_l _ _ _ _ M Ia) as (b' & Ib & Fb). congruence.
Qed.

Lemma convert_sorted ts us : convert_transitions ts = Ok us -> StronglySorted clt us /\
  (forall u, In u us <-> exists t, In t ts /\ convert_transition t = Ok u).
Proof.
  unfold convert_transitions. destruct (mapM _ ts) as [vs|] eqn:M; cbn [bind]; [|discriminate]. intros S.
  pose proof (sorted_perm _ _ S) as P. split.
  - apply sorted_NoDup_strict; [eapply sorted_sorted; eauto|]. eapply Permutation_NoDup; [exact P|apply to_set_NoDup].
  - apply mapM_ok_inv in M. intros u. split.
    + intros I. apply (Permutation_in _ (Permutation_sym P)) in I. rewrite to_set_In in I.
      destruct (Forall2_In_r _ _ _ _ M I) as (a & Ia & Fa). eauto.
    + intros (t & I & C). destruct (Forall2_In_l _ _ _ _ M I) as (b & Ib & Fb).
      apply (Permutation_in _ P). rewrite to_set_In. congruence.
Qed.
Lemma convert_transitions_same ts ts' us : convert_transitions ts = Ok us ->
  (forall t, In t ts <-> In t ts') -> convert_transitions ts' = Ok us.
Proof.
  unfold convert_transitions. destruct (mapM _ ts) as [vs|] eqn:M; cbn [bind]; [|discriminate]. intros S X.
  destruct (mapM_same _ _ _ _ M X) as (vs' & -> & Y). cbn [bind]. eapply sorted_perm_eq; [exact S|].
  apply to_set_same; auto.
Qed.

(** C47 *)
Lemma c47_idempotent ts us :
  (forall t, In t ts -> is_transition t /\ NoDup (map fst (tr_interactions t))) ->
  convert_transitions ts = Ok us -> convert_transitions (map as_raw us) = Ok us.
Proof.
  intros T X. destruct (convert_sorted ts us X) as [S C]. unfold convert_transitions.
  assert (M : mapM convert_transition (map as_raw us) = Ok us).
  { clear X S. assert (G : forall u, In u us -> convert_transition (as_raw u) = Ok u).
    { intros u I. apply C in I. destruct I as (t & I & Q). destruct (T t I). eapply convert_again; eauto. }
    clear C. induction us as [|u us IH]; [reflexivity|]. cbn [map mapM]. rewrite G by (left; auto). cbn [bind].
    rewrite IH by (intros; apply G; right; auto). reflexivity. }
  rewrite M. cbn [bind].
  assert (ND : NoDup us) by (eapply strictly_sorted_NoDup; eauto).
  rewrite to_set_id by auto. assert (Sc : StronglySorted cle us).
  { clear -S. induction S as [|a l S IH F]; constructor; auto. eapply Forall_impl; [|exact F]. intros b Y. left. exact Y. }
  apply sorted_id; auto. apply sorted_comparable; auto.
Qed.

(** What a conversion returns *)
Lemma c47_result ts us :
  (forall t, In t ts -> is_transition t /\ NoDup (map fst (tr_interactions t))) ->
  convert_transitions ts = Ok us ->
  StronglySorted clt us /\ (forall u, In u us <-> exists t, In t ts /\ converts t u).
Proof.
  intros T X. destruct (convert_sorted ts us X) as [S C]. split; auto. intros u. rewrite C. split.
  - intros (t & I & Q). exists t. split; auto. apply convert_transition_converts; auto. apply T; auto.
  - intros (t & I & Q). exists t. split; auto. destruct (T t I). apply converts_unique; auto.
Qed.

(** C48 *)
Lemma c48_convertible ts us :
  (forall t, In t ts -> is_transition t) -> convert_transitions ts = Ok us ->
  forall t, In t ts -> convertible t.
Proof.
  intros T X t I. apply convert_transition_ok; auto. unfold convert_transitions in X.
  destruct (mapM convert_transition ts) eqn:M; [|discriminate].
  apply (proj1 (mapM_is_ok_iff convert_transition ts)); auto. eexists; eauto.
Qed.
Lemma mapM_err {A B} (f : A -> res B) l e : (forall a, In a l -> f a = Err e \/ is_ok (f a)) ->
  (exists a, In a l /\ f a = Err e) -> mapM f l = Err e.
Proof.
  induction l as [|a l IH]; intros X (b & I & Fb); [destruct I|]. cbn [mapM].
  destruct (X a (or_introl eq_refl)) as [Fa|[c Fa]]; rewrite Fa; cbn [bind]; auto.
  rewrite IH; auto.
  - intros; apply X; right; auto.
  - destruct I as [<-|I]; [congruence|eauto].
Qed.
Lemma lacks_parity_error d i o : lacks_parity o -> conv_state d (i, o) = Err TypeError.
Proof.
  intros L. unfold conv_state. cbn [fst snd].
  assert (Q : q_to_particle o = Err TypeError).
  { destruct o as [q pr|q|p'|s|]; cbn in L; cbn [q_to_particle]; try tauto;
      unfold copy_qparticle, copy_particle; rewrite L; reflexivity. }
  destruct (memb _ _).
  - rewrite Q. reflexivity.
  - rewrite q_to_state_eq by (destruct o; cbn in L; congruence). rewrite Q. reflexivity.
Qed.
Lemma is_ok_dec {A} (r : res A) : {is_ok r} + {~ is_ok r}.
Proof. destruct r; [left; eexists; reflexivity|right; intros [? X]; discriminate]. Defined.
Lemma lacks_parity_dec o : {lacks_parity o} + {~ lacks_parity o}.
Proof. destruct o; cbn; try apply eq_dec. right; auto. Defined.
Lemma classic_lacks (d : dict Z edge_obj) :
  (exists i o, In (i, o) d /\ lacks_parity o) \/ ~ (exists i o, In (i, o) d /\ lacks_parity o).
Proof.
  induction d as [|[i o] d IH].
  - right. intros (? & ? & [] & _).
  - destruct (lacks_parity_dec o) as [L|L].
    + left. exists i, o. split; [left|]; auto.
    + destruct IH as [(a & b & I & L')|N].
      * left. exists a, b. split; [right|]; auto.
      * right. intros (a & b & [X|I] & L'); [congruence|]. apply N; eauto.
Qed.
Lemma c48_type_error ts : (forall t, In t ts -> is_transition t) ->
  (forall t i o, In t ts -> In (i, o) (tr_states t) -> convertible_edge o \/ lacks_parity o) ->
  (forall t n o, In t ts -> In (n, o) (tr_interactions t) -> convertible_node o) ->
  (exists t i o, In t ts /\ In (i, o) (tr_states t) /\ lacks_parity o) ->
  convert_transitions ts = Err TypeError.
Proof.
  intros T C N (t & i & o & It & Io & L).
  assert (G : forall t', In t' ts -> (exists i' o', In (i', o') (tr_states t') /\ lacks_parity o') ->
    convert_transition t' = Err TypeError).
  { intros t' I' (i' & o' & Io' & L'). destruct (convert_eq t' (T t' I')) as (d & D & ->).
    rewrite (mapM_err (conv_state d) _ TypeError); auto.
    - intros [a b] Iab. destruct (C t' a b I' Iab) as [Cv|Lp]; [right|left; apply lacks_parity_error; auto].
      unfold conv_state. cbn [fst snd]. destruct (memb _ _).
      + apply q_to_particle_ok in Cv. destruct Cv as [p ->]. eexists; reflexivity.
      + apply (q_to_state_ok b a) in Cv. destruct Cv as [p ->]. eexists; reflexivity.
    - exists (i', o'). split; auto. apply lacks_parity_error; auto. }
  unfold convert_transitions. rewrite (mapM_err convert_transition ts TypeError); auto.
  - intros t' I'.
    destruct (is_ok_dec (convert_transition t')) as [Y|Y]; auto. left.
    apply G; auto. destruct (classic_lacks (tr_states t')) as [Z0|Z0]; auto.
    exfalso. apply Y. apply convert_transition_ok; auto. split; [|eauto].
    intros a b Iab. destruct (C t' a b I' Iab); auto. exfalso; apply Z0; eauto.
  - exists t. split; eauto.
Qed.
