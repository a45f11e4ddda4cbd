(** permute_equal_final_states on a reaction: the permuted transitions are closed under the exchange of identical particles (C110). *)
From Coq Require Import String ZArith QArith Qcanon List Bool Lia Sorted Permutation.
From Verif Require Import Prelude Spin SpinFacts Decay DecayFacts Qrules SpecQrules QrulesFacts QrulesThree QrulesNorm
  QrulesConvert QrulesDecay QrulesLabels SpecIdentical.
Import ListNotations.
Local Open Scope string_scope.
Local Open Scope Z_scope.
Local Open Scope list_scope.

Section Permuted.
  Context `{EqDec edge_obj} `{EqDec node_obj} `{CmpLaws edge_obj} `{CmpLaws node_obj}.
  Notation repr := uniqueness_repr.

  Lemma final_ids_three (t : raw_transition) p k i j r x : three_body t p k i j r -> (is_final t x <-> In x [k; i; j]).
  Proof. exact (three_body_final_iff t p k i j r x). Qed.

  Lemma permuted_shape (t u : raw_transition) p k i j r l : three_body t p k i j r ->
    (forall x s, In x [k; i; j] -> state_of t x = Some s -> is_ok (repr s)) ->
    permute_equal_final_states repr t = Ok l -> In u l ->
    exists k' i' j', three_body u p k' i' j' r /\ edge_ids u = edge_ids t /\ tr_states u = tr_states t /\
      tr_interactions u = tr_interactions t /\ (forall x, In x [k'; i'; j'] <-> In x [k; i; j]).
  Proof.
    intros T R P U. pose proof (three_body_final_iff t p k i j r) as Fin.
    destruct (permute_spec repr t) as (l' & ids & E1 & E2 & E3 & E4 & E5).
    { eapply three_body_transition; eauto. }
    { destruct T; tauto. }
    { eapply three_body_anchored; eauto. }
    { intros x s X. apply (Fin x T) in X. apply R; auto. }
    rewrite P in E1. injection E1 as <-.
    assert (Ids : forall x, In x ids -> In x [k; i; j]).
    { intros x X. destruct ids as [|a ids]; [destruct X|]. destruct E5 as [[m G] _]. apply G in X.
      destruct X as (X & s & Y & _). apply (Fin x T); auto. }
    apply E4 in U. destruct U as [->|(a & b & Ia & Ib & L & ->)].
    - exists k, i, j. split; [exact T|]. do 3 (split; [reflexivity|]). tauto.
    - pose proof (Ids a Ia) as Fa. pose proof (Ids b Ib) as Fb.
      destruct (swapped_three_body t p k i j r a b T Fa Fb) as (i' & j' & T'); [lia|].
      exists (exchange a b k), i', j'. split; [exact T'|].
      destruct (swapped_final t a b) as [(_ & _ & _ & X & _) _]; [lia|destruct T; tauto| | |];
        [apply (Fin _ T); auto|apply (Fin _ T); auto|]. split; [exact X|]. split; [reflexivity|]. split; [reflexivity|].
      intros x. pose proof (three_body_ids _ _ _ _ _ _ x T) as I1. pose proof (three_body_ids _ _ _ _ _ _ x T') as I2.
      rewrite X in I2. pose proof (three_body_NoDup_outer _ _ _ _ _ _ T) as N1. pose proof (three_body_NoDup_outer _ _ _ _ _ _ T') as N2.
      rewrite I2 in I1. destruct N1 as (_ & P1 & R1 & _), N2 as (_ & P2 & R2 & _).
      set (k' := exchange a b k) in *. clearbody k'. clear - I1 P1 R1 P2 R2. split; intros Q.
      + assert (Z : In x [p; k; i; j; r]) by (apply I1; right; apply (in_or_app [k'; i'; j'] [r]); left; exact Q).
        destruct Z as [<-|Z]; [contradiction|]. apply (in_app_or [k; i; j] [r]) in Z. destruct Z as [Z|[<-|[]]]; [exact Z|contradiction].
      + assert (Z : In x [p; k'; i'; j'; r]) by (apply I1; right; apply (in_or_app [k; i; j] [r]); left; exact Q).
        destruct Z as [<-|Z]; [contradiction|]. apply (in_app_or [k'; i'; j'] [r]) in Z. destruct Z as [Z|[<-|[]]]; [exact Z|contradiction].
  Qed.

  (** The other transition with the spectator exchanged *)
  Lemma permuted_partner (t u : raw_transition) p k i j r l k' k'' s' s'' : three_body t p k i j r ->
    (forall x s, In x [k; i; j] -> state_of t x = Some s -> is_ok (repr s)) ->
    permute_equal_final_states repr t = Ok l -> In u l -> spectator_is u k' ->
    In k'' [k; i; j] -> state_of t k' = Some s' -> state_of t k'' = Some s'' -> repr s' = repr s'' ->
    exists v, In v l /\ spectator_is v k''.
  Proof.
    intros T R P U Sp I'' S' S'' Rr.
    destruct (three_body_state t p k i j r k T) as [sk Sk]; [cbn; auto|].
    destruct (R k sk) as [n Rk]; [cbn; auto|exact Sk|].
    destruct (c42_three_body repr t p k i j r sk n T R Sk Rk) as (l' & E1 & E2 & E3 & E4).
    rewrite P in E1. injection E1 as <-.
    assert (I' : In k' [k; i; j]).
    { destruct (permuted_shape t u p k i j r l T R P U) as (k1 & i1 & j1 & T1 & _ & _ & _ & Q).
      destruct Sp as (p2 & i2 & j2 & r2 & T2). destruct (three_body_unique _ _ _ _ _ _ _ _ _ _ _ _ T2 T1 eq_refl) as (_ & -> & _).
      apply Q. left; reflexivity. }
    apply (E3 k'' s''); auto. rewrite <- Rr. apply (E3 k' s'); auto. exists u. auto.
  Qed.

  Lemma converts_repr o q : converts_particle o q -> repr o = Ok (p_name q).
  Proof.
    destruct o; cbn; try contradiction.
    - intros (-> & _). reflexivity.
    - intros (-> & _). reflexivity.
    - intros (-> & _). reflexivity.
    - intros (-> & _). reflexivity.
  Qed.
  Lemma same_particle_repr o o' : same_particle o o' -> repr o = repr o'.
  Proof. intros (q & A & B). rewrite (converts_repr o q A), (converts_repr o' q B). reflexivity. Qed.
  Lemma convertible_repr t x o : convertible t -> state_of t x = Some o -> is_ok (repr o).
  Proof.
    intros [C _] S. assert (I : In (x, o) (tr_states t)) by (apply (dget_Some_In _ _ _ S)). specialize (C x o I).
    destruct o; cbn in *; try contradiction; eexists; reflexivity.
  Qed.

  (** The permuted reaction *)
  Variables (ts : list raw_transition).
  Hypotheses (R : ready ts) (IF : forall t, In t ts -> initial_first t).

  Lemma permuted_all : exists ls, mapM (permute_equal_final_states repr) ts = Ok ls /\
    Forall2 (fun t l => permute_equal_final_states repr t = Ok l) ts ls.
  Proof.
    destruct R as (_ & (p & r & TB & _) & Cv).
    destruct (mapM_is_ok (permute_equal_final_states repr) ts) as [ls M].
    - intros t It. destruct (TB t It) as (k & i & j & T). destruct (Cv t It) as (C & _).
      destruct (c42_general repr t) as (l & E & _).
      + exact (three_body_transition _ _ _ _ _ _ T).
      + destruct T as (_ & A & _). exact A.
      + exact (three_body_anchored _ _ _ _ _ _ T).
      + intros x s _ S. exact (convertible_repr t x s C S).
      + exists l. exact E.
    - exists ls. split; [exact M|]. exact (mapM_ok_inv _ _ _ M).
  Qed.

  Definition permuted_of (us : list raw_transition) : Prop :=
    exists ls, us = concat ls /\ Forall2 (fun t l => permute_equal_final_states repr t = Ok l) ts ls.
  Lemma concat_Forall2 {A B} (P : A -> list B -> Prop) l ls x : Forall2 P l ls ->
    (In x (concat ls) <-> exists a b, In a l /\ P a b /\ In b ls /\ In x b).
  Proof.
    intros F. rewrite in_concat. split.
    - intros (b & Ib & Ix). induction F as [|a b' l ls Pa F IH]; [destruct Ib|]. destruct Ib as [<-|Ib].
      + exists a, b'. cbn [In]. auto.
      + destruct (IH Ib) as (a' & b'' & ? & ? & ? & ?). exists a', b''. cbn [In]. auto.
    - intros (a & b & _ & _ & Ib & Ix). eauto.
  Qed.
  Lemma Forall2_partner {A B} (P : A -> B -> Prop) l ls a : Forall2 P l ls -> In a l -> exists b, In b ls /\ P a b.
  Proof.
    intros F. induction F as [|x y l ls Pa F IH]; intros I; [destruct I|]. destruct I as [<-|I].
    - exists y. cbn [In]. auto.
    - destruct (IH I) as (b & ? & ?). exists b. cbn [In]. auto.
  Qed.

  Variables (us : list raw_transition).
  Hypothesis (PM : permuted_of us).

  (** What a permuted transition shares with its original *)
  Lemma permuted_origin u : In u us -> exists t p k i j r l k' i' j', In t ts /\ three_body t p k i j r /\
    permute_equal_final_states repr t = Ok l /\ In u l /\ (forall v, In v l -> In v us) /\
    three_body u p k' i' j' r /\ edge_ids u = edge_ids t /\ tr_states u = tr_states t /\ tr_interactions u = tr_interactions t /\
    (forall x, In x [k'; i'; j'] <-> In x [k; i; j]).
  Proof.
    intros Iu. destruct PM as (ls & -> & F). apply (concat_Forall2 _ _ _ u F) in Iu. destruct Iu as (t & l & It & P & Il & Iu).
    pose proof R as (_ & (p & r & TB & _) & Cv). destruct (TB t It) as (k & i & j & T). destruct (Cv t It) as (C & _).
    destruct (permuted_shape t u p k i j r l T (fun x s _ S => convertible_repr t x s C S) P Iu) as (k' & i' & j' & T' & A1 & A2 & A3 & A4).
    exists t, p, k, i, j, r, l, k', i', j'. do 4 (split; [assumption|]). split; [|repeat (split; [assumption|]); assumption].
    intros v Iv. apply in_concat. eauto.
  Qed.
  Lemma origin_permuted t : In t ts -> In t us.
  Proof.
    intros It. destruct PM as (ls & -> & F). destruct (Forall2_partner _ _ _ t F It) as (l & Il & P).
    apply in_concat. exists l. split; [exact Il|].
    pose proof R as (_ & (p & r & TB & _) & Cv). destruct (TB t It) as (k & i & j & T). destruct (Cv t It) as (C & _).
    destruct (c42_general repr t) as (l' & E & I & _).
    + exact (three_body_transition _ _ _ _ _ _ T).
    + destruct T as (_ & A & _). exact A.
    + exact (three_body_anchored _ _ _ _ _ _ T).
    + intros x s _ S. exact (convertible_repr t x s C S).
    + rewrite P in E. injection E as <-. exact I.
  Qed.

  Lemma permuted_ready : ready us /\ (forall u, In u us -> initial_first u).
  Proof.
    pose proof R as (NE & OR & Cv). pose proof OR as (p & r & TB & Ids & Same & Cpl).
    assert (Sh : forall u, In u us -> exists t k i j k' i' j', In t ts /\ three_body t p k i j r /\ three_body u p k' i' j' r /\
      edge_ids u = edge_ids t /\ tr_states u = tr_states t /\ tr_interactions u = tr_interactions t /\
      (forall x, In x [k'; i'; j'] <-> In x [k; i; j])).
    { intros u Iu. destruct (permuted_origin u Iu) as (t & p1 & k & i & j & r1 & l & k' & i' & j' & It & T & _ & _ & _ & T' & A).
      destruct (TB t It) as (k2 & i2 & j2 & T2). destruct (three_body_unique _ _ _ _ _ _ _ _ _ _ _ _ T T2 eq_refl) as (-> & -> & -> & -> & ->).
      exists t, k2, i2, j2, k', i', j'. repeat (split; [tauto|]). tauto. }
    split; [split; [|split]|].
    - destruct ts as [|t0 ts0] eqn:Et; [congruence|]. intros Eu. rewrite <- Et in *.
      assert (I : In t0 us) by (apply origin_permuted; rewrite Et; left; reflexivity). rewrite Eu in I. destruct I.
    - exists p, r. split; [|split; [|split]].
      + intros u Iu. destruct (Sh u Iu) as (t & k & i & j & k' & i' & j' & _ & _ & T' & _). eauto.
      + intros u u' Iu Iu'. destruct (Sh u Iu) as (t & k & i & j & k' & i' & j' & It & _ & _ & -> & _).
        destruct (Sh u' Iu') as (t' & k1 & i1 & j1 & k1' & i1' & j1' & It' & _ & _ & -> & _). apply Ids; assumption.
      + intros u u' x o o' Iu Iu' Nx S S'. destruct (Sh u Iu) as (t & k & i & j & k' & i' & j' & It & _ & _ & _ & Q & _).
        destruct (Sh u' Iu') as (t' & k1 & i1 & j1 & k1' & i1' & j1' & It' & _ & _ & _ & Q' & _).
        unfold state_of in S, S'. rewrite Q in S. rewrite Q' in S'. exact (Same t t' x o o' It It' Nx S S').
      + intros u u' n o o' Iu Iu' S S'. destruct (Sh u Iu) as (t & k & i & j & k' & i' & j' & It & _ & _ & _ & _ & Q & _).
        destruct (Sh u' Iu') as (t' & k1 & i1 & j1 & k1' & i1' & j1' & It' & _ & _ & _ & _ & Q' & _).
        unfold coupling_of in S, S'. rewrite Q in S. rewrite Q' in S'. exact (Cpl t t' n o o' It It' S S').
    - intros u Iu. destruct (Sh u Iu) as (t & k & i & j & k' & i' & j' & It & T & T' & _ & Q1 & Q2 & Q).
      destruct (Cv t It) as ((C1 & C2) & Fr & RL). split; [|split].
      + split; [rewrite Q1; exact C1|rewrite Q2; exact C2].
      + unfold fresh. rewrite Q1. exact Fr.
      + intros p1 k1 i1 j1 r1 T1 x Ix. destruct (three_body_unique _ _ _ _ _ _ _ _ _ _ _ _ T1 T' eq_refl) as (-> & -> & -> & -> & ->).
        apply (RL p k i j r T x). destruct Ix as [<-|Ix]; [left; reflexivity|]. right. apply Q. exact Ix.
    - intros u Iu p1 k1 i1 j1 r1 T1 x Ix. destruct (Sh u Iu) as (t & k & i & j & k' & i' & j' & It & T & T' & _ & _ & _ & Q).
      destruct (three_body_unique _ _ _ _ _ _ _ _ _ _ _ _ T1 T' eq_refl) as (-> & -> & -> & -> & ->).
      apply (IF t It p k i j r T x). apply Q. exact Ix.
  Qed.

  (** The particle of an outer edge is the same in all transitions. *)
  Lemma converts_fun o q q' : converts_particle o q -> converts_particle o q' -> q = q'.
  Proof.
    destruct o as [p s|p|p|s|]; cbn; try contradiction.
    - intros A B. destruct q, q'. unfold converts_q in *. cbn in *. destruct A as (A1 & A2 & A3 & A4 & _ & A5 & A6), B as (B1 & B2 & B3 & B4 & _ & B5 & B6).
      assert (p_spin = p_spin0) by (rewrite <- B3 in A3; apply Qc_of_Z_inj in A3; exact A3). congruence.
    - intros A B. destruct q, q'. unfold converts_q in *. cbn in *. destruct A as (A1 & A2 & A3 & A4 & _ & A5 & A6), B as (B1 & B2 & B3 & B4 & _ & B5 & B6).
      assert (p_spin = p_spin0) by (rewrite <- B3 in A3; apply Qc_of_Z_inj in A3; exact A3). congruence.
    - intros [-> _] [-> _]. reflexivity.
    - intros [-> _] [-> _]. reflexivity.
  Qed.
  Lemma same_particle_trans o o' o'' : same_particle o o' -> same_particle o' o'' -> same_particle o o''.
  Proof. intros (q & A & B) (q' & C & D). pose proof (converts_fun _ _ _ B C). subst q'. exists q. auto. Qed.
  Lemma same_particle_sym o o' : same_particle o o' -> same_particle o' o.
  Proof. intros (q & A & B). exists q. auto. Qed.

  (** Identical particles are identical in all transitions. *)
  Lemma identical_everywhere a b : identical ts a b -> exists x y, x <> y /\
    forall u, In u us -> is_final u x /\ is_final u y /\ rank u x = a /\ rank u y = b /\
      exists ox oy, state_of u x = Some ox /\ state_of u y = Some oy /\ same_particle ox oy.
  Proof.
    intros (t & x & y & ox & oy & It & Fx & Fy & Nxy & Sx & Sy & SP & Ra & Rb). exists x, y. split; [exact Nxy|].
    intros u Iu. pose proof R as (_ & OR & Cv). pose proof OR as (p & r & TB & Ids & Same & Cpl).
    destruct (permuted_origin u Iu) as (t' & p1 & k & i & j & r1 & l & k' & i' & j' & It' & T' & _ & _ & _ & Tu & E1 & E2 & E3 & Q).
    destruct (TB t' It') as (k2 & i2 & j2 & T2). destruct (three_body_unique _ _ _ _ _ _ _ _ _ _ _ _ T' T2 eq_refl) as (-> & -> & -> & -> & ->).
    destruct (TB t It) as (k3 & i3 & j3 & T3).
    assert (Out : forall z, is_final t z -> In z [k2; i2; j2] /\ z <> r).
    { intros z Fz. apply (final_ids_three _ _ _ _ _ _ _ T3) in Fz.
      assert (Iz : In z (edge_ids t)) by (apply (three_body_ids _ _ _ _ _ _ z T3); cbn in *; tauto).
      rewrite (Ids t t' It It') in Iz. apply (three_body_ids _ _ _ _ _ _ z T2) in Iz.
      destruct (three_body_NoDup_outer _ _ _ _ _ _ T3) as (_ & P3 & R3 & _). clear - P3 R3 Iz Fz.
      split; [|intros ->; contradiction]. destruct Iz as [<-|Iz]; [contradiction|].
      apply (in_app_or [k2; i2; j2] [r]) in Iz. destruct Iz as [Iz|[<-|[]]]; [exact Iz|contradiction]. }
    destruct (Out x Fx) as [Ox Nx]. destruct (Out y Fy) as [Oy Ny].
    assert (Rk : forall z, rank u z = rank t z) by (intros z; unfold rank; rewrite E1, (Ids t' t It' It); reflexivity).
    split; [apply (final_ids_three _ _ _ _ _ _ _ Tu), Q; exact Ox|]. split; [apply (final_ids_three _ _ _ _ _ _ _ Tu), Q; exact Oy|].
    split; [rewrite Rk; exact Ra|]. split; [rewrite Rk; exact Rb|].
    destruct (three_body_state t' _ _ _ _ _ x T2) as [ox' Sx']; [right; cbn in *; tauto|].
    destruct (three_body_state t' _ _ _ _ _ y T2) as [oy' Sy']; [right; cbn in *; tauto|].
    exists ox', oy'. unfold state_of. rewrite E2. split; [exact Sx'|]. split; [exact Sy'|].
    apply (same_particle_trans _ ox); [exact (Same t' t x ox' ox It' It Nx Sx' Sx)|].
    apply (same_particle_trans _ oy); [exact SP|]. exact (Same t t' y oy oy' It It' Ny Sy Sy').
  Qed.

  (** The permuted transitions are closed under the exchange of identical particles. *)
  Lemma permuted_closed a b : identical ts a b -> exists x y, x <> y /\
    forall u, In u us -> rank u x = a /\ rank u y = b /\ forall p k i j r, three_body u p k i j r ->
      In x [k; i; j] /\ In y [k; i; j] /\
      (forall z o, In z [k; i; j] -> state_of u z = Some o -> exists o', state_of u (exchange x y z) = Some o' /\ same_particle o o') /\
      exists v i' j', In v us /\ three_body v p (exchange x y k) i' j' r /\ edge_ids v = edge_ids u /\
        tr_states v = tr_states u /\ tr_interactions v = tr_interactions u.
  Proof.
    intros Id. destruct (identical_everywhere a b Id) as (x & y & Nxy & Ev). exists x, y. split; [exact Nxy|].
    intros u Iu. destruct (Ev u Iu) as (Fx & Fy & Ra & Rb & ox & oy & Sx & Sy & SP). split; [exact Ra|]. split; [exact Rb|].
    intros p k i j r T. apply (final_ids_three _ _ _ _ _ _ _ T) in Fx. apply (final_ids_three _ _ _ _ _ _ _ T) in Fy.
    assert (Self : forall z o, In z [k; i; j] -> state_of u z = Some o -> same_particle o o).
    { intros z o Iz So. destruct permuted_ready as ((_ & (p1 & r1 & TB & _ & Same & _) & _) & _).
      destruct (TB u Iu) as (k1 & i1 & j1 & T1). destruct (three_body_unique _ _ _ _ _ _ _ _ _ _ _ _ T T1 eq_refl) as (-> & -> & -> & -> & ->).
      apply (Same u u z o o Iu Iu); auto. intros ->. destruct (three_body_NoDup_outer _ _ _ _ _ _ T) as (_ & _ & R3 & _). contradiction. }
    split; [exact Fx|]. split; [exact Fy|]. split.
    - intros z o Iz So. unfold exchange. destruct (Z.eqb_spec z x) as [->|Nx].
      + exists oy. split; [exact Sy|]. assert (o = ox) by congruence. subst o. exact SP.
      + destruct (Z.eqb_spec z y) as [->|Ny].
        * exists ox. split; [exact Sx|]. assert (o = oy) by congruence. subst o. apply same_particle_sym. exact SP.
        * exists o. split; [exact So|]. exact (Self z o Iz So).
    - destruct (permuted_origin u Iu) as (t & p1 & k1 & i1 & j1 & r1 & l & k' & i' & j' & It & T1 & P & Iul & Sub & Tu & E1 & E2 & E3 & Q).
      destruct (three_body_unique _ _ _ _ _ _ _ _ _ _ _ _ T Tu eq_refl) as (-> & -> & -> & -> & ->).
      assert (Ik : In (exchange x y k') [k1; i1; j1]).
      { unfold exchange. destruct (k' =? x); [apply Q; exact Fy|]. destruct (k' =? y); [apply Q; exact Fx|]. apply Q. left; reflexivity. }
      destruct (three_body_state u _ _ _ _ _ k' Tu) as [sk Sk]; [cbn; auto|].
      assert (Sk' : state_of t k' = Some sk) by (unfold state_of; rewrite <- E2; exact Sk).
      assert (Pt : exists o', state_of t (exchange x y k') = Some o' /\ repr sk = repr o').
      { unfold exchange. unfold state_of in Sx, Sy, Sk. rewrite E2 in Sx, Sy, Sk.
        destruct (Z.eqb_spec k' x) as [->|Nx]; [exists oy; split; [exact Sy|]|
          destruct (Z.eqb_spec k' y) as [->|Ny]; [exists ox; split; [exact Sx|]|exists sk; split; [exact Sk'|reflexivity]]].
        - replace sk with ox by congruence. apply same_particle_repr. exact SP.
        - replace sk with oy by congruence. symmetry. apply same_particle_repr. exact SP. }
      destruct Pt as (o' & So' & Rr). pose proof R as (_ & _ & Cv). destruct (Cv t It) as (C & _).
      pose proof (fun x0 s (_ : In x0 [k1; i1; j1]) S => convertible_repr t x0 s C S) as Rp.
      destruct (permuted_partner t u p1 k1 i1 j1 r1 l k' (exchange x y k') sk o' T1 Rp P Iul) as (v & Iv & Sp); auto.
      { exists p1, i', j', r1. exact Tu. }
      destruct (permuted_shape t v p1 k1 i1 j1 r1 l T1 Rp P Iv) as (k2 & i2 & j2 & T2 & F1 & F2 & F3 & _).
      destruct Sp as (p3 & i3 & j3 & r3 & T3). destruct (three_body_unique _ _ _ _ _ _ _ _ _ _ _ _ T3 T2 eq_refl) as (-> & <- & -> & -> & ->).
      exists v, i2, j2. split; [apply Sub; exact Iv|]. split; [exact T2|]. rewrite F1, F2, F3, E1, E2, E3. auto.
  Qed.
End Permuted.
