(** Facts about [to_three_body_decay] for arbitrary state IDs and for [min_ls] pairs (C49, C66, C67) *)
From Coq Require Import String ZArith QArith Qcanon List Bool Lia Sorted Permutation.
From Verif Require Import Prelude Spin SpinFacts Decay DecayFacts DecayProofs Qrules SpecQrules QrulesFacts QrulesNorm QrulesThree QrulesFilter QrulesConvert.
Import ListNotations.
Local Open Scope string_scope.
Local Open Scope Z_scope.
Local Open Scope list_scope.
From Verif Require Import QrulesDecay.

(** ** Other labels *)
Lemma NoDup_pairs {A B} (l : list (A * B)) : NoDup (map fst l) -> NoDup l.
Proof.
  induction l as [|a l IH]; cbn; intros X; [constructor|]. inversion X as [|? ? X1 X2]; subst.
  constructor; auto. intros I. apply X1. apply in_map; auto.
Qed.
Lemma normalize_three_body {E N} (t : transition E N) p k i j r : three_body t p k i j r -> exists t',
  normalize_transition t = Ok t' /\ three_body t' (rank t p) (rank t k) (rank t i) (rank t j) (rank t r) /\
  edge_ids t' = [0; 1; 2; 3; 4] /\
  (forall x, In x (edge_ids t) -> state_of t' (rank t x) = state_of t x) /\
  tr_interactions t' = tr_interactions t.
Proof.
  intros T. pose proof (three_body_transition t _ _ _ _ _ T) as Tt.
  destruct (c41_renumbering t Tt) as (t' & f & E' & Rf & T' & K' & ES & _ & _ & _ & Nd & Nt).
  pose proof T as (G & A & K & KI). pose proof (rank_renumbering t A) as Rg.
  assert (FG : forall x, In x (edge_ids t) -> f x = rank t x).
  { apply renumbering_unique; auto. apply ascending_NoDup; auto. }
  assert (L5 : length (edge_ids t) = 5%nat).
  { unfold edge_ids. rewrite map_length. apply (isobar_length _ _ _ _ _ _ G). }
  destruct (normalize_length t Tt t' E') as [N1 N2]. rewrite L5 in N1, N2.
  assert (In5 : forall x, In x [p; k; i; j; r] -> In x (edge_ids t)) by (intros x; apply (three_body_ids t _ _ _ _ _ x T)).
  destruct Rg as [R1 R2].
  assert (Inj : forall x y, In x (edge_ids t) -> In y (edge_ids t) -> rank t x = rank t y -> x = y).
  { intros x y X Y Q. destruct (Z.lt_trichotomy x y) as [L|[L|L]]; auto; apply R1 in L; auto; lia. }
  assert (ES' : forall x, In x (edge_ids t) -> edge_of t' (rank t x) = edge_of t x /\ state_of t' (rank t x) = state_of t x).
  { intros x X. rewrite <- FG by auto. apply ES; auto. }
  assert (K2 : forall x, In x (edge_ids t') <-> exists y, In y (edge_ids t) /\ x = rank t y).
  { intros x. rewrite K'. split; intros (y & Y & ->); exists y; split; auto. symmetry; auto. }
  exists t'. split; auto. split; [|split; [exact N2|split; [|exact Nt]]].
  - split; [|split; [|split]].
    + destruct G as (G1 & G2 & G3 & G4). split; [congruence|]. split; [|split].
      * apply (proj1 (R1 i j (In5 i ltac:(cbn; auto 6)) (In5 j ltac:(cbn; auto 6)))); auto.
      * change [rank t p; rank t k; rank t i; rank t j; rank t r] with (map (rank t) [p; k; i; j; r]).
        clear -G3 Inj In5. revert In5. generalize [p; k; i; j; r] G3. intros l ND.
        induction ND as [|x l X ND IH]; intros In5; [constructor|]. cbn [map]. constructor.
        -- intros I. apply in_map_iff in I. destruct I as (y & Y & I). apply X.
           rewrite (Inj x y); auto; apply In5; [left|right]; auto.
        -- apply IH; auto. intros; apply In5; right; auto.
      * assert (ND' : NoDup (map fst (t_edges (tr_topology t')))) by apply T'.
        set (h := fun xe : Z * edge => (rank t (fst xe), snd xe)).
        change (Permutation (t_edges (tr_topology t')) (map h [(p, Edge None (Some 0)); (k, Edge (Some 0) None);
          (r, Edge (Some 0) (Some 1)); (i, Edge (Some 1) None); (j, Edge (Some 1) None)])).
        eapply perm_trans; [|apply Permutation_map; exact G4].
        assert (NDt : NoDup (edge_ids t)) by (apply ascending_NoDup; auto).
        apply NoDup_Permutation.
        -- apply NoDup_pairs; auto.
        -- apply NoDup_pairs. rewrite map_map. cbn [h fst]. rewrite <- (map_map fst (rank t)).
           clear -NDt Inj. unfold edge_ids in *. revert Inj. generalize (map fst (t_edges (tr_topology t))) NDt.
           intros l ND. induction ND as [|x l X ND IH]; intros Inj; [constructor|]. cbn [map]. constructor.
           ++ intros I. apply in_map_iff in I. destruct I as (y & Y & I). apply X.
              rewrite (Inj x y); auto; [left|right]; auto.
           ++ apply IH; auto. intros a b Ia Ib. apply Inj; right; auto.
        -- intros [x e]. split.
           ++ intros I. pose proof (In_dget _ _ _ ND' I) as Q.
              assert (Ix : In x (edge_ids t')) by (eapply dget_In_keys; exact Q).
              apply K2 in Ix. destruct Ix as (y & Y & ->). destruct (ES' y Y) as [Ey _].
              unfold edge_of in Ey. rewrite Q in Ey. symmetry in Ey. apply dget_Some_In in Ey.
              apply in_map_iff. exists (y, e). split; auto.
           ++ intros I. apply in_map_iff in I. destruct I as ([y e'] & Q & I). unfold h in Q. cbn [fst snd] in Q.
              injection Q as <- ->. apply dget_Some_In.
              assert (Iy : In y (edge_ids t)) by (apply (in_map fst) in I; exact I).
              destruct (ES' y Iy) as [Ey _]. unfold edge_of in Ey. rewrite Ey. apply In_dget; auto.
    + rewrite N2. apply zrange_ascending.
    + rewrite N1, N2. reflexivity.
    + rewrite Nt. exact KI.
  - intros x X. apply ES'; auto.
Qed.

Lemma rank_ends {E N} (t : transition E N) p k i j r : three_body t p k i j r -> initial_first t -> resonance_last t ->
  rank t p = 0 /\ rank t r = 4.
Proof.
  intros T IF RL. pose proof (IF _ _ _ _ _ T) as LI. pose proof (RL _ _ _ _ _ T) as LR.
  pose proof T as (G & A & _). destruct (rank_renumbering t A) as [R1 R2].
  assert (L5 : length (edge_ids t) = 5%nat).
  { unfold edge_ids. rewrite map_length. apply (isobar_length _ _ _ _ _ _ G). }
  assert (In5 : forall x, In x (edge_ids t) <-> In x [p; k; i; j; r]) by (intros x; apply (three_body_ids t _ _ _ _ _ x T)).
  assert (Ip : In p (edge_ids t)) by (apply In5; cbn; auto).
  assert (Ir : In r (edge_ids t)) by (apply In5; cbn; auto 6).
  rewrite L5 in R2.
  assert (B : forall x, In x (edge_ids t) -> 0 <= rank t x < 5) by (intros x X; apply (R2 (rank t x)); eauto).
  split.
  - destruct (proj2 (R2 0)) as (x & X & Q); [cbn; lia|]. destruct (Z.eq_dec x p) as [->|Nx]; auto.
    assert (p < x). { apply In5 in X. cbn in X. destruct X as [X|[X|[X|[X|[X|[]]]]]]; subst; try congruence;
      try (apply LI; cbn; tauto). apply LR. cbn; auto. }
    apply R1 in H; auto. pose proof (B p Ip). lia.
  - destruct (proj2 (R2 4)) as (x & X & Q); [cbn; lia|]. destruct (Z.eq_dec x r) as [->|Nx]; auto.
    assert (x < r). { apply In5 in X. cbn in X. destruct X as [X|[X|[X|[X|[X|[]]]]]]; subst; try congruence;
      apply LR; cbn; tauto. }
    apply R1 in H; auto. pose proof (B r Ir). lia.
Qed.
Lemma normalize_standard {E N} (t t' : transition E N) p k i j r : three_body t p k i j r ->
  initial_first t -> resonance_last t -> normalize_transition t = Ok t' ->
  three_body t' 0 (rank t k) (rank t i) (rank t j) 4 /\ standard_labels t' /\ resonance_last t' /\
  edge_ids t' = [0; 1; 2; 3; 4].
Proof.
  intros T IF RL E'. destruct (normalize_three_body t _ _ _ _ _ T) as (t1 & E1 & T1 & Ids & _ & _).
  rewrite E' in E1. injection E1 as <-. destruct (rank_ends t _ _ _ _ _ T IF RL) as [Rp Rr]. rewrite Rp, Rr in T1.
  split; auto. assert (P : Permutation [rank t k; rank t i; rank t j] [1; 2; 3]).
  { destruct (three_body_NoDup_outer t' _ _ _ _ _ T1) as (ND & N0 & N4 & _).
    apply NoDup_Permutation_bis; auto. intros x X.
    assert (Ix : In x (edge_ids t')). { apply (three_body_ids t' _ _ _ _ _ x T1). clear -X. cbn in *. tauto. }
    rewrite Ids in Ix. cbn in Ix. destruct Ix as [<-|[<-|[<-|[<-|[<-|[]]]]]]; cbn; auto; contradiction. }
  split; [apply (standard_ids t' _ _ _ _ _ T1); auto|]. split; auto.
  intros p1 k1 i1 j1 r1 T2 x X. destruct (three_body_unique t' t' _ _ _ _ _ _ _ _ _ _ T2 T1 eq_refl) as (-> & -> & -> & -> & ->).
  destruct X as [<-|X]; [lia|]. apply (Permutation_in _ P) in X. cbn in X. lia.
Qed.

Lemma normalize_ready ts : ready ts -> (forall t, In t ts -> initial_first t) ->
  exists ts', normalize_transitions ts = Ok ts' /\ ready ts' /\ (forall t', In t' ts' -> standard_labels t') /\
    Forall2 (fun t t' => normalize_transition t = Ok t') ts ts'.
Proof.
  intros (NE & (p & r & TB & Ids & SP & CP) & Cv) IF.
  assert (M : is_ok (mapM normalize_transition ts)).
  { apply mapM_is_ok. intros t I. destruct (TB t I) as (k & i & j & T).
    destruct (normalize_three_body t _ _ _ _ _ T) as (t' & X & _). eexists; eauto. }
  destruct M as [ts' M]. exists ts'. pose proof (mapM_ok_inv _ _ _ M) as F.
  assert (From : forall t', In t' ts' -> exists t k i j, In t ts /\ normalize_transition t = Ok t' /\
    three_body t p k i j r /\ three_body t' 0 (rank t k) (rank t i) (rank t j) 4 /\ standard_labels t' /\ resonance_last t' /\
    edge_ids t' = [0; 1; 2; 3; 4] /\
    (forall x, In x (edge_ids t) -> state_of t' (rank t x) = state_of t x) /\
    tr_interactions t' = tr_interactions t).
  { intros t' I'. destruct (Forall2_In_r _ _ _ _ F I') as (t & I & X). destruct (TB t I) as (k & i & j & T).
    destruct (Cv t I) as (_ & _ & RL). destruct (normalize_standard t t' _ _ _ _ _ T (IF t I) RL X) as (A & B & C & D).
    destruct (normalize_three_body t _ _ _ _ _ T) as (t1 & X1 & _ & _ & St & It). rewrite X in X1. injection X1 as <-.
    exists t, k, i, j. repeat (split; [assumption|]). exact It. }
  split; auto. split; [|split; [intros t' I'; destruct (From t' I') as (t & k & i & j & X); apply X|exact F]].
  assert (Back : forall t t' x' , normalize_transition t = Ok t' -> In t ts -> In t' ts' -> In x' (edge_ids t') ->
     exists x, In x (edge_ids t) /\ rank t x = x').
  { intros t t' x' X I I' Ix. destruct (From t' I') as (_ & _ & _ & _ & _ & _ & _ & _ & _ & _ & Ids' & _).
    destruct (TB t I) as (k & i & j & T). pose proof T as (G & A & _).
    destruct (rank_renumbering t A) as [_ R2]. apply R2. unfold edge_ids at 1. rewrite map_length.
    rewrite (isobar_length _ _ _ _ _ _ G). rewrite Ids' in Ix. cbn in Ix. cbn. lia. }
  split; [|split].
  - intros ->. inversion F; subst. apply NE; reflexivity.
  - exists 0, 4. split; [|split; [|split]].
    + intros t' I'. destruct (From t' I') as (t & k & i & j & _ & _ & _ & T' & _). eauto.
    + intros t1 t2 I1 I2. destruct (From t1 I1) as (_ & _ & _ & _ & _ & _ & _ & _ & _ & _ & -> & _).
      destruct (From t2 I2) as (_ & _ & _ & _ & _ & _ & _ & _ & _ & _ & -> & _). reflexivity.
    + intros t1 t2 x' o o' I1 I2 Nx S1 S2.
      destruct (From t1 I1) as (a & k & i & j & Ia & Xa & Ta & T1 & _ & _ & Ids1 & St1 & _).
      destruct (From t2 I2) as (b & k' & i' & j' & Ib & Xb & Tb & T2 & _ & _ & Ids2 & St2 & _).
      assert (Ix : In x' (edge_ids t1)). { destruct T1 as (_ & _ & <- & _). eapply dget_In_keys. exact S1. }
      assert (Ix2 : In x' (edge_ids t2)) by congruence.
      destruct (Back a t1 x' Xa Ia I1 Ix) as (x & X & Rx). pose proof (Ids a b Ia Ib) as Iab.
      assert (Rb : rank b x = x') by (unfold rank in *; rewrite <- Iab; auto).
      rewrite <- Rx, St1 in S1 by auto. rewrite <- Rb, St2 in S2 by congruence.
      apply (SP a b x o o' Ia Ib); auto. intros ->. apply Nx. rewrite <- Rx.
      destruct (Cv a Ia) as (_ & _ & RL). apply (rank_ends a _ _ _ _ _ Ta (IF a Ia) RL).
    + intros t1 t2 n o o' I1 I2 C1 C2.
      destruct (From t1 I1) as (a & k & i & j & Ia & _ & _ & _ & _ & _ & _ & _ & It1).
      destruct (From t2 I2) as (b & k' & i' & j' & Ib & _ & _ & _ & _ & _ & _ & _ & It2).
      unfold coupling_of in C1, C2. rewrite It1 in C1. rewrite It2 in C2. apply (CP a b n o o' Ia Ib C1 C2).
  - intros t' I'. destruct (From t' I') as (a & k & i & j & Ia & Xa & Ta & T1 & _ & RL & Ids1 & St1 & It1).
    destruct (Cv a Ia) as ((Cs & Cn) & Fr & _).
    assert (Sub : forall x o, In (x, o) (tr_states t') -> exists y, In (y, o) (tr_states a)).
    { intros x o I. pose proof (three_body_transition t' _ _ _ _ _ T1) as (_ & N2 & K2).
      apply (In_dget _ _ _ N2) in I.
      assert (Ix : In x (edge_ids t')). { apply K2. eapply dget_In_keys. exact I. }
      destruct (Back a t' x Xa Ia I' Ix) as (y & Y & Rx). exists y. apply dget_Some_In.
      pose proof (St1 y Y) as Q. rewrite Rx in Q. unfold state_of in Q. congruence. }
    split; [|split; auto].
    + split.
      * intros x o I. destruct (Sub x o I) as [y I2]. eapply Cs; eauto.
      * intros n o I. rewrite It1 in I. eapply Cn; eauto.
    + intros x o I. destruct (Sub x o I) as [y I2]. eapply Fr; eauto.
Qed.

(** Normalising does not change what a transition stands for. *)
Lemma describes_normalize (t t' : raw_transition) x s p k i j r : three_body t p k i j r ->
  normalize_transition t = Ok t' -> In x (edge_ids t) -> (describes t' (rank t x) s <-> describes t x s).
Proof.
  intros T X Ix. destruct (normalize_three_body t _ _ _ _ _ T) as (t1 & X1 & T1 & Ids & St & _).
  rewrite X in X1. injection X1 as <-. unfold describes. rewrite (St x Ix).
  assert (Rk : rank t' (rank t x) = rank t x).
  { pose proof T as (G & A & _). destruct (rank_renumbering t A) as [_ R2].
    assert (B : 0 <= rank t x < 5).
    { pose proof (proj1 (R2 (rank t x)) (ex_intro _ x (conj Ix eq_refl))) as B.
      unfold edge_ids at 1 in B. rewrite map_length, (isobar_length _ _ _ _ _ _ G) in B. exact B. }
    unfold rank at 1. rewrite Ids. clear -B. generalize dependent (rank t x). intros n B.
    assert (n = 0 \/ n = 1 \/ n = 2 \/ n = 3 \/ n = 4) as [->|[->|[->|[->| ->]]]] by lia; reflexivity. }
  rewrite Rk. reflexivity.
Qed.
Lemma chain_of_raw_normalize (t t' : raw_transition) c p k i j r : three_body t p k i j r ->
  normalize_transition t = Ok t' -> (chain_of_raw t' c <-> chain_of_raw t c).
Proof.
  intros T X. pose proof (fun x s => describes_normalize t t' x s _ _ _ _ _ T X) as D.
  destruct (normalize_three_body t _ _ _ _ _ T) as (t1 & X1 & T1 & Ids & St & It).
  rewrite X in X1. injection X1 as <-.
  assert (In5 : forall x, In x [p; k; i; j; r] -> In x (edge_ids t)) by (intros x; apply (three_body_ids t _ _ _ _ _ x T)).
  assert (Ct : forall n, coupling_of t' n = coupling_of t n) by (intros n; unfold coupling_of; rewrite It; auto).
  split.
  - intros (p' & k' & i' & j' & r' & s0 & sk & si & sj & oR & R & oa & ob & a & b & T' & S0 & Sk & Si & Sj & SR & QR & Xa & Qa & Xb & Qb & ->).
    destruct (three_body_unique t' t' _ _ _ _ _ _ _ _ _ _ T' T1 eq_refl) as (-> & -> & -> & -> & ->).
    rewrite D in S0, Sk, Si, Sj by (apply In5; cbn; auto 6). rewrite St in SR by (apply In5; cbn; auto 6).
    rewrite Ct in Xa, Xb.
    exists p, k, i, j, r, s0, sk, si, sj, oR, R, oa, ob, a, b. repeat (split; [assumption|]). reflexivity.
  - intros (p' & k' & i' & j' & r' & s0 & sk & si & sj & oR & R & oa & ob & a & b & T' & S0 & Sk & Si & Sj & SR & QR & Xa & Qa & Xb & Qb & ->).
    destruct (three_body_unique t t _ _ _ _ _ _ _ _ _ _ T' T eq_refl) as (-> & -> & -> & -> & ->).
    exists (rank t p), (rank t k), (rank t i), (rank t j), (rank t r), s0, sk, si, sj, oR, R, oa, ob, a, b.
    split; [assumption|]. rewrite !D by (apply In5; cbn; auto 6). rewrite St by (apply In5; cbn; auto 6). rewrite !Ct.
    repeat (split; [assumption|]). reflexivity.
Qed.

(** C49: any labels are brought to 0, 1, 2, 3. *)
Lemma uniform_labels ts : ready ts -> forall t t', In t ts -> In t' ts -> (standard_labels t <-> standard_labels t').
Proof.
  intros (NE & (p & r & TB & Ids & _) & Cv) t t' I I'.
  destruct (TB t I) as (k & i & j & T). destruct (TB t' I') as (k' & i' & j' & T').
  rewrite (standard_ids t _ _ _ _ _ T), (standard_ids t' _ _ _ _ _ T').
  assert (P : Permutation [k; i; j] [k'; i'; j']).
  { destruct (three_body_NoDup_outer t _ _ _ _ _ T) as (N1 & A1 & A2 & _).
    destruct (three_body_NoDup_outer t' _ _ _ _ _ T') as (N2 & B1 & B2 & _).
    apply NoDup_Permutation; auto. intros x.
    pose proof (three_body_ids t _ _ _ _ _ x T) as Q. pose proof (three_body_ids t' _ _ _ _ _ x T') as Q'.
    rewrite <- (Ids t t' I I') in Q'. rewrite Q in Q'. clear -Q' A1 A2 B1 B2.
    assert (Y : forall a b c, In x [p; a; b; c; r] <-> x = p \/ In x [a; b; c] \/ x = r).
    { clear. intros a b c. cbn. intuition. }
    rewrite !Y in Q'. split; intros X.
    - destruct (proj1 Q' (or_intror (or_introl X))) as [->|[Z0| ->]]; auto; contradiction.
    - destruct (proj2 Q' (or_intror (or_introl X))) as [->|[Z0| ->]]; auto; contradiction. }
  split; intros [A B]; split; auto.
  - eapply perm_trans; [symmetry|]; eauto.
  - eapply perm_trans; eauto.
Qed.
Lemma c49_relabelled (ts ts' : list raw_transition) m : ready ts -> (forall t, In t ts -> initial_first t) ->
  (exists t, In t ts /\ ~ standard_labels t) -> normalize_transitions ts = Ok ts' ->
  to_three_body_decay ts m = to_three_body_decay ts' m.
Proof.
  intros R IF (t & I & NS) N. destruct (normalize_ready ts R IF) as (ts1 & N1 & R1 & S1 & F).
  rewrite N in N1. injection N1 as <-.
  destruct ts as [|t0 ts]; [destruct R as [X _]; exfalso; apply X; reflexivity|]. destruct ts' as [|t0' ts']; [destruct R1 as [X _]; exfalso; apply X; reflexivity|].
  pose proof R as (_ & OR & _). pose proof R1 as (_ & OR1 & _).
  destruct (three_body_decay_eq t0 ts m) as (b & B & E). { apply (one_reaction_in (t0 :: ts) t0 OR). left; auto. }
  destruct (three_body_decay_eq t0' ts' m) as (b' & B' & E'). { apply (one_reaction_in (t0' :: ts') t0' OR1). left; auto. }
  rewrite E, E'. assert (b' = true) by (apply B', S1; left; auto). subst b'.
  assert (b = false).
  { destruct b; auto. exfalso. apply NS. apply (uniform_labels (t0 :: ts) R t0 t); auto; [left; auto|apply B; auto]. }
  subst b. cbn [relabel]. rewrite N. reflexivity.
Qed.

Lemma std_dec {E N} (t : transition E N) p k i j r : three_body t p k i j r -> standard_labels t \/ ~ standard_labels t.
Proof.
  intros T. rewrite (standard_ids t _ _ _ _ _ T). destruct (Z.eq_dec p 0); [|right; tauto].
  destruct (list_eq_dec Z.eq_dec (zsort [k; i; j]) [1; 2; 3]) as [X|X].
  - left. split; auto. rewrite <- X. apply zsort_perm.
  - right. intros [_ P]. apply X. apply zsort_123; auto.
Qed.
(** C67, C49 *)
Lemma c67_decay ts : ready ts -> (forall t, In t ts -> initial_first t) ->
  exists d, to_three_body_decay ts (MinLS false) = Ok d /\ valid_decay d /\
  map fst (d_states d) = [0; 1; 2; 3] /\
  (forall t n s, In t ts -> (In (n, s) (d_states d) <->
     exists x, In x (edge_ids t) /\ ~ is_intermediate t x /\ n = rank t x /\ describes t x s)) /\
  StronglySorted clt (d_chains d) /\
  (forall c, In c (d_chains d) <-> exists t, In t ts /\ chain_of_raw t c).
Proof.
  intros R IF. pose proof R as (NE & OR & Cv). pose proof OR as (p & r & TB & _).
  assert (Std : forall ts, ready ts -> (forall t, In t ts -> standard_labels t) ->
    exists d, to_three_body_decay ts (MinLS false) = Ok d /\ valid_decay d /\
    map fst (d_states d) = [0; 1; 2; 3] /\
    (forall t n s, In t ts -> (In (n, s) (d_states d) <->
       exists x, In x (edge_ids t) /\ ~ is_intermediate t x /\ n = rank t x /\ describes t x s)) /\
    StronglySorted clt (d_chains d) /\
    (forall c, In c (d_chains d) <-> exists t, In t ts /\ chain_of_raw t c)).
  { clear. intros ts R S. destruct (c67_standard ts (MinLS false) R S) as (us & l & d & IU & -> & E & V & K & St & Ss & Ch).
    destruct (ready_standard ts R S) as (r & L3 & TB). pose proof R as (NE & OR & Cv).
    exists d. repeat (split; [assumption|]). intros c. rewrite Ch. split.
    - intros (u & Iu & Cu). apply IU in Iu. destruct Iu as (t & It & C). exists t. split; auto.
      destruct (TB t It) as (_ & k & i & j & T & P). apply (chain_of_raw_converts ts t u c k i j r); auto.
    - intros (t & It & Ct). destruct (TB t It) as (_ & k & i & j & T & P).
      destruct (one_reaction_in ts t OR It) as [Tt NI]. destruct (Cv t It) as (Cvt & _).
      apply convert_transition_ok in Cvt; auto. destruct Cvt as [u Cu]. apply convert_transition_converts in Cu; auto.
      exists u. split; [apply IU; eauto|]. apply (chain_of_raw_converts ts t u c k i j r); auto. }
  destruct ts as [|t0 ts0] eqn:Ets; [congruence|]. rewrite <- Ets in *.
  assert (I0 : In t0 ts) by (rewrite Ets; left; auto).
  destruct (TB t0 I0) as (k & i & j & T0). destruct (std_dec t0 _ _ _ _ _ T0) as [SL|NS].
  - apply Std; auto. intros t I. apply (uniform_labels ts R t0 t); auto.
  - destruct (normalize_ready ts R IF) as (ts1 & N1 & R1 & S1 & F).
    rewrite (c49_relabelled ts ts1 (MinLS false) R IF (ex_intro _ t0 (conj I0 NS)) N1).
    destruct (Std ts1 R1 S1) as (d & E & V & K & St & Ss & Ch).
    exists d. split; auto. split; auto. split; auto. split; [|split; auto].
    + intros t n s I. destruct (Forall2_In_l _ _ _ _ F I) as (t' & I' & X). rewrite (St t' n s I').
      destruct (TB t I) as (k' & i' & j' & T). destruct (Cv t I) as (_ & _ & RL).
      destruct (normalize_standard t t' _ _ _ _ _ T (IF t I) RL X) as (T' & _ & _ & Ids').
      pose proof T as (G & A & _). destruct (rank_renumbering t A) as [Rm Rs].
      assert (L5 : length (edge_ids t) = 5%nat). { unfold edge_ids. rewrite map_length. apply (isobar_length _ _ _ _ _ _ G). }
      assert (Rk : forall x, In x [0; 1; 2; 3; 4] -> rank t' x = x).
      { intros x Y. unfold rank. rewrite Ids'. cbn in Y. destruct Y as [<-|[<-|[<-|[<-|[<-|[]]]]]]; reflexivity. }
      assert (R4 : rank t r = 4) by (apply (rank_ends t _ _ _ _ _ T (IF t I) RL)).
      assert (Ir : In r (edge_ids t)). { apply (three_body_ids t _ _ _ _ _ r T). cbn; auto 6. }
      split.
      * intros (x' & Ix & Nx & -> & D). rewrite Ids' in Ix. rewrite Rk by auto.
        destruct (proj2 (Rs x')) as (x & Iy & <-). { rewrite L5. cbn in Ix. cbn. lia. }
        exists x. split; auto. split.
        -- rewrite (three_body_intermediate_iff t _ _ _ _ _ x T).
           rewrite (three_body_intermediate_iff t' _ _ _ _ _ (rank t x) T') in Nx. congruence.
        -- split; auto. apply (describes_normalize t t' x s _ _ _ _ _ T X); auto.
      * intros (x & Ix & Nx & -> & D). exists (rank t x). rewrite (three_body_intermediate_iff t _ _ _ _ _ x T) in Nx.
        assert (Ir' : In (rank t x) [0; 1; 2; 3; 4]).
        { pose proof (proj1 (Rs (rank t x)) (ex_intro _ x (conj Ix eq_refl))) as B. rewrite L5 in B. cbn in *. lia. }
        split; [rewrite Ids'; auto|]. split; [|split].
        -- rewrite (three_body_intermediate_iff t' _ _ _ _ _ (rank t x) T'). intros Q. apply Nx.
           destruct (Z.lt_trichotomy x r) as [L|[L|L]]; auto; apply Rm in L; auto; lia.
        -- rewrite Rk; auto.
        -- apply (describes_normalize t t' x s _ _ _ _ _ T X); auto.
    + intros c. rewrite Ch. split.
      * intros (t' & I' & C). destruct (Forall2_In_r _ _ _ _ F I') as (t & I & X). exists t. split; auto.
        destruct (TB t I) as (k' & i' & j' & T). apply (chain_of_raw_normalize t t' c _ _ _ _ _ T X); auto.
      * intros (t & I & C). destruct (Forall2_In_l _ _ _ _ F I) as (t' & I' & X). exists t'. split; auto.
        destruct (TB t I) as (k' & i' & j' & T). apply (chain_of_raw_normalize t t' c _ _ _ _ _ T X); auto.
Qed.

(** C66: filtering nothing *)
Lemma filter_nothing r us l : good r us -> us <> [] -> NoDup us -> filter_min_ls (reiterable us) (Some []) = Ok l ->
  forall u, In u l <-> In u us.
Proof.
  intros G NE ND E.
  destruct (filter_spec ls_total us (Some []) NE (good_three_body r us G) (good_unambiguous r us _ G))
    as (l' & E' & _ & _ & A & B & _).
  assert (Q : Ok l = Ok l') by (etransitivity; [symmetry; exact E|exact E']). injection Q as <-.
  assert (Same : forall t u, In t us -> minimal_of (filtered_nodes (Some [])) us t u -> tr_topology u = tr_topology t -> tr_states u = tr_states t -> u = t).
  { intros t u It (SG & _) X Y. cbn [filtered_nodes] in SG.
    assert (C : forall n, coupling_of t n = coupling_of u n).
    { destruct SG as (? & ? & ? & ? & ? & ? & ? & ? & ? & ? & _ & _ & _ & _ & _ & Q). intros n. apply Q. intros []. }
    assert (KI : map fst (tr_interactions u) = [0; 1] /\ map fst (tr_interactions t) = [0; 1]).
    { destruct SG as (? & ? & ? & ? & ? & ? & ? & ? & ? & ? & T1 & T2 & _). split; [apply T2|apply T1]. }
    destruct KI as [K1 K2]. destruct t as [g s i], u as [g' s' i']. cbn [tr_topology tr_states tr_interactions] in *.
    subst. f_equal. apply dict_ext.
    - unfold dkeys. rewrite K1. repeat constructor; cbn; intuition discriminate.
    - unfold dkeys. congruence.
    - intros n _. symmetry. apply (C n). }
  intros u. split.
  - intros I. destruct (B u I) as (t & It & X & Y & M). rewrite (Same t u); auto.
  - intros I. destruct (A u I) as (v & Iv & M). destruct (B v Iv) as (t & It & X & Y & M2).
    assert (same_group [] u v) as SG by apply M. assert (same_group [] t v) as SG2 by apply M2.
    assert (v = t) by (apply (Same t v); auto). subst v.
    assert (u = t).
    { apply (same_transition [] u t); auto.
      - apply (good_process r us G); auto.
      - destruct SG as (? & ? & ? & ? & ? & ? & ? & ? & ? & ? & _ & _ & _ & _ & _ & Q). apply Q. intros [].
      - destruct SG as (? & ? & ? & ? & ? & ? & ? & ? & ? & ? & _ & _ & _ & _ & _ & Q). apply Q. intros []. }
    subst; auto.
Qed.
Lemma strictly_sorted_unique {A} `{CmpLaws A} (l l' : list A) : StronglySorted clt l -> StronglySorted clt l' ->
  (forall x, In x l <-> In x l') -> l = l'.
Proof.
  intros S S' X. assert (P : Permutation l l').
  { apply NoDup_Permutation; auto; eapply strictly_sorted_NoDup; eauto. }
  assert (Q : forall l, StronglySorted clt l -> StronglySorted cle l).
  { clear. intros l S. induction S as [|a l S IH F]; constructor; auto. eapply Forall_impl; [|exact F]. intros b Y. left. exact Y. }
  apply StronglySorted_unique; auto.
Qed.
Lemma c66_standard ts : ready ts -> (forall t, In t ts -> standard_labels t) ->
  to_three_body_decay ts (MinLSPair false false) = to_three_body_decay ts (MinLS false) /\
  to_three_body_decay ts (MinLSPair true true) = to_three_body_decay ts (MinLS true).
Proof.
  intros R S. pose proof R as (NT & OR & _). destruct (ready_convert ts R S) as (r & us & C & G & NE & ND & IU).
  assert (Eq : forall m, to_three_body_decay ts m = let* l := select m us in finish l).
  { intros m. destruct ts as [|t0 ts]; [congruence|].
    destruct (three_body_decay_eq t0 ts m) as (b & B & E). { apply (one_reaction_in (t0 :: ts) t0 OR). left; auto. }
    rewrite E. assert (b = true) by (apply B, S; left; auto). subst b. cbn [relabel bind]. rewrite C. reflexivity. }
  rewrite !Eq. split.
  - cbn [select app]. destruct (filter_good r us (Some []) G NE) as (l & El & NEl & NDl & Gl & Fl). rewrite El. cbn [bind].
    pose proof (filter_nothing r us l G NE ND El) as Same.
    destruct (finish_ok r l Gl NEl NDl) as (d & Fd & V & K & St & Ix & Ss & Ch).
    destruct (finish_ok r us G NE ND) as (d' & Fd' & V' & K' & St' & Ix' & Ss' & Ch'). rewrite Fd, Fd'. f_equal.
    destruct d as [st cs], d' as [st' cs']. cbn [d_states d_chains] in *. f_equal.
    + destruct us as [|v us0] eqn:Eus; [congruence|]. rewrite <- Eus in *. assert (Iv : In v us) by (rewrite Eus; left; auto).
      assert (NK : NoDup [0; 1; 2; 3]) by (repeat constructor; cbn; intuition discriminate).
      assert (NS : NoDup (map fst st)) by (rewrite K; auto). assert (NS' : NoDup (map fst st')) by (rewrite K'; auto).
      apply dict_ext; auto; [unfold dkeys; congruence|]. intros x X.
      destruct (In_keys_dget st x X) as [s Q]. rewrite Q. symmetry. apply In_dget; auto.
      apply (St' v x s Iv). apply (St v x s (proj2 (Same v) Iv)). apply dget_Some_In; auto.
    + apply strictly_sorted_unique; auto. intros c. rewrite Ch, Ch'.
      split; intros (u & I & X); exists u; split; auto; apply Same; auto.
  - cbn [select app]. f_equal. unfold filter_min_ls, reiterable. rewrite available_ids; auto. apply (good_three_body r us G).
Qed.
Lemma c66_pairs ts : ready ts -> (forall t, In t ts -> initial_first t) ->
  to_three_body_decay ts (MinLSPair false false) = to_three_body_decay ts (MinLS false) /\
  to_three_body_decay ts (MinLSPair true true) = to_three_body_decay ts (MinLS true).
Proof.
  intros R IF. pose proof R as (NE & OR & Cv). pose proof OR as (p & r & TB & _).
  destruct ts as [|t0 ts0] eqn:Ets; [congruence|]. rewrite <- Ets in *.
  assert (I0 : In t0 ts) by (rewrite Ets; left; auto).
  destruct (TB t0 I0) as (k & i & j & T0). destruct (std_dec t0 _ _ _ _ _ T0) as [SL|NS].
  - apply c66_standard; auto. intros t I. apply (uniform_labels ts R t0 t); auto.
  - destruct (normalize_ready ts R IF) as (ts1 & N1 & R1 & S1 & F).
    rewrite !(c49_relabelled ts ts1 _ R IF (ex_intro _ t0 (conj I0 NS)) N1). apply c66_standard; auto.
Qed.
