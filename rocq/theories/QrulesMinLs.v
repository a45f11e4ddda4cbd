(** What the argument [min_ls] of [to_three_body_decay] selects (C68) *)
From Coq Require Import String ZArith QArith Qcanon List Bool Lia Sorted Permutation.
From Verif Require Import Prelude Spin SpinFacts Decay DecayFacts DecayProofs Qrules SpecQrules QrulesFacts QrulesNorm QrulesThree QrulesFilter QrulesConvert QrulesDecay QrulesLabels.
Import ListNotations.
Local Open Scope string_scope.
Local Open Scope Z_scope.
Local Open Scope list_scope.

Lemma alike_group ids r (u u' : dpd_transition) c c' : proper r u -> proper r u' ->
  (forall x, x <> r -> state_of u x = state_of u' x) ->
  chain_of_transition u c -> chain_of_transition u' c' ->
  (same_group ids u u' <-> chains_alike ids c c').
Proof.
  intros Pu Pu' SP.
  intros (p & k & i & j & r1 & s0 & sk & si & sj & R & a & b & T & S0 & Sk & Si & Sj & Sr & C0 & C1 & ->).
  intros (p' & k' & i' & j' & r' & s0' & sk' & si' & sj' & R' & a' & b' & T' & S0' & Sk' & Si' & Sj' & Sr' & C0' & C1' & ->).
  assert (r1 = r /\ p = 0) as [-> ->].
  { destruct Pu as (_ & (k1 & i1 & j1 & T1 & _) & _). pose proof (three_body_unique u u _ _ _ _ _ _ _ _ _ _ T T1 eq_refl). tauto. }
  assert (r' = r /\ p' = 0) as [-> ->].
  { destruct Pu' as (_ & (k1 & i1 & j1 & T1 & _) & _). pose proof (three_body_unique u' u' _ _ _ _ _ _ _ _ _ _ T' T1 eq_refl). tauto. }
  assert (P : Permutation [k; i; j] [1; 2; 3]).
  { destruct Pu as (_ & (k1 & i1 & j1 & T1 & P) & _).
    destruct (three_body_unique u u _ _ _ _ _ _ _ _ _ _ T T1 eq_refl) as (_ & -> & -> & -> & _). auto. }
  assert (P' : Permutation [k'; i'; j'] [1; 2; 3]).
  { destruct Pu' as (_ & (k1 & i1 & j1 & T1 & P') & _).
    destruct (three_body_unique u' u' _ _ _ _ _ _ _ _ _ _ T' T1 eq_refl) as (_ & -> & -> & -> & _). auto. }
  assert (Ix : forall x s, In x [0; k; i; j] -> state_of u x = Some (PSt s) -> st_index s = x).
  { intros x s X Q. destruct (proper_outer r u k i j x Pu T X) as (y & Y & <- & _). congruence. }
  assert (Ix' : forall x s, In x [0; k'; i'; j'] -> state_of u' x = Some (PSt s) -> st_index s = x).
  { intros x s X Q. destruct (proper_outer r u' k' i' j' x Pu' T' X) as (y & Y & <- & _). congruence. }
  assert (Lt' : forall x, In x [0; k'; i'; j'] -> x <> r).
  { intros x X. pose proof (outer_lt r u' k' i' j' x Pu' T' X). lia. }
  split.
  - intros (p1 & k1 & i1 & j1 & r1 & p2 & k2 & i2 & j2 & r2 & T1 & T2 & X1 & X2 & X3 & X4).
    destruct (three_body_unique u u _ _ _ _ _ _ _ _ _ _ T T1 eq_refl) as (<- & <- & <- & <- & <-).
    destruct (three_body_unique u' u' _ _ _ _ _ _ _ _ _ _ T' T2 eq_refl) as (<- & <- & <- & <- & <-).
    subst i' j'.
    assert (k = k').
    { pose proof (Permutation_in k (perm_trans P (Permutation_sym P')) (or_introl eq_refl)) as X.
      destruct (three_body_NoDup_outer u _ _ _ _ _ T) as (ND & _). inversion ND as [|? ? N _]; subst.
      destruct X as [X|X]; auto. contradiction. }
    subst k'. rewrite SP in S0, Sk, Si, Sj by (apply Lt'; cbn; auto 6).
    assert (s0 = s0' /\ sk = sk' /\ si = si' /\ sj = sj' /\ R = R') as (<- & <- & <- & <- & <-).
    { repeat split; congruence. }
    exists (PSt s0), (PPart R), (Leaf (PSt si)), (Leaf (PSt sj)), (Leaf (PSt sk)), a, b, a', b'.
    split; [reflexivity|]. split; [reflexivity|]. split; intros N.
    + specialize (X4 0 N). congruence.
    + specialize (X4 1 N). congruence.
  - intros (t0 & Q & x & y & z & e & f & e' & f' & E1 & E2 & F1 & F2).
    injection E1 as <- <- <- <- <- <- <-. injection E2 as <- <- <- <- <- <- <-.
    assert (i = i'). { rewrite <- (Ix i si'), <- (Ix' i' si'); cbn; auto. }
    assert (j = j'). { rewrite <- (Ix j sj'), <- (Ix' j' sj'); cbn; auto 6. }
    subst i' j'.
    exists 0, k, i, j, r, 0, k', i, j, r. split; auto. split; auto. split; auto. split; auto. split; [congruence|].
    intros n N. destruct (Z.eq_dec n 0) as [->|N0]; [rewrite C0, C0', F1; auto|].
    destruct (Z.eq_dec n 1) as [->|N1]; [rewrite C1, C1', F2; auto|].
    assert (X : forall v : dpd_transition, map fst (tr_interactions v) = [0; 1] -> coupling_of v n = None).
    { intros v Kv. unfold coupling_of. apply dget_None. unfold dkeys. rewrite Kv. cbn. intuition. }
    rewrite !X; auto; [apply T'|apply T].
Qed.
Lemma chain_coupling (u : dpd_transition) c n x : chain_of_transition u c -> n = 0 \/ n = 1 ->
  (coupling_of u n = Some x <-> coupling_at n c x).
Proof.
  intros (p & k & i & j & r1 & s0 & sk & si & sj & R & a & b & T & S0 & Sk & Si & Sj & Sr & C0 & C1 & ->) N. split.
  - intros C. exists (PSt s0), (PPart R), (Leaf (PSt si)), (Leaf (PSt sj)), (Leaf (PSt sk)), a, b. split; auto.
    destruct N as [->| ->]; [left|right]; split; congruence.
  - intros (s1 & R1 & x1 & x2 & x3 & e & f & E & [[-> ->]|[-> ->]]); injection E as <- <- <- <- <- <- <-; auto.
Qed.

Lemma least_iff {M} `{Cmp M} (P Q : option M -> Prop) c : (forall x, P x <-> Q x) -> least_coupling P c -> least_coupling Q c.
Proof.
  intros X (A & B). split; [apply X; auto|]. destruct c as [m|]; auto. intros c' C'. apply B, X, C'.
Qed.

Lemma c68_standard_pair ts p d0 d : ready ts -> (forall t, In t ts -> standard_labels t) ->
  to_three_body_decay ts (MinLS false) = Ok d0 ->
  exists d1, to_three_body_decay ts (MinLSPair p d) = Ok d1 /\ minimal_selection (min_ls_nodes (MinLSPair p d)) d0 d1.
Proof.
  intros R S E0. pose proof R as (NT & OR & _). destruct (ready_convert ts R S) as (r & us & C & G & NE & ND & IU).
  assert (Eq : forall m, to_three_body_decay ts m = let* l := select m us in finish l).
  { intros m. destruct ts as [|t0 ts]; [congruence|].
    destruct (three_body_decay_eq t0 ts m) as (b & B & E). { apply (one_reaction_in (t0 :: ts) t0 OR). left; auto. }
    rewrite E. assert (b = true) by (apply B, S; left; auto). subst b. cbn [relabel bind]. rewrite C. reflexivity. }
  rewrite Eq in *. cbn [select bind] in *. unfold min_ls_nodes.
  set (ids := (if p then [0] else []) ++ (if d then [1] else [])).
  assert (I01 : forall n, In n ids -> n = 0 \/ n = 1).
  { subst ids. intros n. destruct p, d; cbn; intuition. }
  destruct (filter_good r us (Some ids) G NE) as (l & El & NEl & NDl & Gl & Fl).
  destruct (filter_spec ls_total us (Some ids) NE (good_three_body r us G) (good_unambiguous r us _ G))
    as (l' & E' & _ & _ & A & B & Un).
  assert (Q : Ok l = Ok l') by (etransitivity; [symmetry; exact El|exact E']). injection Q as <-.
  cbn [filtered_nodes] in A, B, Un. rewrite El. cbn [bind].
  destruct (finish_ok r l Gl NEl NDl) as (d1 & Fd & V & K & St & Ix & Ss & Ch). exists d1. split; auto.
  destruct (finish_ok r us G NE ND) as (d0' & Fd' & V' & K' & St' & Ix' & Ss' & Ch'). rewrite E0 in Fd'. injection Fd' as <-.
  pose proof G as (G1 & G2 & _). pose proof Gl as (Gl1 & Gl2 & _).
  assert (X12 : forall u t x, In u l -> In t us -> x <> r -> state_of u x = state_of t x).
  { intros u t x Iu It Nx. destruct (Fl u Iu) as (t' & It' & Q). unfold state_of. rewrite Q. apply (G2 t' t x); auto. }
  assert (Al : forall u t c c0, In u l -> In t us -> chain_of_transition u c -> chain_of_transition t c0 ->
    (same_group ids u t <-> chains_alike ids c c0)).
  { intros u t c c0 Iu It Cu Ct. apply (alike_group ids r u t c c0); auto. }
  split; [|split; [|split; [|split]]].
  - destruct d1 as [st cs], d0 as [st' cs']. cbn [d_states d_chains] in *.
    destruct l as [|v l0] eqn:Els; [congruence|]. rewrite <- Els in *. assert (Iv : In v l) by (rewrite Els; left; auto).
    destruct (Fl v Iv) as (t & It & Qs).
    assert (NK : NoDup [0; 1; 2; 3]) by (repeat constructor; cbn; intuition discriminate).
    assert (NS : NoDup (map fst st)) by (rewrite K; auto). assert (NS' : NoDup (map fst st')) by (rewrite K'; auto).
    apply dict_ext; auto; [unfold dkeys; congruence|]. intros x X.
    destruct (In_keys_dget st x X) as [s Q]. rewrite Q. symmetry. apply In_dget; auto.
    apply (St' t x s It). unfold state_of. rewrite <- Qs. apply (St v x s Iv). apply dget_Some_In; auto.
  - intros c0 I0. apply Ch' in I0. destruct I0 as (t & It & Ct). destruct (A t It) as (u & Iu & (SG & _)).
    destruct (chain_ok r u (Gl1 u Iu)) as (c & _ & Cu & _). exists c. split; [apply Ch; eauto|].
    apply (alike_group ids r t u c0 c); auto. intros x Nx. symmetry. auto.
  - intros c Ic. apply Ch in Ic. destruct Ic as (u & Iu & Cu). destruct (B u Iu) as (t & It & _ & _ & (SG & _)).
    destruct (chain_ok r t (G1 t It)) as (c0 & _ & Ct & _). exists c0. split; [apply Ch'; eauto|].
    apply (Al u t c c0); auto. apply same_group_sym. exact SG.
  - intros c c' Ic Ic' X. apply Ch in Ic. apply Ch in Ic'. destruct Ic as (u & Iu & Cu). destruct Ic' as (u' & Iu' & Cu').
    assert (u = u').
    { apply Un; auto. apply (alike_group ids r u u' c c'); auto. }
    subst u'. exact (chain_of_fun u c c' Cu Cu').
  - intros c n Ic In_. pose proof (I01 n In_) as N01. apply Ch in Ic. destruct Ic as (u & Iu & Cu).
    destruct (B u Iu) as (t & It & _ & _ & (SG & M)). destruct (M n) as (x & Cx & Lx); [cbn; intuition|auto|].
    exists x. split; [apply (chain_coupling u c n x Cu N01); auto|].
    eapply least_iff; [|exact Lx]. intros y. unfold coupling_in_group. split.
    + intros (t' & It' & SG' & Cy). destruct (chain_ok r t' (G1 t' It')) as (c0 & _ & Ct & _).
      exists c0. split; [apply Ch'; eauto|]. split; [|apply (chain_coupling t' c0 n y Ct N01); auto].
      apply (Al u t' c c0); auto. eapply same_group_trans; [apply same_group_sym; exact SG|exact SG'].
    + intros (c0 & I0 & Xa & Cy). apply Ch' in I0. destruct I0 as (t' & It' & Ct). exists t'. split; auto.
      split; [|apply (chain_coupling t' c0 n y Ct N01); auto].
      eapply same_group_trans; [exact SG|]. apply (Al u t' c c0); auto.
Qed.
Lemma c68_min_ls ts m d0 : ready ts -> (forall t, In t ts -> initial_first t) ->
  to_three_body_decay ts (MinLS false) = Ok d0 ->
  exists d, to_three_body_decay ts m = Ok d /\ minimal_selection (min_ls_nodes m) d0 d.
Proof.
  intros R IF.
  assert (P : forall p d, to_three_body_decay ts (MinLS false) = Ok d0 ->
    exists d1, to_three_body_decay ts (MinLSPair p d) = Ok d1 /\ minimal_selection (min_ls_nodes (MinLSPair p d)) d0 d1).
  { intros p0 d E. pose proof R as (NE & OR & Cv). pose proof OR as (p & r & TB & _).
    destruct ts as [|t0 ts0] eqn:Ets; [congruence|]. rewrite <- Ets in *.
    assert (I0 : In t0 ts) by (rewrite Ets; left; auto).
    destruct (TB t0 I0) as (k & i & j & T0). destruct (std_dec t0 _ _ _ _ _ T0) as [SL|NS].
    - apply c68_standard_pair; auto. intros t I. apply (uniform_labels ts R t0 t); auto.
    - destruct (normalize_ready ts R IF) as (ts1 & N1 & R1 & S1 & F).
      rewrite !(c49_relabelled ts ts1 _ R IF (ex_intro _ t0 (conj I0 NS)) N1) in *. apply c68_standard_pair; auto. }
  intros E. destruct (c66_pairs ts R IF) as [Q1 Q2]. destruct m as [[|]|p d].
  - rewrite <- Q2. apply (P true true E).
  - rewrite <- Q1. apply (P false false E).
  - apply P; auto.
Qed.
