(** From transitions to a decay (C46, C49, C66, C67). *)
From Coq Require Import String ZArith QArith Qcanon List Bool Lia Sorted Permutation.
From Verif Require Import Prelude Spin SpinFacts Decay DecayFacts DecayProofs Qrules SpecQrules QrulesFacts QrulesNorm QrulesThree QrulesFilter QrulesConvert.
Import ListNotations.
Local Open Scope string_scope.
Local Open Scope Z_scope.
Local Open Scope list_scope.

(** ** The phases of [to_three_body_decay] *)
Definition select (m : min_ls_arg) (us : list dpd_transition) : res (list dpd_transition) :=
  match m with
  | MinLS false => Ok us
  | MinLS true => filter_min_ls (reiterable us) None
  | MinLSPair p d => filter_min_ls (reiterable us) (Some ((if p then [0] else []) ++ (if d then [1] else [])))
  end.
Definition finish (us : list dpd_transition) : res decay :=
  match us with
  | [] => Err IndexError
  | some :: _ =>
      let* ini := initial_states some in
      match ini with
      | [] => Err ValueError
      | (i0, s0) :: _ =>
          let* st0 := q_to_state (edge_of_pobj s0) (Some i0) in
          let* fin := tr_final_states some in
          let* sts := mapM (fun ks => q_to_state (edge_of_pobj (snd ks)) (Some (fst ks))) fin in
          let* chains := mapM to_decay_chain us in
          let* chains := sorted chains in
          mk_decay (dict_of (map (fun s => (st_index s, s)) (st0 :: sts))) chains
      end
  end.
Definition relabel (b : bool) (ts : list raw_transition) : res (list raw_transition) :=
  if b then Ok ts else normalize_transitions ts.

Lemma roles_ok {E N} (t : transition E N) : is_transition t -> exists ini fin,
  initial_states t = Ok ini /\ tr_final_states t = Ok fin /\
  (forall x, In x (dkeys ini) <-> is_initial t x) /\ (forall x, In x (dkeys fin) <-> is_final t x).
Proof.
  intros (ND & NS & K).
  assert (G : forall p, exists d, filter_states (ids_where p (tr_topology t)) t = Ok d /\
    forall x, In x (dkeys d) <-> exists e, edge_of t x = Some e /\ p e = true).
  { intros p. destruct (filter_states_ok (ids_where p (tr_topology t)) t) as (d & E1 & E2 & _).
    - intros x X. apply K. rewrite ids_where_In in X by exact ND. destruct X as (e & X & _). eapply dget_In_keys; eauto.
    - exists d. split; auto. intros x. rewrite E2. rewrite ids_where_In by exact ND. reflexivity. }
  destruct (G (fun e => is_none (e_orig e))) as (ini & I1 & I2).
  destruct (G (fun e => is_none (e_end e))) as (fin & F1 & F2).
  exists ini, fin. split; [exact I1|]. split; [exact F1|].
  unfold is_initial, is_final. split; intros x.
  - rewrite I2. split; intros (e & X & Y); exists e; split; auto; apply is_none_true; auto.
  - rewrite F2. split; intros (e & X & Y); exists e; split; auto; apply is_none_true; auto.
Qed.
Lemma three_body_decay_eq (t0 : raw_transition) (ts : list raw_transition) m : is_transition t0 -> exists b,
  (b = true <-> standard_labels t0) /\
  to_three_body_decay (t0 :: ts) m =
    let* ts1 := relabel b (t0 :: ts) in
    let* us := convert_transitions ts1 in
    let* l := select m us in finish l.
Proof.
  intros T. destruct (roles_ok t0 T) as (ini & fin & E1 & E2 & I & F).
  exists (set_eqb (dkeys ini) [0] && set_eqb (dkeys fin) [1; 2; 3]). split.
  - rewrite andb_true_iff, !set_eqb_spec. unfold standard_labels. split.
    + intros [A B]. split; intros x.
      * rewrite <- I, A. cbn. intuition.
      * rewrite <- F, B. cbn. intuition.
    + intros [A B]. split; intros x.
      * rewrite I, A. cbn. intuition.
      * rewrite F, B. cbn. intuition.
  - unfold to_three_body_decay. rewrite E1, E2. cbn [bind]. unfold relabel.
    destruct (set_eqb (dkeys ini) [0]); destruct (set_eqb (dkeys fin) [1; 2; 3]); cbn [negb orb andb]; reflexivity.
Qed.

(** C46 *)
Lemma c46_order (ts ts' : list raw_transition) m d : (forall t, In t ts -> is_transition t) ->
  (forall t, In t ts <-> In t ts') ->
  (forall t t', In t ts -> In t' ts -> (standard_labels t <-> standard_labels t')) ->
  to_three_body_decay ts m = Ok d -> to_three_body_decay ts' m = Ok d.
Proof.
  intros T S L X. destruct ts as [|t0 ts]; [discriminate|].
  destruct ts' as [|t0' ts']; [destruct (proj1 (S t0)); left; auto|].
  assert (I0 : In t0' (t0 :: ts)) by (apply S; left; auto).
  destruct (three_body_decay_eq t0 ts m (T _ (or_introl eq_refl))) as (b & B & E).
  destruct (three_body_decay_eq t0' ts' m (T _ I0)) as (b' & B' & E').
  assert (b' = b).
  { pose proof (L t0 t0' (or_introl eq_refl) I0). destruct b, b'; auto.
    - tauto.
    - symmetry. tauto. }
  subst b'. rewrite E'. rewrite E in X. clear E E'.
  destruct (relabel b (t0 :: ts)) as [ts1|] eqn:R; [|discriminate]. cbn [bind] in X.
  assert (exists ts1', relabel b (t0' :: ts') = Ok ts1' /\ forall t, In t ts1 <-> In t ts1') as (ts1' & -> & S1).
  { unfold relabel in *. destruct b.
    - injection R as <-. eauto.
    - eapply mapM_same; eauto. }
  cbn [bind]. destruct (convert_transitions ts1) as [us|] eqn:C; [|discriminate].
  rewrite (convert_transitions_same _ _ _ C S1). exact X.
Qed.

Lemma NoDup_app_l {A} (l l' : list A) : NoDup (l ++ l') -> NoDup l.
Proof.
  induction l as [|a l IH]; intros X; [constructor|]. inversion X as [|? ? X1 X2]; subst.
  constructor; auto. intros I. apply X1. apply in_or_app; auto.
Qed.

(** ** Comparable values *)
Lemma cmp_then_ok (a b : res comparison) : is_ok a -> is_ok b -> is_ok (cmp_then a b).
Proof. intros [x ->] [y ->]. destruct x; eexists; reflexivity. Qed.
Lemma particle_cmp_ok p q : p_parity p <> None -> p_parity q <> None -> is_ok (cmp p q).
Proof.
  intros P Q. change (cmp p q) with
    (cmp_then (cmp (p_name p) (p_name q)) (cmp_then (cmp (p_latex p) (p_latex q))
      (cmp_then (cmp (p_spin p) (p_spin q)) (cmp_then (cmp (p_parity p) (p_parity q))
        (cmp_then (cmp (p_mass p) (p_mass q)) (cmp (p_width p) (p_width q))))))).
  repeat apply cmp_then_ok; try (eexists; reflexivity).
  destruct (p_parity p), (p_parity q); try congruence. eexists; reflexivity.
Qed.
Lemma state_cmp_ok a b : p_parity (st_particle a) <> None -> p_parity (st_particle b) <> None -> is_ok (cmp a b).
Proof.
  intros P Q. change (cmp a b) with
    (cmp_then (cmp (st_particle a) (st_particle b)) (cmp (st_index a) (st_index b))).
  apply cmp_then_ok; [apply particle_cmp_ok; auto|eexists; reflexivity].
Qed.
Lemma ls_option_cmp_ok (c c' : option ls_coupling) : (c = None <-> c' = None) -> is_ok (cmp c c').
Proof.
  intros X. destruct c as [c|], c' as [c'|].
  - apply ls_total.
  - destruct X as [_ X]. discriminate X; auto.
  - destruct X as [X _]. discriminate X; auto.
  - eexists; reflexivity.
Qed.

(** ** Converted transitions of one reaction *)
Definition proper_state (x : Z) (o : option pobj) : Prop :=
  exists s, o = Some (PSt s) /\ st_index s = x /\ p_parity (st_particle s) <> None.
Definition proper_resonance (o : option pobj) : Prop :=
  exists R, o = Some (PPart R) /\ p_parity R <> None.
Definition proper (r : Z) (u : dpd_transition) : Prop :=
  3 < r /\ (exists k i j, three_body u 0 k i j r /\ Permutation [k; i; j] [1; 2; 3]) /\
  (forall x, In x [0; 1; 2; 3] -> proper_state x (state_of u x)) /\ proper_resonance (state_of u r).
Definition good (r : Z) (us : list dpd_transition) : Prop :=
  (forall u, In u us -> proper r u) /\
  (forall u u' x, In u us -> In u' us -> x <> r -> state_of u x = state_of u' x) /\
  uniform_couplings us.

Lemma proper_outer r u k i j x : proper r u -> three_body u 0 k i j r -> In x [0; k; i; j] ->
  proper_state x (state_of u x).
Proof.
  intros (_ & (k' & i' & j' & T' & P) & S & _) T X.
  destruct (three_body_unique u u _ _ _ _ _ _ _ _ _ _ T T' eq_refl) as (_ & -> & -> & -> & _).
  apply S. destruct X as [<-|X]; [left; auto|]. right.
  apply (Permutation_in _ P) in X. exact X.
Qed.
Lemma outer_lt r u k i j x : proper r u -> three_body u 0 k i j r -> In x [0; k; i; j] -> x < r.
Proof.
  intros (L & (k' & i' & j' & T' & P) & S & _) T X.
  destruct (three_body_unique u u _ _ _ _ _ _ _ _ _ _ T T' eq_refl) as (_ & -> & -> & -> & _).
  destruct X as [<-|X]; [lia|]. apply (Permutation_in _ P) in X. cbn in X. lia.
Qed.

Lemma chain_ok r u : proper r u -> exists c, to_decay_chain u = Ok c /\ chain_of_transition u c /\ valid_chain c.
Proof.
  intros Pu. pose proof Pu as (L & (k & i & j & T & P) & _ & (R & SR & _)).
  destruct (proper_outer r u k i j 0 Pu T) as (s0 & S0 & I0 & _); [cbn; auto|].
  destruct (proper_outer r u k i j k Pu T) as (sk & Sk & Ik & _); [cbn; auto|].
  destruct (proper_outer r u k i j i Pu T) as (si & Si & Ii & _); [cbn; auto|].
  destruct (proper_outer r u k i j j Pu T) as (sj & Sj & Ij & _); [cbn; auto|].
  assert (Lk : k < r) by (apply (outer_lt r u k i j k Pu T); cbn; auto).
  destruct (three_body_interactions u) as (prod & dec & In_ & C0 & C1); [exists 0, k, i, j, r; auto|].
  set (c := Node (PSt s0) (Node (PPart R) (Leaf (PSt si)) (Leaf (PSt sj)) dec) (Leaf (PSt sk)) prod).
  assert (V : mk_chain c = Ok c).
  { apply mk_chain_ok. split; auto.
    exists s0, (Node (PPart R) (Leaf (PSt si)) (Leaf (PSt sj)) dec), (Leaf (PSt sk)), prod.
    exists (PPart R), (Leaf (PSt si)), (Leaf (PSt sj)), dec, sk, si, sj.
    split; [reflexivity|]. split; [left; auto|]. split; [reflexivity|]. split; [reflexivity|].
    rewrite I0, Ii, Ij, Ik. destruct T as ((_ & _ & ND & _) & _). clear -ND.
    eapply Permutation_NoDup with (l := [0; k; i; j]).
    - constructor. apply (Permutation_cons_append [i; j] k).
    - change [0; k; i; j; r] with ([0; k; i; j] ++ [r]) in ND. eapply NoDup_app_l. exact ND. }
  exists c. split; [|split; [|exact V]].
  - unfold to_decay_chain.
    destruct (three_body_initial u _ _ _ _ _ T) as (s0' & S0' & ->). cbn [bind length Nat.eqb negb].
    destruct (three_body_final u _ _ _ _ _ T) as (fin & Ef & Kf & _). rewrite Ef. cbn [bind].
    assert (Lf : length fin = 3%nat).
    { rewrite <- (map_length fst). rewrite Kf, zsort_length. reflexivity. }
    rewrite Lf. cbn [Nat.eqb negb]. rewrite In_. cbn [length Nat.eqb negb dvalues map snd].
    rewrite (isobar_from0 _ _ _ _ _ _ (proj1 T)), (isobar_from1 _ _ _ _ _ _ (proj1 T)),
      (isobar_to1 _ _ _ _ _ _ (proj1 T)). rewrite zsort2 by auto.
    unfold dgetitem. unfold state_of in *. rewrite SR, Si, Sj, Sk. cbn [bind].
    rewrite S0 in S0'. injection S0' as <-. exact V.
  - exists 0, k, i, j, r, s0, sk, si, sj, R, prod, dec. repeat (split; [assumption|]). reflexivity.
Qed.
Lemma chain_of_fun u c c' : chain_of_transition u c -> chain_of_transition u c' -> c = c'.
Proof.
  intros (p & k & i & j & r & s0 & sk & si & sj & R & a & b & T & S0 & Sk & Si & Sj & Sr & C0 & C1 & ->).
  intros (p' & k' & i' & j' & r' & s0' & sk' & si' & sj' & R' & a' & b' & T' & S0' & Sk' & Si' & Sj' & Sr' & C0' & C1' & ->).
  destruct (three_body_unique u u _ _ _ _ _ _ _ _ _ _ T T' eq_refl) as (-> & -> & -> & -> & ->).
  congruence.
Qed.
Lemma good_process r us : good r us -> forall u u', In u us -> In u' us -> same_process u u'.
Proof.
  intros (G1 & G2 & _) u u' I I'. destruct (G1 u I) as (_ & (k & i & j & T & P) & _).
  destruct (G1 u' I') as (_ & (k' & i' & j' & T' & P') & _). exists 0, r.
  split; [eauto|]. split; [eauto|]. split.
  - apply ascending_unique; try apply T; try apply T'. intros x.
    rewrite (three_body_ids u _ _ _ _ _ x T), (three_body_ids u' _ _ _ _ _ x T').
    assert (Q : Permutation [k; i; j] [k'; i'; j']) by (eapply perm_trans; [exact P|symmetry; exact P']).
    assert (X : In x [k; i; j] <-> In x [k'; i'; j']).
    { split; apply Permutation_in; [|symmetry]; auto. }
    assert (Y : forall a b c, In x [0; a; b; c; r] <-> x = 0 \/ In x [a; b; c] \/ x = r).
    { clear. intros a b c. cbn. intuition. }
    rewrite !Y, X. reflexivity.
  - intros x N. apply G2; auto.
Qed.
Lemma chain_inj r us u u' c : good r us -> In u us -> In u' us ->
  chain_of_transition u c -> chain_of_transition u' c -> u = u'.
Proof.
  intros G I I'. pose proof (good_process r us G u u' I I') as SP. destruct G as (G1 & _).
  pose proof (G1 u I) as Pu. pose proof (G1 u' I') as Pu'.
  intros (p & k & i & j & r1 & s0 & sk & si & sj & R & a & b & T & S0 & Sk & Si & Sj & Sr & C0 & C1 & ->).
  intros (p' & k' & i' & j' & r' & s0' & sk' & si' & sj' & R' & a' & b' & T' & S0' & Sk' & Si' & Sj' & Sr' & C0' & C1' & E).
  injection E as <- <- <- <- <- <- <-.
  assert (r1 = r /\ p = 0) as [-> ->].
  { destruct Pu as (_ & (k1 & i1 & j1 & T1 & _) & _). pose proof (three_body_unique u u _ _ _ _ _ _ _ _ _ _ T T1 eq_refl). tauto. }
  assert (r' = r /\ p' = 0) as [-> ->].
  { destruct Pu' as (_ & (k1 & i1 & j1 & T1 & _) & _). pose proof (three_body_unique u' u' _ _ _ _ _ _ _ _ _ _ T' T1 eq_refl). tauto. }
  assert (Ei : i = i').
  { destruct (proper_outer r u k i j i Pu T) as (x & X1 & X2 & _); [cbn; auto|].
    destruct (proper_outer r u' k' i' j' i' Pu' T') as (y & Y1 & Y2 & _); [cbn; auto|]. congruence. }
  assert (Ej : j = j').
  { destruct (proper_outer r u k i j j Pu T) as (x & X1 & X2 & _); [cbn; auto|].
    destruct (proper_outer r u' k' i' j' j' Pu' T') as (y & Y1 & Y2 & _); [cbn; auto|]. congruence. }
  apply (same_transition [] u u'); auto; try congruence.
  exists 0, k, i, j, r, 0, k', i', j', r. repeat (split; [congruence || assumption|]).
  intros n _. destruct (Z.eq_dec n 0) as [->|N0]; [congruence|]. destruct (Z.eq_dec n 1) as [->|N1]; [congruence|].
  destruct T as (_ & _ & _ & KI). destruct T' as (_ & _ & _ & KI').
  assert (Q : forall v : dpd_transition, map fst (tr_interactions v) = [0; 1] -> coupling_of v n = None).
  { intros v Kv. unfold coupling_of. apply dget_None. unfold dkeys. rewrite Kv. cbn. intuition. }
  rewrite !Q; auto.
Qed.
Lemma chains_cmp_ok r us u u' c c' : good r us -> In u us -> In u' us ->
  chain_of_transition u c -> chain_of_transition u' c' -> is_ok (cmp c c').
Proof.
  intros (G1 & _ & G5) I I'. pose proof (G1 u I) as Pu. pose proof (G1 u' I') as Pu'.
  intros (p & k & i & j & r1 & s0 & sk & si & sj & R & a & b & T & S0 & Sk & Si & Sj & Sr & C0 & C1 & ->).
  intros (p' & k' & i' & j' & r' & s0' & sk' & si' & sj' & R' & a' & b' & T' & S0' & Sk' & Si' & Sj' & Sr' & C0' & C1' & ->).
  assert (r1 = r /\ p = 0) as [-> ->].
  { destruct Pu as (_ & (k1 & i1 & j1 & T1 & _) & _). pose proof (three_body_unique u u _ _ _ _ _ _ _ _ _ _ T T1 eq_refl). tauto. }
  assert (r' = r /\ p' = 0) as [-> ->].
  { destruct Pu' as (_ & (k1 & i1 & j1 & T1 & _) & _). pose proof (three_body_unique u' u' _ _ _ _ _ _ _ _ _ _ T' T1 eq_refl). tauto. }
  assert (Q : forall x s, In x [0; k; i; j] -> state_of u x = Some (PSt s) -> p_parity (st_particle s) <> None).
  { intros x s X Y. destruct (proper_outer r u k i j x Pu T X) as (s' & Z1 & _ & Z2). congruence. }
  assert (Q' : forall x s, In x [0; k'; i'; j'] -> state_of u' x = Some (PSt s) -> p_parity (st_particle s) <> None).
  { intros x s X Y. destruct (proper_outer r u' k' i' j' x Pu' T' X) as (s' & Z1 & _ & Z2). congruence. }
  assert (QR : p_parity R <> None) by (destruct Pu as (_ & _ & _ & (R1 & X1 & X2)); congruence).
  assert (QR' : p_parity R' <> None) by (destruct Pu' as (_ & _ & _ & (R1 & X1 & X2)); congruence).
  change (is_ok (cmp_then (cmp s0 s0') (cmp_then
    (cmp_then (cmp R R') (cmp_then (cmp si si') (cmp_then (cmp sj sj') (cmp b b'))))
    (cmp_then (cmp sk sk') (cmp a a'))))).
  apply cmp_then_ok; [|apply cmp_then_ok; [apply cmp_then_ok; [|apply cmp_then_ok; [|apply cmp_then_ok]]|apply cmp_then_ok]].
  - apply state_cmp_ok; [eapply (Q 0)|eapply (Q' 0)]; eauto; cbn; auto.
  - apply particle_cmp_ok; auto.
  - apply state_cmp_ok; [eapply (Q i)|eapply (Q' i')]; eauto; cbn; auto.
  - apply state_cmp_ok; [eapply (Q j)|eapply (Q' j')]; eauto; cbn; auto.
  - apply ls_option_cmp_ok. exact (G5 u u' 1 b b' I I' C1 C1').
  - apply state_cmp_ok; [eapply (Q k)|eapply (Q' k')]; eauto; cbn; auto.
  - apply ls_option_cmp_ok. exact (G5 u u' 0 a a' I I' C0 C0').
Qed.

(** ** The decay of converted transitions *)
Lemma last_four s0 s1 s2 s3 s : st_index s0 = 0 -> st_index s1 = 1 -> st_index s2 = 2 -> st_index s3 = 3 ->
  (last_with_index [s0; s1; s2; s3] s <-> In s [s1; s2; s3]).
Proof.
  intros I0 I1 I2 I3. unfold last_with_index. split.
  - intros (N & l1 & l2 & E & _).
    assert (X : In s [s0; s1; s2; s3]) by (rewrite E; apply in_or_app; right; left; auto).
    destruct X as [<-|X]; [congruence|exact X].
  - intros X. cbn in X. destruct X as [<-|[<-|[<-|[]]]].
    + split; [lia|]. exists [s0], [s2; s3]. split; auto. cbn. intros s' [<-|[<-|[]]]; lia.
    + split; [lia|]. exists [s0; s1], [s3]. split; auto. cbn. intros s' [<-|[]]; lia.
    + split; [lia|]. exists [s0; s1; s2], []. split; auto.
Qed.
Lemma state_again s i : p_parity (st_particle s) <> None -> q_to_state (edge_of_pobj (PSt s)) (Some i) = Ok s.
Proof.
  intros P. apply q_to_state_spec. cbn. split; auto. reflexivity.
Qed.
Lemma zsort_123 l : Permutation l [1; 2; 3] -> zsort l = [1; 2; 3].
Proof. intros P. rewrite (zsort_unique _ _ P). reflexivity. Qed.

Lemma finish_ok r us : good r us -> us <> [] -> NoDup us -> exists d, finish us = Ok d /\ valid_decay d /\
  map fst (d_states d) = [0; 1; 2; 3] /\
  (forall u x s, In u us -> In (x, s) (d_states d) <-> In x [0; 1; 2; 3] /\ state_of u x = Some (PSt s)) /\
  (forall x s, In (x, s) (d_states d) -> st_index s = x) /\
  StronglySorted clt (d_chains d) /\
  (forall c, In c (d_chains d) <-> exists u, In u us /\ chain_of_transition u c).
Proof.
  intros G NE ND. pose proof G as (G1 & G2 & _).
  destruct us as [|v us'] eqn:Eus; [congruence|]. rewrite <- Eus in *. clear NE.
  assert (Iv : In v us) by (rewrite Eus; left; auto).
  pose proof (G1 v Iv) as Pv. pose proof Pv as (L & (k & i & j & T & P) & St & _).
  destruct (St 0) as (s0 & S0 & I0 & P0); [cbn; auto|].
  destruct (St 1) as (s1 & S1 & I1 & P1); [cbn; auto|].
  destruct (St 2) as (s2 & S2 & I2 & P2); [cbn; auto|].
  destruct (St 3) as (s3 & S3 & I3 & P3); [cbn; auto|].
  (* the chains *)
  destruct (mapM_is_ok to_decay_chain us) as [cs Cs].
  { intros u Iu. destruct (chain_ok r u (G1 u Iu)) as (c & X & _). eexists; eauto. }
  pose proof (mapM_ok_inv _ _ _ Cs) as F.
  assert (Cu : forall u c, In u us -> to_decay_chain u = Ok c -> chain_of_transition u c /\ valid_chain c).
  { intros u c Iu X. destruct (chain_ok r u (G1 u Iu)) as (c' & X' & Y & V). rewrite X in X'. injection X' as <-. auto. }
  assert (InC : forall c, In c cs <-> exists u, In u us /\ chain_of_transition u c).
  { intros c. split.
    - intros Ic. destruct (Forall2_In_r _ _ _ _ F Ic) as (u & Iu & X). exists u. split; auto. apply Cu; auto.
    - intros (u & Iu & X). destruct (Forall2_In_l _ _ _ _ F Iu) as (c' & Ic & Y).
      destruct (Cu u c' Iu Y) as [Y1 _]. rewrite (chain_of_fun u c c' X Y1). auto. }
  assert (NDc : NoDup cs).
  { assert (H : forall l l', Forall2 (fun a b => to_decay_chain a = Ok b) l l' -> (forall u, In u l -> In u us) ->
      NoDup l -> NoDup l').
    { clear -Cu G. induction 1 as [|a b l l' X F IH]; intros Sub N; [constructor|].
      inversion N as [|? ? N1 N2]; subst. constructor.
      - intros Ib. destruct (Forall2_In_r _ _ _ _ F Ib) as (a' & Ia & X').
        assert (a = a').
        { apply (chain_inj r us a a' b G).
          - apply Sub; left; auto.
          - apply Sub; right; auto.
          - apply Cu; auto. apply Sub; left; auto.
          - apply Cu; auto. apply Sub; right; auto. }
        congruence.
      - apply IH; auto. intros; apply Sub; right; auto. }
    apply (H us cs); auto. }
  destruct (sorted_ok cs) as [r0 Sr].
  { intros c c' Ic Ic'. apply InC in Ic. apply InC in Ic'. destruct Ic as (u & Iu & X), Ic' as (u' & Iu' & X').
    exact (chains_cmp_ok r us u u' c c' G Iu Iu' X X'). }
  pose proof (sorted_perm _ _ Sr) as Pr.
  (* the final states *)
  destruct (three_body_final v _ _ _ _ _ T) as (fin & Ef & Kf & If).
  rewrite (zsort_123 _ P) in Kf.
  assert (fin = [(1, PSt s1); (2, PSt s2); (3, PSt s3)]) as ->.
  { assert (NF : NoDup (dkeys fin)). { unfold dkeys. rewrite Kf. repeat constructor; cbn; intuition discriminate. }
    apply dict_ext; auto.
    assert (Q : forall x o, state_of v x = Some o -> In x [1; 2; 3] -> dget x fin = Some o).
    { intros x o X I. apply In_dget; auto. apply If. split; auto. eapply Permutation_in; [symmetry; exact P|auto]. }
    intros x X. unfold dkeys in X. rewrite Kf in X. destruct X as [<-|[<-|[<-|[]]]].
    - rewrite (Q 1 (PSt s1)); auto. cbn; auto.
    - rewrite (Q 2 (PSt s2)); auto. cbn; auto.
    - rewrite (Q 3 (PSt s3)); auto. cbn; auto. }
  set (d := Decay [(0, s0); (1, s1); (2, s2); (3, s3)] r0).
  assert (InR : forall c, In c r0 <-> exists u, In u us /\ chain_of_transition u c).
  { intros c. rewrite <- InC. split; apply Permutation_in; [symmetry|]; auto. }
  assert (M : mk_decay [(0, s0); (1, s1); (2, s2); (3, s3)] r0 = Ok d).
  { apply mk_decay_ok. split; auto. exists s0. split; auto. intros c Ic. apply InR in Ic.
    destruct Ic as (u & Iu & p' & k' & i' & j' & r' & t0 & tk & ti & tj & R & a & b & T' & S0' & Sk' & Si' & Sj' & Sr' & C0' & C1' & ->).
    pose proof (G1 u Iu) as (_ & (k1 & i1 & j1 & T1 & P') & _).
    destruct (three_body_unique u u _ _ _ _ _ _ _ _ _ _ T' T1 eq_refl) as (-> & -> & -> & -> & ->).
    assert (Same : forall x, In x [0; 1; 2; 3] -> state_of u x = state_of v x).
    { intros x X. apply G2; auto. cbn in X. lia. }
    split.
    - rewrite Same in S0' by (cbn; auto). cbn. congruence.
    - intros s. change (dvalues [(0, s0); (1, s1); (2, s2); (3, s3)]) with [s0; s1; s2; s3].
      rewrite last_four by auto.
      change [ch_spectator _; _; _] with [tk; ti; tj].
      assert (A : In s [tk; ti; tj] <-> exists x, In x [k1; i1; j1] /\ state_of u x = Some (PSt s)).
      { split.
        - intros X. cbn in X. destruct X as [<-|[<-|[<-|[]]]]; [exists k1|exists i1|exists j1]; cbn; auto.
        - intros (x & X & Y). cbn in X. destruct X as [<-|[<-|[<-|[]]]]; cbn; [left|right; left|right; right; left]; congruence. }
      assert (B : In s [s1; s2; s3] <-> exists x, In x [1; 2; 3] /\ state_of u x = Some (PSt s)).
      { split.
        - intros X. cbn in X. destruct X as [<-|[<-|[<-|[]]]]; [exists 1|exists 2|exists 3];
            (split; [cbn; auto|rewrite Same; [assumption|cbn; auto]]).
        - intros (x & X & Y). rewrite Same in Y by (cbn in *; tauto).
          cbn in X. destruct X as [<-|[<-|[<-|[]]]]; cbn; [left|right; left|right; right; left]; congruence. }
      rewrite A, B. split; intros (x & X & Y); exists x; split; auto.
      + eapply Permutation_in; eauto.
      + eapply Permutation_in; [symmetry|]; eauto. }
  exists d. split; [|split; [|split; [|split; [|split; [|split]]]]].
  - unfold finish. rewrite Eus at 1.
    destruct (three_body_initial v _ _ _ _ _ T) as (s0' & S0' & ->). cbn [bind]. rewrite S0 in S0'. injection S0' as <-.
    rewrite (state_again s0) by auto. cbn [bind]. rewrite Ef. cbn [bind mapM fst snd].
    rewrite (state_again s1), (state_again s2), (state_again s3) by auto. cbn [bind]. rewrite Cs. cbn [bind].
    rewrite Sr. cbn [bind]. cbn [map]. rewrite I0, I1, I2, I3. exact M.
  - split; auto. apply Forall_forall. intros c Ic. cbn [d_chains d] in Ic.
    apply (Permutation_in _ (Permutation_sym Pr)) in Ic.
    destruct (Forall2_In_r _ _ _ _ F Ic) as (u & Iu & X). apply (Cu u c Iu X).
  - reflexivity.
  - intros u x s Iu. assert (Same : forall x, In x [0; 1; 2; 3] -> state_of u x = state_of v x).
    { intros y Y. apply G2; auto. cbn in Y. lia. }
    cbn [d_states d]. split.
    + intros [X|[X|[X|[X|[]]]]]; injection X as <- <-; (split; [cbn; auto 6|rewrite Same; [assumption|cbn; auto 6]]).
    + intros [X Y]. rewrite Same in Y by auto. cbn in X.
      destruct X as [<-|[<-|[<-|[<-|[]]]]]; cbn; [left|right; left|right; right; left|right; right; right; left]; congruence.
  - cbn [d_states d]. intros x s [X|[X|[X|[X|[]]]]]; injection X as <- <-; auto.
  - cbn [d_chains d]. apply sorted_NoDup_strict; [eapply sorted_sorted; eauto|]. eapply Permutation_NoDup; eauto.
  - exact InR.
Qed.

(** ** Converted transitions are comparable *)
Lemma good_comparable r us : good r us -> comparable us.
Proof.
  intros G u v Iu Iv. pose proof (good_process r us G u v Iu Iv) as (p & r1 & (k & i & j & T) & (k' & i' & j' & T') & Ids & _).
  destruct G as (G1 & G2 & G3). pose proof (G1 u Iu) as Pu. pose proof (G1 v Iv) as Pv.
  assert (r1 = r /\ p = 0) as [-> ->].
  { destruct Pu as (_ & (k1 & i1 & j1 & T1 & _) & _).
    pose proof (three_body_unique u u _ _ _ _ _ _ _ _ _ _ T T1 eq_refl). tauto. }
  pose proof T as (Gr & A & K & KI). pose proof T' as (Gr' & A' & K' & KI').
  change (cmp u v) with (cmp_then (cmp (tr_topology u) (tr_topology v))
    (cmp_then (cmp (tr_states u) (tr_states v)) (cmp (tr_interactions u) (tr_interactions v)))).
  apply cmp_then_ok; [|apply cmp_then_ok].
  - change (cmp (tr_topology u) (tr_topology v)) with
      (cmp_then (cmp (t_nodes (tr_topology u)) (t_nodes (tr_topology v)))
                (cmp (t_edges (tr_topology u)) (t_edges (tr_topology v)))).
    apply cmp_then_ok.
    + destruct Gr as (-> & _). destruct Gr' as (-> & _). rewrite cmp_refl. eexists; reflexivity.
    + apply cmp_items_ok; [apply ascending_NoDup; exact A|exact Ids|].
      intros x e e' X X'. apply (isobar_edge _ _ _ _ _ _ Gr) in X. apply (isobar_edge _ _ _ _ _ _ Gr') in X'.
      assert (X0 : (x = 0 /\ e = Edge None (Some 0)) \/ (x = r /\ e = Edge (Some 0) (Some 1)) \/
                   (In x [k; i; j] /\ exists n, e = Edge (Some n) None)).
      { clear -X. cbn in X. destruct X as [X|[X|[X|[X|[X|[]]]]]]; injection X as <- <-; cbn; eauto 8. }
      assert (X1 : (x = 0 /\ e' = Edge None (Some 0)) \/ (x = r /\ e' = Edge (Some 0) (Some 1)) \/
                   (In x [k'; i'; j'] /\ exists n, e' = Edge (Some n) None)).
      { clear -X'. cbn in X'. destruct X' as [X|[X|[X|[X|[X|[]]]]]]; injection X as <- <-; cbn; eauto 8. }
      assert (N : forall k i j, NoDup [0; k; i; j; r] -> In x [k; i; j] -> x <> 0 /\ x <> r).
      { clear. intros k i j ND I. inversion ND as [|? ? N1 N2]; subst. split.
        - intros ->. apply N1. cbn in *. tauto.
        - intros ->. change [k; i; j; r] with ([k; i; j] ++ [r]) in N2.
          apply NoDup_remove_2 in N2. rewrite app_nil_r in N2. auto. }
      destruct Gr as (_ & _ & ND & _). destruct Gr' as (_ & _ & ND' & _).
      assert (r <> 0).
      { intros ->. inversion ND as [|? ? N1 N2]. apply N1. cbn. auto 6. }
      destruct X0 as [(-> & ->)|[(-> & ->)|(Y & n & ->)]]; destruct X1 as [(Z1 & ->)|[(Z1 & ->)|(Y' & n' & ->)]];
        try congruence; try (destruct (N _ _ _ ND Y); congruence); try (destruct (N _ _ _ ND' Y'); congruence).
      * rewrite cmp_refl. eexists; reflexivity.
      * rewrite cmp_refl. eexists; reflexivity.
      * change (is_ok (cmp_then (cmp n n') (Ok Eq))). apply cmp_then_ok; eexists; reflexivity.
  - apply cmp_items_ok.
    + unfold dkeys. rewrite K. apply ascending_NoDup; exact A.
    + unfold dkeys. congruence.
    + intros x e e' X X'. destruct (Z.eq_dec x r) as [->|N].
      * destruct Pu as (_ & _ & _ & (R & Y1 & Y2)). destruct Pv as (_ & _ & _ & (R' & Y1' & Y2')).
        unfold state_of in *. rewrite X in Y1. rewrite X' in Y1'. injection Y1 as ->. injection Y1' as ->.
        change (is_ok (cmp R R')). apply particle_cmp_ok; auto.
      * pose proof (G2 u v x Iu Iv N) as Q. unfold state_of in Q. rewrite X, X' in Q. injection Q as ->.
        rewrite cmp_refl. eexists; reflexivity.
  - apply cmp_items_ok.
    + unfold dkeys. rewrite KI. repeat constructor; cbn; intuition discriminate.
    + unfold dkeys. congruence.
    + intros n c c' X X'. apply ls_option_cmp_ok. exact (G3 u v n c c' Iu Iv X X').
Qed.

(** ** Selecting minimal couplings keeps the reaction *)
Definition node_arg (m : min_ls_arg) : option (list Z) :=
  match m with
  | MinLS _ => None
  | MinLSPair p d => Some ((if p then [0] else []) ++ (if d then [1] else []))
  end.
Lemma good_three_body r us : good r us -> forall u, In u us -> is_three_body u.
Proof. intros (G & _) u I. destruct (G u I) as (_ & (k & i & j & T & _) & _). exists 0, k, i, j, r; auto. Qed.
Lemma good_unambiguous r us S : good r us -> unambiguous S us.
Proof. intros (_ & _ & U). right; right. exact U. Qed.
Lemma filter_good r us ids : good r us -> us <> [] -> exists l,
  filter_min_ls (reiterable us) ids = Ok l /\ l <> [] /\ NoDup l /\ good r l /\
  (forall u, In u l -> exists t, In t us /\ tr_states u = tr_states t).
Proof.
  intros G NE. destruct (filter_spec ls_total us ids NE (good_three_body r us G) (good_unambiguous r us _ G))
    as (l & E & N & ND & _ & F & _).
  exists l. split; auto. split; auto. split; auto. destruct G as (G1 & G2 & G3).
  split; [|intros u I; destruct (F u I) as (t & It & _ & B & _); eauto].
  assert (TB : forall u, In u l -> exists t, In t us /\ tr_topology u = tr_topology t /\ tr_states u = tr_states t /\
    forall n c, coupling_of u n = Some c -> exists t', In t' us /\ coupling_of t' n = Some c).
  { intros u I. destruct (F u I) as (t & It & A & B & SG & M). exists t. split; auto. split; auto. split; auto.
    intros n c C. assert (n = 0 \/ n = 1) as N01.
    { destruct SG as (p & k & i & j & r1 & p' & k' & i' & j' & r' & _ & T' & _).
      apply (coupling_domain u n c); auto. exists p', k', i', j', r'; auto. }
    destruct (in_dec Z.eq_dec n (filtered_nodes ids)) as [I0|I0].
    - destruct (M n) as (c' & C' & (t' & It' & _ & Ct) & _); [cbn; intuition|auto|]. exists t'. split; auto. congruence.
    - exists t. split; auto. destruct SG as (p & k & i & j & r1 & p' & k' & i' & j' & r' & _ & _ & _ & _ & _ & Y).
      rewrite (Y n I0). auto. }
  split; [|split].
  - intros u I. destruct (TB u I) as (t & It & A & B & _). destruct (G1 t It) as (L & (k & i & j & T & P) & S & R).
    split; auto. split; [|split].
    + exists k, i, j. split; auto. destruct (F u I) as (t' & _ & _ & _ & SG & _).
      destruct SG as (p1 & k1 & i1 & j1 & r1 & p' & k' & i' & j' & r' & _ & T' & _).
      destruct T as (Gr & As & K & _). destruct T' as (_ & _ & _ & KI).
      unfold three_body, edge_ids. rewrite A, B. repeat (split; [assumption|]). exact KI.
    + intros x X. unfold state_of. rewrite B. apply S; auto.
    + unfold state_of. rewrite B. exact R.
  - intros u u' x I I' Nx. destruct (TB u I) as (t & It & _ & B & _). destruct (TB u' I') as (t' & It' & _ & B' & _).
    unfold state_of. rewrite B, B'. apply (G2 t t' x It It' Nx).
  - intros u u' n c c' I I' C C'. destruct (TB u I) as (_ & _ & _ & _ & Q). destruct (TB u' I') as (_ & _ & _ & _ & Q').
    destruct (Q n c C) as (t & It & X). destruct (Q' n c' C') as (t' & It' & X'). exact (G3 t t' n c c' It It' X X').
Qed.
Lemma select_good r us m : good r us -> us <> [] -> NoDup us -> exists l,
  select m us = Ok l /\ l <> [] /\ NoDup l /\ good r l /\
  (forall u, In u l -> exists t, In t us /\ tr_states u = tr_states t).
Proof.
  intros G NE ND. destruct m as [[|]|p d]; cbn [select].
  - apply filter_good; auto.
  - exists us. split; auto. split; auto. split; auto. split; eauto.
  - apply filter_good; auto.
Qed.

(** ** From raw transitions *)
Lemma three_body_NoDup_outer {E N} (t : transition E N) p k i j r : three_body t p k i j r ->
  NoDup [k; i; j] /\ ~ In p [k; i; j] /\ ~ In r [k; i; j] /\ p <> r.
Proof.
  intros ((_ & _ & ND & _) & _). inversion ND as [|? ? N1 N2]; subst.
  change [k; i; j; r] with ([k; i; j] ++ [r]) in *. split; [|split; [|split]].
  - eapply NoDup_app_l; eauto.
  - intros X. apply N1. apply in_or_app; auto.
  - apply NoDup_remove_2 in N2. rewrite app_nil_r in N2. auto.
  - intros ->. apply N1. apply in_or_app. cbn; auto.
Qed.
Lemma three_body_initial_iff {E N} (t : transition E N) p k i j r x : three_body t p k i j r -> (is_initial t x <-> x = p).
Proof.
  intros T. pose proof (proj1 T) as G. unfold is_initial, edge_of. split.
  - intros (e & X & Y). apply (isobar_edge _ _ _ _ _ _ G) in X. cbn in X.
    destruct X as [X|[X|[X|[X|[X|[]]]]]]; injection X as <- <-; cbn in *; congruence.
  - intros ->. exists (Edge None (Some 0)). split; auto. apply (isobar_edge _ _ _ _ _ _ G). left; auto.
Qed.
Lemma three_body_intermediate_iff {E N} (t : transition E N) p k i j r x :
  three_body t p k i j r -> (is_intermediate t x <-> x = r).
Proof.
  intros T. pose proof (proj1 T) as G. unfold is_intermediate, edge_of. split.
  - intros (e & m & n & X & Y & Z0). apply (isobar_edge _ _ _ _ _ _ G) in X. cbn in X.
    destruct X as [X|[X|[X|[X|[X|[]]]]]]; injection X as <- <-; cbn in *; congruence.
  - intros ->. exists (Edge (Some 0) (Some 1)), 0, 1. split; auto. apply (isobar_edge _ _ _ _ _ _ G). right; right; left; auto.
Qed.
Lemma standard_ids {E N} (t : transition E N) p k i j r : three_body t p k i j r ->
  (standard_labels t <-> p = 0 /\ Permutation [k; i; j] [1; 2; 3]).
Proof.
  intros T. destruct (three_body_NoDup_outer t _ _ _ _ _ T) as (ND & _).
  pose proof (fun x => three_body_initial_iff t _ _ _ _ _ x T) as I.
  pose proof (fun x => three_body_final_iff t _ _ _ _ _ x T) as F. unfold standard_labels. split.
  - intros [A B]. split; [symmetry; apply I; apply A; auto|].
    apply NoDup_Permutation; auto.
    + repeat constructor; cbn; intuition discriminate.
    + intros x. rewrite <- F, B. cbn. intuition.
  - intros [-> P]. split; intros x; [apply I|]. rewrite F. split; intros X.
    + apply (Permutation_in _ P) in X. cbn in X. intuition.
    + apply (Permutation_in _ (Permutation_sym P)). cbn. intuition.
Qed.

Lemma converts_three_body t u p k i j r : converts t u -> three_body t p k i j r -> three_body u p k i j r.
Proof.
  intros (C1 & C2 & C3 & _) (A & B & C & D). unfold three_body, edge_ids in *. rewrite C1, C2, C3. auto.
Qed.
Lemma converts_state_of t u x o : is_transition t -> converts t u -> state_of t x = Some o ->
  (is_intermediate t x -> exists q, state_of u x = Some (PPart q) /\ converts_particle o q) /\
  (~ is_intermediate t x -> exists s, state_of u x = Some (PSt s) /\ converts_particle o (st_particle s) /\
     converts_index o x (st_index s)).
Proof.
  intros T C X. pose proof (converts_transition t u T C) as (_ & NU & _).
  destruct C as (C1 & C2 & C3 & C4 & C5 & C6). apply dget_Some_In in X. split; intros I.
  - destruct (C4 x o X I) as (q & Q & IQ). exists q. split; auto. apply In_dget; auto.
  - destruct (C5 x o X I) as (s & Q & J & IQ). exists s. split; [apply In_dget; auto|auto].
Qed.
Lemma fresh_index o x n : without_index o -> converts_index o x n -> n = x.
Proof. destruct o; cbn; intros W ->; tauto || reflexivity. Qed.

Lemma one_reaction_in ts t : one_reaction ts -> In t ts -> is_transition t /\ NoDup (map fst (tr_interactions t)).
Proof.
  intros (p & r & TB & _) I. destruct (TB t I) as (k & i & j & T). split.
  - eapply three_body_transition; eauto.
  - destruct T as (_ & _ & _ & ->). repeat constructor; cbn; intuition discriminate.
Qed.

(** The converted transitions satisfy the conditions above. *)
Lemma ready_good ts us : ready ts -> (forall t, In t ts -> standard_labels t) ->
  (forall u, In u us <-> exists t, In t ts /\ convert_transition t = Ok u) ->
  exists r, good r us.
Proof.
  intros (NE & OR & Cv) SL Us. pose proof (one_reaction_in ts) as TR.
  pose proof OR as (p & r & TB & Ids & SP & CP). exists r.
  assert (From : forall u, In u us -> exists t, In t ts /\ converts t u).
  { intros u I. apply Us in I. destruct I as (t & It & X). exists t. split; auto.
    apply convert_transition_converts; auto. apply TR; auto. }
  assert (TB0 : forall t, In t ts -> exists k i j, three_body t 0 k i j r /\ Permutation [k; i; j] [1; 2; 3]).
  { intros t I. destruct (TB t I) as (k & i & j & T). pose proof (proj1 (standard_ids t _ _ _ _ _ T) (SL t I)) as [-> P].
    exists k, i, j. auto. }
  assert (Outer : forall t u x o, In t ts -> converts t u -> x <> r -> state_of t x = Some o ->
    exists s, state_of u x = Some (PSt s) /\ st_index s = x /\ converts_particle o (st_particle s)).
  { intros t u x o I C Nx So. destruct (TR t OR I) as [Tt _]. destruct (TB0 t I) as (k & i & j & T & _).
    destruct (converts_state_of t u x o Tt C So) as [_ Q].
    destruct Q as (s & S & P & J). { rewrite (three_body_intermediate_iff t _ _ _ _ _ x T). auto. }
    exists s. split; auto. split; auto. destruct (Cv t I) as (_ & Fr & _). eapply fresh_index; eauto. apply (Fr x o).
    apply dget_Some_In; auto. }
  split; [|split].
  - intros u Iu. destruct (From u Iu) as (t & It & C). destruct (TB0 t It) as (k & i & j & T & P).
    destruct (Cv t It) as (_ & _ & RL). pose proof (RL _ _ _ _ _ T) as LT.
    assert (L3 : 3 < r).
    { apply LT. right. apply (Permutation_in _ (Permutation_sym P)). cbn; auto. }
    split; auto. split; [|split].
    + exists k, i, j. split; auto. eapply converts_three_body; eauto.
    + intros x X. destruct (three_body_state t _ _ _ _ _ x T) as [o So].
      { destruct X as [<-|X]; [left; auto|]. right. apply (Permutation_in _ (Permutation_sym P)) in X.
        cbn in *. tauto. }
      destruct (Outer t u x o It C) as (s & S & J & Q); auto.
      { cbn in X. lia. }
      exists s. split; auto. split; auto. eapply converts_parity; eauto.
    + destruct (three_body_state t _ _ _ _ _ r T) as [o So]; [cbn; auto 6|].
      destruct (TR t OR It) as [Tt _]. destruct (converts_state_of t u r o Tt C So) as [Q _].
      destruct Q as (q & S & Q). { apply (three_body_intermediate_iff t _ _ _ _ _ r T); auto. }
      exists q. split; auto. eapply converts_parity; eauto.
  - intros u u' x Iu Iu' Nx. destruct (From u Iu) as (t & It & C). destruct (From u' Iu') as (t' & It' & C').
    destruct (TB0 t It) as (k & i & j & T & P). destruct (TB0 t' It') as (k' & i' & j' & T' & P').
    pose proof (Ids t t' It It') as EI.
    destruct (in_dec Z.eq_dec x (edge_ids t)) as [Ix|Ix].
    + assert (Ix' := Ix). rewrite EI in Ix'.
      apply (three_body_ids t _ _ _ _ _ x T) in Ix. apply (three_body_ids t' _ _ _ _ _ x T') in Ix'.
      destruct (three_body_state t _ _ _ _ _ x T Ix) as [o So]. destruct (three_body_state t' _ _ _ _ _ x T' Ix') as [o' So'].
      destruct (Outer t u x o It C Nx So) as (s & S & J & Q). destruct (Outer t' u' x o' It' C' Nx So') as (s' & S' & J' & Q').
      destruct (SP t t' x o o' It It' Nx So So') as (q & Z1 & Z2). rewrite S, S'. do 2 f_equal.
      destruct s as [a n], s' as [a' n']. cbn [st_particle st_index] in *. f_equal; [|congruence].
      rewrite (converts_particle_fun _ _ _ Q Z1), (converts_particle_fun _ _ _ Q' Z2). reflexivity.
    + assert (Non : forall t u, converts t u -> In t ts -> ~ In x (edge_ids t) -> state_of u x = None).
      { intros a b Cab Ia Nab. unfold state_of. apply dget_None. unfold dkeys. destruct Cab as (_ & -> & _).
        destruct (TR a OR Ia) as [(_ & _ & Ka) _]. rewrite Ka. auto. }
      rewrite (Non t u), (Non t' u'); auto. congruence.
  - intros u u' n c c' Iu Iu' X X'. destruct (From u Iu) as (t & It & C). destruct (From u' Iu') as (t' & It' & C').
    assert (Raw : forall t u c, In t ts -> converts t u -> coupling_of u n = Some c ->
      exists o, coupling_of t n = Some o /\ converts_coupling o c).
    { intros a b e Ia (_ & _ & K & _ & _ & Cc) Xe. destruct (TR a OR Ia) as [_ NI].
      assert (In n (map fst (tr_interactions a))). { rewrite <- K. eapply dget_In_keys. exact Xe. }
      destruct (In_keys_dget (tr_interactions a) n) as [o Xo]; auto.
      exists o. split; auto. apply dget_Some_In in Xo. destruct (Cc n o Xo) as (e' & Q & Iq).
      assert (Xq : dget n (tr_interactions b) = Some e').
      { apply In_dget; auto. unfold dkeys. rewrite K. auto. }
      unfold coupling_of in Xe. congruence. }
    destruct (Raw t u c It C X) as (o & Xo & Q). destruct (Raw t' u' c' It' C' X') as (o' & Xo' & Q').
    pose proof (CP t t' n o o' It It' Xo Xo') as R. split; intros ->.
    + apply R in Q. symmetry. eapply converts_coupling_fun; eauto.
    + apply R in Q'. symmetry. eapply converts_coupling_fun; eauto.
Qed.

Lemma ready_convert ts : ready ts -> (forall t, In t ts -> standard_labels t) ->
  exists r us, convert_transitions ts = Ok us /\ good r us /\ us <> [] /\ NoDup us /\
    (forall u, In u us <-> exists t, In t ts /\ converts t u).
Proof.
  intros R SL. pose proof R as (NE & OR & Cv). pose proof (one_reaction_in ts) as TR.
  destruct (mapM_is_ok convert_transition ts) as [vs M].
  { intros t I. destruct (TR t OR I). apply convert_transition_ok; auto. apply Cv; auto. }
  assert (InV : forall u, In u (to_set vs) <-> exists t, In t ts /\ convert_transition t = Ok u).
  { pose proof (mapM_ok_inv _ _ _ M) as F. intros u. rewrite to_set_In. split.
    - intros I. destruct (Forall2_In_r _ _ _ _ F I) as (t & It & X). eauto.
    - intros (t & It & X). destruct (Forall2_In_l _ _ _ _ F It) as (u' & Iu & X'). congruence. }
  destruct (ready_good ts (to_set vs) R SL InV) as [r G].
  destruct (sorted_ok (to_set vs) (good_comparable r _ G)) as [us S].
  assert (C : convert_transitions ts = Ok us) by (unfold convert_transitions; rewrite M; exact S).
  destruct (c47_result ts us (fun t => TR t OR) C) as [Ss IU].
  exists r, us. split; auto. split; [|split; [|split]].
  - destruct (ready_good ts us R SL) as [r' G'].
    { intros u. apply (proj2 (convert_sorted ts us C)). }
    pose proof (sorted_perm _ _ S) as P.
    assert (Sub : forall u, In u us -> In u (to_set vs)) by (intros u; apply Permutation_in; symmetry; auto).
    destruct G as (G1 & G2 & G3). split; [|split].
    + intros u I. auto.
    + intros u u' x I I'. auto.
    + intros u u' n c c' I I'. apply G3; auto.
  - destruct ts as [|t ts]; [congruence|]. intros ->.
    assert (I : In t (t :: ts)) by (left; auto).
    destruct (TR t OR I) as [T _]. destruct (Cv t I) as (Ct & _). apply convert_transition_ok in Ct; auto.
    destruct Ct as [u X]. apply (proj2 (IU u)). exists t. split; auto. apply convert_transition_converts; auto.
  - eapply strictly_sorted_NoDup; eauto.
  - exact IU.
Qed.

Lemma index_in_rank l x : ascending l -> In x l -> index_in x l = Z.of_nat (length (filter (fun y => y <? x) l)).
Proof.
  intros A. induction A as [|y l A IH F]; intros I; [destruct I|]. rewrite Forall_forall in F. cbn [index_in filter].
  destruct (Z.eqb_spec x y) as [->|N].
  - rewrite Z.ltb_irrefl. replace (filter _ l) with (@nil Z); auto. symmetry.
    clear -F. induction l as [|z l IH]; auto. cbn [filter]. rewrite IH by (intros; apply F; right; auto).
    assert (y < z) by (apply F; left; auto). destruct (Z.ltb_spec z y); auto. lia.
  - destruct I as [->|I]; [congruence|]. assert (y < x) by auto. destruct (Z.ltb_spec y x); [|lia].
    cbn [length]. rewrite Nat2Z.inj_succ. rewrite <- IH by auto. lia.
Qed.
Lemma rank_renumbering {E N} (t : transition E N) : ascending (edge_ids t) -> renumbering (rank t) (edge_ids t).
Proof.
  intros A. pose proof (renumbering_index (edge_ids t) (edge_ids t) A (Permutation_refl _)) as [R1 R2].
  assert (Q : forall x, In x (edge_ids t) -> index_in x (edge_ids t) = rank t x) by (intros; apply index_in_rank; auto).
  split.
  - intros a b Ia Ib. rewrite <- !Q by auto. apply R1; auto.
  - intros n. rewrite <- R2. split; intros (a & Ia & <-); exists a; split; auto. symmetry; auto.
Qed.
Lemma ids_standard {E N} (t : transition E N) k i j r : three_body t 0 k i j r -> Permutation [k; i; j] [1; 2; 3] -> 3 < r ->
  edge_ids t = [0; 1; 2; 3; r].
Proof.
  intros T P L. apply ascending_unique.
  - apply T.
  - repeat constructor; lia.
  - intros x. rewrite (three_body_ids t _ _ _ _ _ x T).
    assert (Y : forall a b c, In x [0; a; b; c; r] <-> x = 0 \/ In x [a; b; c] \/ x = r).
    { clear. intros a b c. cbn. intuition. }
    rewrite !Y. assert (X : In x [k; i; j] <-> In x [1; 2; 3]).
    { split; apply Permutation_in; [|symmetry]; auto. }
    rewrite X. reflexivity.
Qed.
Lemma rank_standard {E N} (t : transition E N) r x : edge_ids t = [0; 1; 2; 3; r] -> 3 < r -> In x [0; 1; 2; 3] -> rank t x = x.
Proof.
  intros I L X. unfold rank. rewrite I. cbn in X.
  destruct X as [<-|[<-|[<-|[<-|[]]]]]; cbn [filter Z.ltb Z.compare Pos.compare Pos.compare_cont];
    rewrite (proj2 (Z.ltb_ge r _)) by lia; reflexivity.
Qed.

(** ** The theorem for standard labels *)
Lemma chain_of_raw_converts ts t u c k i j r : In t ts -> ready ts -> three_body t 0 k i j r ->
  Permutation [k; i; j] [1; 2; 3] -> converts t u -> (chain_of_transition u c <-> chain_of_raw t c).
Proof.
  intros It (NE & OR & Cv) T P C. destruct (one_reaction_in ts t OR It) as [Tt NI].
  destruct (Cv t It) as (_ & Fr & RL). pose proof (RL _ _ _ _ _ T) as LT.
  assert (L3 : 3 < r). { apply LT. right. apply (Permutation_in _ (Permutation_sym P)). cbn; auto. }
  pose proof (ids_standard t k i j r T P L3) as Ids.
  pose proof (converts_three_body t u _ _ _ _ _ C T) as TU.
  assert (Rk : forall x, In x [0; k; i; j] -> rank t x = x).
  { intros x X. apply (rank_standard t r); auto. destruct X as [<-|X]; [left; auto|].
    right. apply (Permutation_in _ P) in X. exact X. }
  assert (St : forall x s, In x [0; k; i; j] -> (state_of u x = Some (PSt s) <-> describes t x s)).
  { intros x s X. pose proof (LT x X) as Lx.
    destruct (three_body_state t _ _ _ _ _ x T) as [o So]. { clear -X. cbn in *. tauto. }
    destruct (converts_state_of t u x o Tt C So) as [_ Q].
    destruct Q as (s' & S & Q & J). { rewrite (three_body_intermediate_iff t _ _ _ _ _ x T). lia. }
    apply fresh_index in J; [|apply (Fr x o), dget_Some_In; auto].
    unfold describes. rewrite (Rk x X). split.
    - intros Y. rewrite S in Y. injection Y as <-. exists o. auto.
    - intros (o' & So' & Q' & J'). rewrite So in So'. injection So' as <-. rewrite S. do 2 f_equal.
      destruct s as [a n], s' as [a' n']. cbn [st_particle st_index] in *. f_equal; [|congruence].
      eapply converts_particle_fun; eauto. }
  assert (Sr : forall R, state_of u r = Some (PPart R) <-> exists oR, state_of t r = Some oR /\ converts_particle oR R).
  { intros R. destruct (three_body_state t _ _ _ _ _ r T) as [o So]; [cbn; auto 6|].
    destruct (converts_state_of t u r o Tt C So) as [Q _].
    destruct Q as (q & S & Q). { apply (three_body_intermediate_iff t _ _ _ _ _ r T); auto. }
    split.
    - intros Y. rewrite S in Y. injection Y as <-. eauto.
    - intros (o' & So' & Q'). rewrite So in So'. injection So' as <-. rewrite S. do 2 f_equal. eapply converts_particle_fun; eauto. }
  assert (Cp : forall n e, In n [0; 1] -> (coupling_of u n = Some e <-> exists o, coupling_of t n = Some o /\ converts_coupling o e)).
  { intros n e In_. destruct (three_body_coupling t _ _ _ _ _ n T In_) as [o Xo].
    destruct C as (_ & _ & K & _ & _ & Cc). pose proof (dget_Some_In _ _ _ Xo) as Io. destruct (Cc n o Io) as (e' & Q & Iq).
    assert (Xq : coupling_of u n = Some e'). { apply In_dget; auto. unfold dkeys. rewrite K. auto. }
    split.
    - intros Y. rewrite Xq in Y. injection Y as <-. eauto.
    - intros (o' & So' & Q'). rewrite Xo in So'. injection So' as <-. rewrite Xq. f_equal. eapply converts_coupling_fun; eauto. }
  split.
  - intros (p' & k' & i' & j' & r' & s0 & sk & si & sj & R & a & b & T' & S0 & Sk & Si & Sj & SR & C0 & C1 & ->).
    destruct (three_body_unique u u _ _ _ _ _ _ _ _ _ _ T' TU eq_refl) as (-> & -> & -> & -> & ->).
    apply St in S0; [|cbn; auto]. apply St in Sk; [|cbn; auto]. apply St in Si; [|cbn; auto]. apply St in Sj; [|cbn; auto].
    apply Sr in SR. destruct SR as (oR & SR & QR). apply Cp in C0; [|cbn; auto]. apply Cp in C1; [|cbn; auto].
    destruct C0 as (oa & Xa & Qa). destruct C1 as (ob & Xb & Qb).
    exists 0, k, i, j, r, s0, sk, si, sj, oR, R, oa, ob, a, b. repeat (split; [assumption|]). reflexivity.
  - intros (p' & k' & i' & j' & r' & s0 & sk & si & sj & oR & R & oa & ob & a & b & T' & S0 & Sk & Si & Sj & SR & QR & Xa & Qa & Xb & Qb & ->).
    destruct (three_body_unique t t _ _ _ _ _ _ _ _ _ _ T' T eq_refl) as (-> & -> & -> & -> & ->).
    apply St in S0; [|cbn; auto]. apply St in Sk; [|cbn; auto]. apply St in Si; [|cbn; auto]. apply St in Sj; [|cbn; auto].
    exists 0, k, i, j, r, s0, sk, si, sj, R, a, b. repeat (split; [assumption|]).
    split; [apply Sr; eauto|]. split; [apply Cp; [cbn; auto|eauto]|]. split; [apply Cp; [cbn; auto|eauto]|]. reflexivity.
Qed.

Definition selected (m : min_ls_arg) (us l : list dpd_transition) : Prop :=
  match m with MinLS false => l = us | _ => filter_min_ls (reiterable us) (node_arg m) = Ok l end.
Lemma select_selected m us l : select m us = Ok l <-> selected m us l.
Proof. destruct m as [[|]|p d]; cbn; try tauto. split; congruence. Qed.

Lemma ready_standard ts : ready ts -> (forall t, In t ts -> standard_labels t) ->
  exists r, 3 < r /\ forall t, In t ts -> edge_ids t = [0; 1; 2; 3; r] /\
    exists k i j, three_body t 0 k i j r /\ Permutation [k; i; j] [1; 2; 3].
Proof.
  intros (NE & (p & r & TB & Ids & _) & Cv) SL. exists r.
  assert (G : forall t, In t ts -> 3 < r /\ edge_ids t = [0; 1; 2; 3; r] /\
    exists k i j, three_body t 0 k i j r /\ Permutation [k; i; j] [1; 2; 3]).
  { intros t I. destruct (TB t I) as (k & i & j & T). pose proof (proj1 (standard_ids t _ _ _ _ _ T) (SL t I)) as [-> P].
    destruct (Cv t I) as (_ & _ & RL). pose proof (RL _ _ _ _ _ T) as LT.
    assert (L3 : 3 < r). { apply LT. right. apply (Permutation_in _ (Permutation_sym P)). cbn; auto. }
    split; auto. split; [eapply ids_standard; eauto|eauto 6]. }
  split; [|intros t I; apply (G t I)]. destruct ts as [|t ts]; [congruence|]. apply (G t). left; auto.
Qed.

Lemma c67_standard ts m : ready ts -> (forall t, In t ts -> standard_labels t) ->
  exists us l d, (forall u, In u us <-> exists t, In t ts /\ converts t u) /\ selected m us l /\
  to_three_body_decay ts m = Ok d /\ valid_decay d /\
  map fst (d_states d) = [0; 1; 2; 3] /\
  (forall t n s, In t ts -> (In (n, s) (d_states d) <->
     exists x, In x (edge_ids t) /\ ~ is_intermediate t x /\ n = rank t x /\ describes t x s)) /\
  StronglySorted clt (d_chains d) /\
  (forall c, In c (d_chains d) <-> exists u, In u l /\ chain_of_transition u c).
Proof.
  intros R SL. destruct (ready_convert ts R SL) as (r & us & C & G & NE & ND & IU).
  destruct (select_good r us m G NE ND) as (l & Sl & NEl & NDl & Gl & Fl).
  destruct (finish_ok r l Gl NEl NDl) as (d & Fd & V & K & St & Ix & Ss & Ch).
  exists us, l, d. split; auto. split; [apply select_selected; auto|].
  pose proof R as (NT & OR & Cv). destruct (ready_standard ts R SL) as (r' & L3 & TB).
  split; [|split; [auto|split; [auto|split; [|split; auto]]]].
  - destruct ts as [|t0 ts]; [congruence|].
    destruct (three_body_decay_eq t0 ts m) as (b & B & E).
    { destruct (one_reaction_in (t0 :: ts) t0 OR); [left|]; auto. }
    rewrite E. assert (b = true) by (apply B, SL; left; auto). subst b. cbn [relabel bind]. rewrite C. cbn [bind].
    rewrite Sl. cbn [bind]. exact Fd.
  - intros t n s It. destruct (TB t It) as (Ids & k & i & j & T & P).
    destruct (one_reaction_in ts t OR It) as [Tt NI].
    destruct (Cv t It) as (Ct & Fr & RL). apply convert_transition_ok in Ct; auto. destruct Ct as [u Cu].
    apply convert_transition_converts in Cu; auto.
    assert (Iu : In u us) by (apply IU; eauto).
    assert (r' = r).
    { destruct G as (G1 & _). destruct (G1 u Iu) as (_ & (k1 & i1 & j1 & T1 & _) & _).
      pose proof (converts_three_body t u _ _ _ _ _ Cu T) as TU.
      pose proof (three_body_unique u u _ _ _ _ _ _ _ _ _ _ TU T1 eq_refl). tauto. }
    subst r'. destruct l as [|v l']; [congruence|]. assert (Iv : In v (v :: l')) by (left; auto).
    rewrite (St v n s Iv). destruct (Fl v Iv) as (w & Iw & Ew).
    assert (Same : forall x, In x [0; 1; 2; 3] -> state_of v x = state_of u x).
    { intros x X. unfold state_of. rewrite Ew. destruct G as (_ & G2 & _). apply (G2 w u x); auto. cbn in X. lia. }
    assert (D : forall x, In x [0; 1; 2; 3] -> (state_of u x = Some (PSt s) <-> describes t x s)).
    { intros x X. destruct (three_body_state t _ _ _ _ _ x T) as [o So].
      { apply (three_body_ids t _ _ _ _ _ x T). rewrite Ids. clear -X. cbn in *. tauto. }
      destruct (converts_state_of t u x o Tt Cu So) as [_ Q].
      destruct Q as (s' & S & Q & J). { rewrite (three_body_intermediate_iff t _ _ _ _ _ x T). cbn in X. lia. }
      apply fresh_index in J; [|apply (Fr x o), dget_Some_In; auto].
      unfold describes. rewrite (rank_standard t r x) by auto. split.
      - intros Y. rewrite S in Y. injection Y as <-. exists o. auto.
      - intros (o' & So' & Q' & J'). rewrite So in So'. injection So' as <-. rewrite S. do 2 f_equal.
        destruct s as [a n0], s' as [a' n']. cbn [st_particle st_index] in *. f_equal; [|congruence].
        eapply converts_particle_fun; eauto. }
    split.
    + intros [X Y]. rewrite Same in Y by auto. apply D in Y; auto. exists n.
      rewrite (rank_standard t r n) by auto. split; [rewrite Ids; clear -X; cbn in *; tauto|].
      split; [|auto]. rewrite (three_body_intermediate_iff t _ _ _ _ _ n T). cbn in X. lia.
    + intros (x & X & NX & -> & De). rewrite (three_body_intermediate_iff t _ _ _ _ _ x T) in NX.
      assert (X' : In x [0; 1; 2; 3]). { rewrite Ids in X. clear -X NX. cbn in *. intuition congruence. }
      rewrite (rank_standard t r x) by auto. split; auto. rewrite Same by auto. apply D; auto.
Qed.
