(** What holds instead of some of the properties the code refutes (C03, C19, C45, C65, C69). *)
From Coq Require Import String ZArith QArith Qcanon List Bool Sorted Permutation Lia.
From Verif Require Import Prelude Spin SpecSpin SpinFacts SpinProofs Decay Expr Angles AnglesFacts SpecKin Qrules SpecQrules QrulesFacts QrulesNorm QrulesThree QrulesFilter QrulesConvert QrulesDecay QrulesLabels.
Import ListNotations.
Local Open Scope string_scope.
Local Open Scope Z_scope.
Local Open Scope list_scope.

Lemma Q2Qc_plus a b : (Q2Qc a + Q2Qc b)%Qc = Q2Qc (a + b).
Proof. apply Qc_is_canon. unfold Qcplus, Q2Qc, this. rewrite !Qred_correct. reflexivity. Qed.
Lemma integer_plus a b : is_integer a -> is_integer b -> is_integer (a + b)%Qc.
Proof. intros [x ->] [y ->]. exists (x + y). rewrite Q2Qc_plus. apply Q2Qc_eq_iff. rewrite inject_Z_plus. reflexivity. Qed.
Lemma integer_opp a : is_integer a -> is_integer (- a)%Qc.
Proof.
  intros [x ->]. exists (- x). apply Qc_is_canon. unfold Qcopp, Q2Qc, this. rewrite !Qred_correct, inject_Z_opp. reflexivity.
Qed.
Lemma half_double a : is_half_integer a -> is_integer (a + a)%Qc.
Proof. intros [x ->]. exists x. rewrite Q2Qc_plus. apply Q2Qc_eq_iff. unfold Qeq. cbn. lia. Qed.
Lemma c03 J s1 s2 max_L ls : is_half_integer J -> is_half_integer s1 -> is_half_integer s2 -> (0 <= s1)%Qc -> (0 <= s2)%Qc ->
  generate_ls_couplings J s1 s2 max_L = Ok ls ->
  forall L S, In (L, S) ls -> (couples_to (Qc_of_Z L) S J <-> is_integer (J + s1 + s2)).
Proof.
  intros HJ H1 H2 P1 P2 E L S I. destruct (ls_char J s1 s2 max_L HJ H1 H2 P1 P2) as (ls' & E' & _ & _ & Ch).
  rewrite E in E'. injection E' as <-. apply Ch in I. destruct I as (_ & [_ IS] & T).
  assert (IL : is_integer (Qc_of_Z L)) by (exists L; reflexivity).
  pose proof (half_double J HJ) as DJ.
  unfold couples_to. split.
  - intros [_ IJ].
    replace (J + s1 + s2)%Qc with ((s1 + s2 - S) + (Qc_of_Z L + S - J) + - Qc_of_Z L + (J + J))%Qc by ring.
    apply integer_plus; [|exact DJ]. apply integer_plus; [|apply integer_opp, IL]. apply integer_plus; assumption.
  - intros IJ. split; [exact T|].
    replace (Qc_of_Z L + S - J)%Qc with (Qc_of_Z L + - (s1 + s2 - S) + (J + s1 + s2) + - (J + J))%Qc by ring.
    apply integer_plus; [|apply integer_opp, DJ]. apply integer_plus; [|exact IJ]. apply integer_plus; [exact IL|apply integer_opp, IS].
Qed.

Lemma c19_accepted i j : (exists r, formulate_scattering_angle i j = Ok r) <-> In i [1; 2; 3] /\ In j [1; 2; 3] /\ i <> j.
Proof.
  split.
  - intros [r E]. unfold formulate_scattering_angle in E.
    destruct (subsetb [i; j] [1; 2; 3]) eqn:S; [|discriminate]. cbn [negb] in E.
    destruct (py_in _ _) in E; [discriminate|]. destruct (Z.eqb_spec i j) as [|N]; [discriminate|].
    unfold subsetb in S. rewrite forallb_forall in S. repeat split; auto; apply memb_In, S; simpl; auto.
  - intros (Hi & Hj & N). simpl in Hi, Hj.
    destruct Hi as [<-|[<-|[<-|[]]]], Hj as [<-|[<-|[<-|[]]]]; try congruence; vm_compute; eexists; reflexivity.
Qed.

Lemma c45_partial {E M} `{EqDec E} `{EqDec M} `{Cmp M} (it : nat -> list (transition E (option M))) ts ids :
  it 0%nat = ts -> it 1%nat = ts -> it 2%nat = ts -> filter_min_ls it ids = filter_min_ls (reiterable ts) ids.
Proof. intros E0 E1 E2. unfold filter_min_ls, reiterable. rewrite E0, E1, E2. reflexivity. Qed.

Lemma c69_partial (t0 : raw_transition) (ts : list raw_transition) (t0' : raw_transition) (ts' : list raw_transition) m d : (forall t, In t (t0 :: ts) -> is_transition t) ->
  (forall t, In t (t0 :: ts) <-> In t (t0' :: ts')) -> (standard_labels t0 <-> standard_labels t0') ->
  to_three_body_decay (t0 :: ts) m = Ok d -> to_three_body_decay (t0' :: ts') m = Ok d.
Proof.
  intros T S L X.
  assert (I0 : In t0' (t0 :: ts)) by (apply S; left; auto).
  destruct (three_body_decay_eq t0 ts m (T _ (or_introl eq_refl))) as (b & B & E).
  destruct (three_body_decay_eq t0' ts' m (T _ I0)) as (b' & B' & E').
  assert (b' = b) by (destruct b, b'; auto; [tauto|symmetry; tauto]).
  subst b'. rewrite E'. rewrite E in X. clear E E'.
  destruct (relabel b (t0 :: ts)) as [ts1|] eqn:R; [|discriminate]. cbn [bind] in X.
  assert (exists ts1', relabel b (t0' :: ts') = Ok ts1' /\ forall t, In t ts1 <-> In t ts1') as (ts1' & -> & S1).
  { unfold relabel in *. destruct b.
    - injection R as <-. eauto.
    - eapply mapM_same; eauto. }
  cbn [bind]. destruct (convert_transitions ts1) as [us|] eqn:C; [|discriminate].
  rewrite (convert_transitions_same _ _ _ C S1). exact X.
Qed.

(** ** Couplings and the order of the items of [interactions] *)
Lemma mapM_fst_snd {A B} (f : A -> res B) (l l' : list (Z * A)) : map snd l = map snd l' ->
  match mapM (fun kn => let* c := f (snd kn) in Ok (fst kn, c)) l, mapM (fun kn => let* c := f (snd kn) in Ok (fst kn, c)) l' with
  | Ok r, Ok r' => map snd r = map snd r'
  | Err e, Err e' => e = e'
  | _, _ => False
  end.
Proof.
  revert l'. induction l as [|[k a] l IH]; intros [|[k' a'] l'] X; try discriminate; [reflexivity|].
  cbn [map snd] in X. injection X as <- X. specialize (IH l' X). cbn [mapM fst snd].
  destruct (f a) as [b|]; cbn [bind]; [|reflexivity].
  destruct (mapM _ l) as [r|], (mapM _ l') as [r'|]; cbn [bind map snd]; congruence.
Qed.
Lemma to_decay_chain_values u u' : tr_topology u = tr_topology u' -> tr_states u = tr_states u' ->
  map snd (tr_interactions u) = map snd (tr_interactions u') -> to_decay_chain u = to_decay_chain u'.
Proof.
  intros T S I. unfold to_decay_chain, initial_states, tr_final_states, filter_states, dvalues. rewrite <- T, <- S, <- I.
  replace (length (tr_interactions u')) with (length (tr_interactions u)); [reflexivity|].
  rewrite <- (map_length snd (tr_interactions u)), I, map_length. reflexivity.
Qed.
Lemma convert_values t t' : tr_topology t = tr_topology t' -> tr_states t = tr_states t' ->
  map snd (tr_interactions t) = map snd (tr_interactions t') ->
  match convert_transition t, convert_transition t' with
  | Ok u, Ok u' => tr_topology u = tr_topology u' /\ tr_states u = tr_states u' /\
      map snd (tr_interactions u) = map snd (tr_interactions u')
  | Err e, Err e' => e = e'
  | _, _ => False
  end.
Proof.
  intros T S I. unfold convert_transition. replace (intermediate_states t') with (intermediate_states t)
    by (unfold intermediate_states, filter_states; rewrite T, S; reflexivity).
  rewrite <- S, <- T. destruct (mapM _ (tr_states t)) as [st|]; cbn [bind]; [|reflexivity].
  pose proof (mapM_fst_snd to_ls_coupling _ _ I) as X.
  destruct (mapM _ (tr_interactions t)), (mapM _ (tr_interactions t')); cbn [bind tr_topology tr_states tr_interactions]; auto.
Qed.
Lemma normalize_values (t t' : raw_transition) : tr_topology t = tr_topology t' -> tr_states t = tr_states t' ->
  map snd (tr_interactions t) = map snd (tr_interactions t') ->
  match normalize_transition t, normalize_transition t' with
  | Ok u, Ok u' => tr_topology u = tr_topology u' /\ tr_states u = tr_states u' /\
      map snd (tr_interactions u) = map snd (tr_interactions u')
  | Err e, Err e' => e = e'
  | _, _ => False
  end.
Proof.
  intros T S I. unfold normalize_transition. rewrite <- S, <- T.
  destruct (mapM _ _) as [st|]; cbn [bind tr_topology tr_states tr_interactions]; auto.
Qed.
Lemma convert_single (t : raw_transition) : convert_transitions [t] = let* u := convert_transition t in Ok [u].
Proof.
  unfold convert_transitions. cbn [mapM]. destruct (convert_transition t) as [u|]; cbn [bind]; reflexivity.
Qed.
Lemma c65_values (t t' : raw_transition) : is_transition t -> tr_topology t = tr_topology t' -> tr_states t = tr_states t' ->
  map snd (tr_interactions t) = map snd (tr_interactions t') ->
  to_three_body_decay [t'] (MinLS false) = to_three_body_decay [t] (MinLS false).
Proof.
  intros Tr T S I.
  assert (Tr' : is_transition t').
  { unfold is_transition, edge_ids. rewrite <- T, <- S. exact Tr. }
  destruct (three_body_decay_eq t [] (MinLS false) Tr) as (b & B & E).
  destruct (three_body_decay_eq t' [] (MinLS false) Tr') as (b' & B' & E').
  assert (SL : standard_labels t <-> standard_labels t').
  { unfold standard_labels, is_initial, is_final, edge_of. rewrite T. tauto. }
  assert (b' = b) by (destruct b, b'; auto; [tauto|symmetry; tauto]). subst b'. rewrite E, E'. clear E E' B B'.
  assert (X : match relabel b [t], relabel b [t'] with
    | Ok l, Ok l' => exists u u', l = [u] /\ l' = [u'] /\ tr_topology u = tr_topology u' /\ tr_states u = tr_states u' /\
        map snd (tr_interactions u) = map snd (tr_interactions u')
    | Err e, Err e' => e = e' | _, _ => False end).
  { unfold relabel. destruct b; [exists t, t'; auto|]. unfold normalize_transitions. cbn [mapM].
    pose proof (normalize_values t t' T S I) as X.
    destruct (normalize_transition t) as [u|], (normalize_transition t') as [u'|]; cbn [bind]; auto. exists u, u'. tauto. }
  destruct (relabel b [t]), (relabel b [t']); cbn [bind]; try congruence; try tauto.
  destruct X as (u & u' & -> & -> & Tu & Su & Iu). rewrite !convert_single.
  pose proof (convert_values u u' Tu Su Iu) as X.
  destruct (convert_transition u) as [v|], (convert_transition u') as [v'|]; cbn [bind select]; try congruence; try tauto.
  destruct X as (Tv & Sv & Iv). unfold finish. cbn [mapM]. rewrite (to_decay_chain_values v v' Tv Sv Iv).
  unfold initial_states, tr_final_states, filter_states. rewrite Tv, Sv. reflexivity.
Qed.
Lemma c65_ascending ts : ready ts -> (forall t, In t ts -> initial_first t) ->
  exists d, to_three_body_decay ts (MinLS false) = Ok d /\
  forall c, In c (d_chains d) -> exists t prod dec, In t ts /\ chain_of_raw t c /\
    coupling_of t 0 = Some prod /\ converts_coupling prod (ch_incoming_ls c) /\
    coupling_of t 1 = Some dec /\ converts_coupling dec (ch_outgoing_ls c).
Proof.
  intros R IF. destruct (c67_decay ts R IF) as (d & E & _ & _ & _ & _ & Ch). exists d. split; [exact E|].
  intros c Ic. apply Ch in Ic. destruct Ic as (t & It & C). pose proof C as C'.
  destruct C' as (p & k & i & j & r & s0 & sk & si & sj & oR & R' & oprod & odec & prod & dec & _ & _ & _ & _ & _ & _ & _ & K0 & P & K1 & Q & ->).
  exists t, oprod, odec. cbn. auto 10.
Qed.
