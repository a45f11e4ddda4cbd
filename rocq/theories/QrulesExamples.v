(** Concrete reactions: witnesses for the hypotheses of the adapter properties and counterexamples *)
From Coq Require Import String ZArith QArith Qcanon List Bool Lia Sorted Permutation.
From Verif Require Import Prelude Spin SpinFacts Decay DecayFacts DecayProofs Qrules SpecQrules QrulesFacts QrulesNorm QrulesThree QrulesFilter QrulesConvert QrulesDecay QrulesLabels QrulesMinLs.
Import ListNotations.
Local Open Scope string_scope.
Local Open Scope Z_scope.
Local Open Scope list_scope.

(** J/psi -> gamma pi0 pi0, the labels given by [p], [a], [b], [c] in ascending order and the
    resonance last *)
Definition qx_q (name : string) (spin : Z) (parity : option Z) : edge_obj :=
  EQState (QParticle name (Some ("\" ++ name)%string) (Qc_of_Z spin) parity (Qc_of_Z 1) (Qc_of_Z 0)) (Qc_of_Z 0).
Definition qx_topology (p a b c r s : Z) : topology :=
  let e x := if x =? s then Edge (Some 0) None else Edge (Some 1) None in
  Topology [0; 1] [(p, Edge None (Some 0)); (a, e a); (b, e b); (c, e c); (r, Edge (Some 0) (Some 1))].
Definition qx_t (p a b c r s : Z) (R : string) (prod dec : node_obj) : raw_transition :=
  Transition (qx_topology p a b c r s)
    [(p, qx_q "J/psi" 1 (Some (-1))); (a, qx_q "gamma" 1 (Some (-1))); (b, qx_q "pi0" 0 (Some (-1)));
     (c, qx_q "pi0" 0 (Some (-1))); (r, qx_q R 0 (Some 1))] [(0, prod); (1, dec)].
Definition qx_ls (l s : Z) : node_obj := NProps (Some l) (Some (Qc_of_Z s)).

(** QRules numbers the initial state -1, the final states 0, 1, 2 and the resonance 3. *)
Definition qx_reaction : list raw_transition :=
  [qx_t (-1) 0 1 2 3 0 "f(0)(980)" (qx_ls 2 1) (qx_ls 0 0);
   qx_t (-1) 0 1 2 3 0 "f(0)(980)" (qx_ls 0 1) (qx_ls 0 0);
   qx_t (-1) 0 1 2 3 1 "omega" (qx_ls 1 1) (qx_ls 1 1);
   qx_t (-1) 0 1 2 3 2 "omega" (qx_ls 1 1) (qx_ls 1 1)].
Definition qx_standard : list raw_transition :=
  [qx_t 0 1 2 3 4 1 "f(0)(980)" (qx_ls 2 1) (qx_ls 0 0);
   qx_t 0 1 2 3 4 1 "f(0)(980)" (qx_ls 0 1) (qx_ls 0 0)].

Lemma qx_three_body p a b c r s R prod dec : p < a -> a < b -> b < c -> c < r ->
  (s = a -> three_body (qx_t p a b c r s R prod dec) p a b c r) /\
  (s = b -> three_body (qx_t p a b c r s R prod dec) p b a c r) /\
  (s = c -> three_body (qx_t p a b c r s R prod dec) p c a b r).
Proof.
  intros L1 L2 L3 L4.
  assert (As : ascending [p; a; b; c; r]).
  { repeat constructor; lia. }
  assert (ND : NoDup [p; a; b; c; r]) by (apply ascending_NoDup; auto).
  assert (Q : forall x y, x <> y -> (x =? y) = false) by (intros; apply Z.eqb_neq; auto).
  split; [|split]; intros ->; (split; [split; [reflexivity|split; [lia|split]]|split; [exact As|split; reflexivity]]).
  - exact ND.
  - cbn [tr_topology qx_t qx_topology t_edges]. rewrite Z.eqb_refl, !Q by lia. apply perm_skip, perm_skip.
    symmetry. apply (Permutation_app_comm [_] [_; _]).
  - eapply Permutation_NoDup; [|exact ND]. apply perm_skip, perm_swap.
  - cbn [tr_topology qx_t qx_topology t_edges]. rewrite Z.eqb_refl, !Q by lia. apply perm_skip.
    eapply perm_trans; [apply perm_swap|]. apply perm_skip. symmetry. apply (Permutation_app_comm [_] [_; _]).
  - eapply Permutation_NoDup; [|exact ND]. apply perm_skip. apply (Permutation_app_comm [a; b] [c; r]) || idtac.
    eapply perm_trans; [apply perm_skip, perm_swap|]. apply perm_swap.
  - cbn [tr_topology qx_t qx_topology t_edges]. rewrite Z.eqb_refl, !Q by lia. apply perm_skip.
    eapply perm_trans; [apply perm_skip, perm_swap|]. eapply perm_trans; [apply perm_swap|]. apply perm_skip.
    symmetry. apply (Permutation_app_comm [_] [_; _]).
Qed.
Definition qx_shape (p a b c r : Z) (t : raw_transition) : Prop :=
  exists s R l S l' S', In s [a; b; c] /\ t = qx_t p a b c r s R (qx_ls l S) (qx_ls l' S').
Lemma qx_shape_three_body p a b c r t : p < a -> a < b -> b < c -> c < r -> qx_shape p a b c r t ->
  exists k i j, three_body t p k i j r /\ Permutation [k; i; j] [a; b; c].
Proof.
  intros L1 L2 L3 L4 (s & R & l & S & l' & S' & I & ->).
  destruct (qx_three_body p a b c r s R (qx_ls l S) (qx_ls l' S') L1 L2 L3 L4) as (A & B & C).
  destruct I as [<-|[<-|[<-|[]]]].
  - exists a, b, c. split; auto.
  - exists b, a, c. split; auto. apply perm_swap.
  - exists c, a, b. split; auto. apply (Permutation_app_comm [c] [a; b]).
Qed.
Lemma Qc_of_Z_mult2 n : (Qc_of_Z (2 * n) = Qc_of_Z 2 * Qc_of_Z n)%Qc.
Proof.
  apply Qc_is_canon. rewrite Qc_of_Z_eq. cbn [Qcmult this Q2Qc]. rewrite Qred_correct, !Qc_of_Z_eq. rewrite <- inject_Z_mult. reflexivity.
Qed.
Lemma qx_converts name spin parity : parity <> None -> exists q, converts_particle (qx_q name spin parity) q.
Proof.
  intros N. exists (Particle name ("\" ++ name)%string (2 * spin) parity (Qc_of_Z 1) (Qc_of_Z 0)).
  cbn [qx_q converts_particle]. unfold converts_q. cbn [q_name q_latex q_spin q_parity q_mass q_width p_name p_latex p_spin p_parity p_mass p_width].
  split; auto. split; auto. split; [apply Qc_of_Z_mult2|]. auto.
Qed.
Lemma qx_ready p a b c r ts : p < a -> a < b -> b < c -> c < r -> ts <> [] ->
  (forall t, In t ts -> qx_shape p a b c r t) -> ready ts /\ forall t, In t ts -> initial_first t.
Proof.
  intros L1 L2 L3 L4 NE Sh.
  assert (TB : forall t, In t ts -> exists k i j, three_body t p k i j r /\ Permutation [k; i; j] [a; b; c]).
  { intros t I. apply qx_shape_three_body; auto. }
  assert (Out : forall t x, In t ts -> In x [p; a; b; c] -> x < r).
  { intros t x _. cbn. intuition lia. }
  split; [split; [auto|split]|].
  - exists p, r. split; [|split; [|split]].
    + intros t I. destruct (TB t I) as (k & i & j & T & _). eauto.
    + intros t t' I I'. destruct (Sh t I) as (s & R & l & S & l' & S' & _ & ->).
      destruct (Sh t' I') as (s1 & R1 & l1 & S1 & l1' & S1' & _ & ->). reflexivity.
    + intros t t' x o o' I I' Nx X X'. destruct (Sh t I) as (s & R & l & S & l' & S' & _ & ->).
      destruct (Sh t' I') as (s1 & R1 & l1 & S1 & l1' & S1' & _ & ->).
      assert (o = o').
      { unfold state_of in X, X'. cbn [qx_t tr_states dget] in X, X'. revert X X'.
        repeat (destruct eq_dec; [congruence|]). congruence. }
      subst o'. clear X'. assert (exists n s pa, pa <> None /\ o = qx_q n s pa) as (n & s' & pa & Np & ->).
      { unfold state_of in X. cbn [qx_t tr_states dget] in X. revert X.
        repeat (destruct eq_dec; [intros X; injection X as <-; eexists _, _, _; split; [|reflexivity]; congruence|]). discriminate. }
      destruct (qx_converts n s' pa Np) as (q & Q). exists q; auto.
    + intros t t' n o o' I I' X X'. destruct (Sh t I) as (s & R & l & S & l' & S' & _ & ->).
      destruct (Sh t' I') as (s1 & R1 & l1 & S1 & l1' & S1' & _ & ->).
      assert (forall l S l' S', coupling_of (qx_t p a b c r s R (qx_ls l S) (qx_ls l' S')) n = Some o -> exists l S, o = qx_ls l S) as G.
      { clear. intros l S l' S' X. unfold coupling_of in X. cbn [qx_t tr_interactions dget] in X. revert X.
        repeat (destruct eq_dec; [intros X; injection X as <-; eauto|]). discriminate. }
      assert (forall l S l' S', coupling_of (qx_t p a b c r s R (qx_ls l S) (qx_ls l' S')) n = Some o' -> exists l S, o' = qx_ls l S) as G'.
      { clear. intros l S l' S' X. unfold coupling_of in X. cbn [qx_t tr_interactions dget] in X. revert X.
        repeat (destruct eq_dec; [intros X; injection X as <-; eauto|]). discriminate. }
      destruct (G _ _ _ _ X) as (? & ? & ->). destruct (G' _ _ _ _ X') as (? & ? & ->).
      cbn. split; intros (y & Y & _); discriminate.
  - intros t I. destruct (TB t I) as (k & i & j & T & P). split; [|split].
    + destruct (Sh t I) as (s & R & l & S & l' & S' & _ & ->). split.
      * intros x o X. cbn [qx_t tr_states In] in X.
        assert (exists n s pa, pa <> None /\ o = qx_q n s pa) as (n & s' & pa & Np & ->).
        { repeat (destruct X as [X|X]; [injection X as _ <-; eexists _, _, _; split; [|reflexivity]; congruence|]). destruct X. }
        cbn. split; auto. exists (2 * s'). symmetry. apply Qc_of_Z_mult2.
      * intros x o X. cbn [qx_t tr_interactions In] in X.
        assert (exists l S, o = qx_ls l S) as (l0 & S0 & ->).
        { repeat (destruct X as [X|X]; [injection X as _ <-; eauto|]). destruct X. }
        cbn. exists (2 * S0). symmetry. apply Qc_of_Z_mult2.
    + destruct (Sh t I) as (s & R & l & S & l' & S' & _ & ->). intros x o X. cbn [qx_t tr_states In] in X.
      repeat (destruct X as [X|X]; [injection X as _ <-; exact Logic.I|]). destruct X.
    + intros p1 k1 i1 j1 r1 T1 x X. destruct (three_body_unique t t _ _ _ _ _ _ _ _ _ _ T1 T eq_refl) as (-> & -> & -> & -> & ->).
      destruct X as [<-|X]; [lia|]. apply (Permutation_in _ P) in X. cbn in X. lia.
  - intros t I. destruct (TB t I) as (k & i & j & T & P).
    intros p1 k1 i1 j1 r1 T1 x X. destruct (three_body_unique t t _ _ _ _ _ _ _ _ _ _ T1 T eq_refl) as (-> & -> & -> & -> & ->).
    apply (Permutation_in _ P) in X. cbn in X. lia.
Qed.

Lemma qx_reaction_ready : ready qx_reaction /\ forall t, In t qx_reaction -> initial_first t.
Proof.
  apply (qx_ready (-1) 0 1 2 3); try lia; [discriminate|]. intros t I.
  repeat (destruct I as [<-|I]; [unfold qx_shape; do 6 eexists; split; [|reflexivity]; cbn; auto|]). destruct I.
Qed.
Lemma qx_standard_ready : ready qx_standard /\ forall t, In t qx_standard -> initial_first t.
Proof.
  apply (qx_ready 0 1 2 3 4); try lia; [discriminate|]. intros t I.
  repeat (destruct I as [<-|I]; [unfold qx_shape; do 6 eexists; split; [|reflexivity]; cbn; auto|]). destruct I.
Qed.

(** ** Counterexamples *)
(** C44: the least couplings of the two nodes come from different transitions. *)
Definition qx_mixed : list raw_transition :=
  [qx_t 0 1 2 3 4 1 "f(2)" (qx_ls 0 1) (qx_ls 2 0); qx_t 0 1 2 3 4 1 "f(2)" (qx_ls 2 1) (qx_ls 0 0)].
Lemma qx_mixed_ready : ready qx_mixed /\ forall t, In t qx_mixed -> initial_first t.
Proof.
  apply (qx_ready 0 1 2 3 4); try lia; [discriminate|]. intros t I.
  repeat (destruct I as [<-|I]; [unfold qx_shape; do 6 eexists; split; [|reflexivity]; cbn; auto|]). destruct I.
Qed.
Definition get {A} (d : A) (r : res A) : A := match r with Ok a => a | Err _ => d end.
Definition qx_mixed_us : list dpd_transition := get [] (convert_transitions qx_mixed).
Definition qx_mixed_l : list dpd_transition := get [] (filter_min_ls (reiterable qx_mixed_us) None).
Lemma qx_mixed_us_ok : convert_transitions qx_mixed = Ok qx_mixed_us.
Proof. vm_compute. reflexivity. Qed.
Lemma qx_mixed_l_ok : filter_min_ls (reiterable qx_mixed_us) None = Ok qx_mixed_l.
Proof. vm_compute. reflexivity. Qed.
Lemma qx_mixed_fact : qx_mixed_l <> [] /\ forall u, In u qx_mixed_l -> ~ In u qx_mixed_us.
Proof.
  assert (X : forallb (fun u => negb (memb u qx_mixed_us)) qx_mixed_l = true) by (vm_compute; reflexivity).
  split.
  - intros Q. assert (Y : length qx_mixed_l = 1%nat) by (vm_compute; reflexivity). rewrite Q in Y. discriminate Y.
  - intros u I J. rewrite forallb_forall in X. specialize (X u I). apply memb_In in J. rewrite J in X. discriminate X.
Qed.

Lemma qx_t_standard a b c r s R prod dec : 0 < a -> a < b -> b < c -> c < r -> In s [a; b; c] ->
  Permutation [a; b; c] [1; 2; 3] -> standard_labels (qx_t 0 a b c r s R prod dec).
Proof.
  intros L1 L2 L3 L4 I P. destruct (qx_three_body 0 a b c r s R prod dec L1 L2 L3 L4) as (A & B & C).
  destruct I as [<-|[<-|[<-|[]]]].
  - apply (standard_ids _ _ _ _ _ _ (A eq_refl)). auto.
  - apply (standard_ids _ _ _ _ _ _ (B eq_refl)). split; auto. eapply perm_trans; [apply perm_swap|auto].
  - apply (standard_ids _ _ _ _ _ _ (C eq_refl)). split; auto.
    eapply perm_trans; [apply (Permutation_app_comm [c] [a; b])|auto].
Qed.
Lemma c44_refuted : exists ts us l, ready ts /\ (forall t, In t ts -> initial_first t) /\
  convert_transitions ts = Ok us /\ (forall u u', In u us -> In u' us -> same_process u u') /\
  filter_min_ls (reiterable us) None = Ok l /\ l <> [] /\ forall u, In u l -> ~ In u us.
Proof.
  exists qx_mixed, qx_mixed_us, qx_mixed_l. split; [apply qx_mixed_ready|]. split; [apply qx_mixed_ready|].
  split; [exact qx_mixed_us_ok|]. split; [|split; [exact qx_mixed_l_ok|exact qx_mixed_fact]].
  destruct (ready_convert qx_mixed) as (r & us & C & G & _); [apply qx_mixed_ready| |].
  - intros t I. assert (P : Permutation [1; 2; 3] [1; 2; 3]) by apply Permutation_refl.
    repeat (destruct I as [<-|I]; [apply qx_t_standard; auto; cbn; auto; lia|]). destruct I.
  - rewrite qx_mixed_us_ok in C. injection C as C. rewrite <- C in G. exact (good_process r qx_mixed_us G).
Qed.
Definition qx_d : decay := Decay [] [].
Lemma c44_decay_refuted : exists ts d0 d, ready ts /\ (forall t, In t ts -> initial_first t) /\
  to_three_body_decay ts (MinLS false) = Ok d0 /\ to_three_body_decay ts (MinLS true) = Ok d /\
  d_chains d <> [] /\ forall c, In c (d_chains d) -> ~ In c (d_chains d0).
Proof.
  exists qx_mixed, (get qx_d (to_three_body_decay qx_mixed (MinLS false))),
    (get qx_d (to_three_body_decay qx_mixed (MinLS true))).
  split; [apply qx_mixed_ready|]. split; [apply qx_mixed_ready|].
  split; [vm_compute; reflexivity|]. split; [vm_compute; reflexivity|].
  assert (X : forallb (fun u => negb (memb u (d_chains (get qx_d (to_three_body_decay qx_mixed (MinLS false))))))
    (d_chains (get qx_d (to_three_body_decay qx_mixed (MinLS true)))) = true) by (vm_compute; reflexivity).
  split.
  - intros Q. assert (Y : length (d_chains (get qx_d (to_three_body_decay qx_mixed (MinLS true)))) = 1%nat) by (vm_compute; reflexivity).
    rewrite Q in Y. discriminate Y.
  - intros u I J. rewrite forallb_forall in X. specialize (X u I). apply memb_In in J. rewrite J in X. discriminate X.
Qed.

(** C45 *)
Lemma c45_refuted {E M} `{EqDec E} `{EqDec M} `{CmpLaws M} (ts : list (transition E (option M))) :
  (forall a b : M, is_ok (cmp a b)) ->
  ts <> [] -> (forall t, In t ts -> is_three_body t) ->
  (exists l, filter_min_ls (reiterable ts) None = Ok l /\ l <> []) /\ filter_min_ls (one_shot ts) None = Ok [].
Proof.
  intros Tot NE TB. split; [|apply one_shot_empty; auto].
  destruct (filter_spec Tot ts None NE TB) as (l & E1 & N & _); [left; cbn; auto|]. eauto.
Qed.

(** C49: the converted transitions keep their old labels. *)
Definition qx_us : list dpd_transition := get [] (convert_transitions qx_reaction).
Lemma c49_converted_refuted : exists ts us d, ready ts /\ (forall t, In t ts -> initial_first t) /\
  convert_transitions ts = Ok us /\
  to_three_body_decay ts (MinLS false) = Ok d /\ to_three_body_decay (map as_raw us) (MinLS false) = Err ValueError.
Proof.
  exists qx_reaction, qx_us, (get qx_d (to_three_body_decay qx_reaction (MinLS false))).
  split; [apply qx_reaction_ready|]. split; [apply qx_reaction_ready|].
  split; [vm_compute; reflexivity|]. split; vm_compute; reflexivity.
Qed.
(** A resonance with an ID below that of its spectator is taken for the spectator. *)
Definition qx_low : raw_transition :=
  Transition (Topology [0; 1] [(-1, Edge (Some 0) (Some 1)); (0, Edge None (Some 0)); (1, Edge (Some 0) None);
      (2, Edge (Some 1) None); (3, Edge (Some 1) None)])
    [(-1, qx_q "f(0)(980)" 0 (Some 1)); (0, qx_q "J/psi" 1 (Some (-1))); (1, qx_q "gamma" 1 (Some (-1)));
     (2, qx_q "pi0" 0 (Some (-1))); (3, qx_q "pi0" 0 (Some (-1)))] [(0, qx_ls 0 1); (1, qx_ls 0 0)].
Lemma c49_resonance_refuted : exists t, is_three_body t /\ standard_labels t /\ convertible t /\ fresh t /\
  forall m, to_three_body_decay [t] m = Err ValueError.
Proof.
  assert (T : three_body qx_low 0 1 2 3 (-1)).
  { split; [split; [reflexivity|split; [lia|split]]|split; [|split; reflexivity]].
    - repeat constructor; cbn; intuition lia.
    - cbn [tr_topology qx_low t_edges]. eapply perm_trans; [apply perm_swap|]. apply perm_skip. apply perm_swap.
    - repeat constructor; lia. }
  exists qx_low. split; [exists 0, 1, 2, 3, (-1); auto|]. split; [apply (standard_ids _ _ _ _ _ _ T); auto|].
  split; [|split].
  - split.
    + intros x o X. cbn [qx_low tr_states In] in X.
      assert (exists n s pa, pa <> None /\ o = qx_q n s pa) as (n & s' & pa & Np & ->).
      { repeat (destruct X as [X|X]; [injection X as _ <-; eexists _, _, _; split; [|reflexivity]; congruence|]). destruct X. }
      cbn. split; auto. exists (2 * s'). symmetry. apply Qc_of_Z_mult2.
    + intros x o X. cbn [qx_low tr_interactions In] in X.
      assert (exists l S, o = qx_ls l S) as (l0 & S0 & ->).
      { repeat (destruct X as [X|X]; [injection X as _ <-; eauto|]). destruct X. }
      cbn. exists (2 * S0). symmetry. apply Qc_of_Z_mult2.
  - intros x o X. cbn [qx_low tr_states In] in X. repeat (destruct X as [X|X]; [injection X as _ <-; exact Logic.I|]). destruct X.
  - intros [[|]|[|] [|]]; vm_compute; reflexivity.
Qed.

(** C65: the couplings are taken in the order of the items of the dictionary. *)
Definition qx_one (swapped : bool) : raw_transition :=
  let t := qx_t 0 1 2 3 4 1 "f(0)(980)" (qx_ls 2 1) (qx_ls 0 0) in
  if swapped then Transition (tr_topology t) (tr_states t) [(1, qx_ls 0 0); (0, qx_ls 2 1)] else t.
Lemma c65_refuted : exists t t' d d', ready [t] /\
  tr_topology t' = tr_topology t /\ tr_states t' = tr_states t /\ (forall n, coupling_of t' n = coupling_of t n) /\
  to_three_body_decay [t] (MinLS false) = Ok d /\ to_three_body_decay [t'] (MinLS false) = Ok d' /\ d' <> d.
Proof.
  exists (qx_one false), (qx_one true), (get qx_d (to_three_body_decay [qx_one false] (MinLS false))),
    (get qx_d (to_three_body_decay [qx_one true] (MinLS false))).
  split; [|split; [reflexivity|split; [reflexivity|split]]].
  - apply (qx_ready 0 1 2 3 4); try lia; [discriminate|]. intros t [<-|[]].
    unfold qx_shape; do 6 eexists; split; [|reflexivity]; cbn; auto.
  - intros n. unfold coupling_of. cbn [qx_one qx_t tr_interactions dget].
    destruct (eq_dec n 0) as [->|N0]; [reflexivity|]. destruct (eq_dec n 1) as [Q|N1]; reflexivity.
  - split; [vm_compute; reflexivity|]. split; [vm_compute; reflexivity|]. intros Q.
    assert (X : eqb (d_chains (get qx_d (to_three_body_decay [qx_one true] (MinLS false))))
      (d_chains (get qx_d (to_three_body_decay [qx_one false] (MinLS false)))) = false) by (vm_compute; reflexivity).
    rewrite Q in X. rewrite eqb_refl in X. discriminate X.
Qed.

(** C69: the labels of the first transition decide. *)
Definition qx_l1 := qx_t 0 1 2 3 4 1 "f(0)(980)" (qx_ls 2 1) (qx_ls 0 0).
Definition qx_l2 := qx_t (-1) 0 1 2 3 0 "f(0)(980)" (qx_ls 0 1) (qx_ls 0 0).
Lemma c69_refuted : exists t t' d, ready [t] /\ ready [t'] /\ initial_first t /\ initial_first t' /\
  to_three_body_decay [t; t'] (MinLS false) = Ok d /\ to_three_body_decay [t'; t] (MinLS false) = Err ValueError.
Proof.
  exists qx_l2, qx_l1, (get qx_d (to_three_body_decay [qx_l2; qx_l1] (MinLS false))).
  assert (R1 : ready [qx_l1] /\ forall t, In t [qx_l1] -> initial_first t).
  { apply (qx_ready 0 1 2 3 4); try lia; [discriminate|]. intros t [<-|[]].
    unfold qx_shape; do 6 eexists; split; [|reflexivity]; cbn; auto. }
  assert (R2 : ready [qx_l2] /\ forall t, In t [qx_l2] -> initial_first t).
  { apply (qx_ready (-1) 0 1 2 3); try lia; [discriminate|]. intros t [<-|[]].
    unfold qx_shape; do 6 eexists; split; [|reflexivity]; cbn; auto. }
  split; [apply R2|]. split; [apply R1|]. split; [apply R2; left; auto|]. split; [apply R1; left; auto|].
  split; vm_compute; reflexivity.
Qed.

(** ** Witnesses *)
Lemma qx_uniform_labels : forall t t', In t qx_reaction -> In t' qx_reaction -> (standard_labels t <-> standard_labels t').
Proof. apply uniform_labels. apply qx_reaction_ready. Qed.
Lemma qx_reaction_transitions : forall t, In t qx_reaction -> is_transition t /\ NoDup (map fst (tr_interactions t)).
Proof. intros t I. apply (one_reaction_in qx_reaction); auto. apply qx_reaction_ready. Qed.
Definition qx_no_parity : raw_transition :=
  Transition (qx_topology (-1) 0 1 2 3 0)
    [(-1, qx_q "J/psi" 1 (Some (-1))); (0, qx_q "W" 1 None); (1, qx_q "pi0" 0 (Some (-1)));
     (2, qx_q "pi0" 0 (Some (-1))); (3, qx_q "f(0)(980)" 0 (Some 1))] [(0, qx_ls 0 1); (1, qx_ls 0 0)].
Lemma qx_no_parity_transition : is_transition qx_no_parity.
Proof.
  split; [|split].
  - repeat constructor; cbn; intuition lia.
  - repeat constructor; cbn; intuition lia.
  - intros i. reflexivity.
Qed.
Lemma qx_no_parity_edges : forall i o, In (i, o) (tr_states qx_no_parity) -> convertible_edge o \/ lacks_parity o.
Proof.
  intros x o X. cbn [qx_no_parity tr_states In] in X.
  assert (exists n s pa, o = qx_q n s pa) as (n & s' & pa & ->).
  { repeat (destruct X as [X|X]; [injection X as _ <-; eexists _, _, _; reflexivity|]). destruct X. }
  destruct pa as [z|]; [left|right; reflexivity]. cbn. split; [exists (2 * s'); symmetry; apply Qc_of_Z_mult2|congruence].
Qed.
Lemma qx_no_parity_nodes : forall n o, In (n, o) (tr_interactions qx_no_parity) -> convertible_node o.
Proof.
  intros x o X. cbn [qx_no_parity tr_interactions In] in X.
  assert (exists l S, o = qx_ls l S) as (l0 & S0 & ->).
  { repeat (destruct X as [X|X]; [injection X as _ <-; eauto|]). destruct X. }
  cbn. exists (2 * S0). symmetry. apply Qc_of_Z_mult2.
Qed.
(** Three equal final states, as converted transitions *)
Definition qx_pi (n : Z) : pobj := PSt (State (Particle "pi0" "pi0" 0 (Some (-1)) (Qc_of_Z 1) (Qc_of_Z 0)) n).
Definition qx_pi_repr (o : pobj) : res string := uniqueness_repr (edge_of_pobj o).
Definition qx_3pi : dpd_transition :=
  Transition (qx_topology 0 1 2 3 4 1)
    [(0, qx_pi 0); (1, qx_pi 1); (2, qx_pi 2); (3, qx_pi 3); (4, qx_pi 4)] [(0, Some (LS 0 2)); (1, Some (LS 0 0))].
Lemma qx_3pi_three_body : three_body qx_3pi 0 1 2 3 4.
Proof.
  destruct (qx_three_body 0 1 2 3 4 1 "" NNone NNone) as (A & _); try lia. specialize (A eq_refl).
  destruct A as (G & A & _). split; [exact G|]. split; [exact A|]. split; reflexivity.
Qed.
Lemma qx_3pi_result : exists l, permute_equal_final_states qx_pi_repr qx_3pi = Ok l /\ length l = 3%nat.
Proof. eexists. split; vm_compute; reflexivity. Qed.
Lemma qx_mixed_unambiguous ids : unambiguous ids qx_mixed_us.
Proof.
  destruct (ready_convert qx_mixed) as (r & us & C & G & _); [apply qx_mixed_ready| |].
  - intros t I. assert (P : Permutation [1; 2; 3] [1; 2; 3]) by apply Permutation_refl.
    repeat (destruct I as [<-|I]; [apply qx_t_standard; auto; cbn; auto; lia|]). destruct I.
  - rewrite qx_mixed_us_ok in C. injection C as C. rewrite <- C in G. right. right. apply G.
Qed.
Lemma qx_mixed_us_three_body : qx_mixed_us <> [] /\ (forall t, In t qx_mixed_us -> is_three_body t) /\
  (forall u u', In u qx_mixed_us -> In u' qx_mixed_us -> same_process u u').
Proof.
  destruct (ready_convert qx_mixed) as (r & us & C & G & NE & _); [apply qx_mixed_ready| |].
  - intros t I. assert (P : Permutation [1; 2; 3] [1; 2; 3]) by apply Permutation_refl.
    repeat (destruct I as [<-|I]; [apply qx_t_standard; auto; cbn; auto; lia|]). destruct I.
  - rewrite qx_mixed_us_ok in C. injection C as C. rewrite <- C in G, NE. split; [exact NE|].
    split; [exact (good_three_body r _ G)|exact (good_process r _ G)].
Qed.
Definition qx_standard_us : list dpd_transition := get [] (convert_transitions qx_standard).
Lemma qx_standard_us_ok : convert_transitions qx_standard = Ok qx_standard_us.
Proof. vm_compute. reflexivity. Qed.
Lemma qx_standard_us_facts : length qx_standard_us = 2%nat /\ (forall t, In t qx_standard_us -> is_three_body t) /\
  (forall u u', In u qx_standard_us -> In u' qx_standard_us -> same_process u u') /\
  (forall ids, unambiguous ids qx_standard_us) /\ (forall ids, independent_couplings ids qx_standard_us).
Proof.
  split; [vm_compute; reflexivity|].
  destruct (ready_convert qx_standard) as (r & us & C & G & NE & _); [apply qx_standard_ready| |].
  - intros t I. assert (P : Permutation [1; 2; 3] [1; 2; 3]) by apply Permutation_refl.
    repeat (destruct I as [<-|I]; [apply qx_t_standard; auto; cbn; auto; lia|]). destruct I.
  - rewrite qx_standard_us_ok in C. injection C as C. rewrite <- C in G, NE.
    split; [exact (good_three_body r _ G)|]. split; [exact (good_process r _ G)|]. split; [right; right; apply G|].
    intros ids t t' I I' SG. exists t. split; [exact I|]. split; [|split; [reflexivity|]].
    + apply same_group_refl. exact (good_three_body r _ G t I).
    + assert (X : forallb (fun t => forallb (fun t' => eqb (coupling_of t 1) (coupling_of t' 1)) qx_standard_us) qx_standard_us = true)
        by (vm_compute; reflexivity).
      rewrite forallb_forall in X. specialize (X t I). rewrite forallb_forall in X. specialize (X t' I').
      exact (proj1 (Prelude.eqb_eq _ _) X).
Qed.
