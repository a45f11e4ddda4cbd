(** D0 -> pi0 pi0 K_S0 with a K_2* in the pi0 K system of the first pion and an f0 that decays into the pions: what C110 needs *)
From Coq Require Import String ZArith QArith Qcanon List Bool Lia Sorted Permutation Reals.
From Coquelicot Require Import Complex.
From Verif Require Import Prelude Spin SpinFacts Decay DecayFacts DecayProofs Qrules SpecQrules QrulesFacts QrulesNorm QrulesThree QrulesFilter
  QrulesConvert QrulesDecay QrulesLabels QrulesMinLs QrulesExamples SpecWorkflow WorkflowExamples SpecIdentical IdenticalFacts IdenticalProofs.
From Verif Require Import Expr Angles CExpr Builder SpecKin SpecDPD Dynamics SpecDynamics SpecRelabel SpecReorder RelabelExamples RelabelShapeExamples ReorderExamples.
Import ListNotations.
Local Open Scope string_scope.
Local Open Scope Z_scope.
Local Open Scope list_scope.

(** The objects of QRules have an equality; an order between different ones is not needed. *)
Global Instance EqDec_Qc : EqDec Qc := Qc_eq_dec.
Global Instance EqDec_qparticle : EqDec qparticle.
Proof. unfold EqDec; decide equality; apply eq_dec. Defined.
Global Instance EqDec_edge_obj : EqDec edge_obj.
Proof. unfold EqDec; decide equality; apply eq_dec. Defined.
Global Instance EqDec_node_obj : EqDec node_obj.
Proof. unfold EqDec; decide equality; apply eq_dec. Defined.
Definition unordered {A} `{EqDec A} (a b : A) : res comparison := if eq_dec a b then Ok Eq else Err TypeError.
Global Instance Cmp_edge_obj : Cmp edge_obj := unordered.
Global Instance Cmp_node_obj : Cmp node_obj := unordered.
Lemma unordered_laws {A} `{EqDec A} : @CmpLaws A unordered.
Proof.
  split; unfold cmp, unordered.
  - intros a b. destruct (eq_dec a b); split; congruence.
  - intros a b c. destruct (eq_dec a b) as [->|N]; [|discriminate]. intros E. injection E as <-. destruct (eq_dec b b); [reflexivity|congruence].
  - intros a b c. destruct (eq_dec a b); discriminate.
Qed.
Global Instance CmpLaws_edge_obj : CmpLaws edge_obj := unordered_laws.
Global Instance CmpLaws_node_obj : CmpLaws node_obj := unordered_laws.

Definition ix_t (p a b c r s : Z) (R : string) (n : Z) (prod dec : node_obj) : raw_transition :=
  Transition (qx_topology p a b c r s)
    [(p, qx_q "D0" 0 (Some (-1))); (a, qx_q "pi0" 0 (Some (-1))); (b, qx_q "pi0" 0 (Some (-1)));
     (c, qx_q "K(S)0" 0 (Some (-1))); (r, qx_q R n (Some 1))] [(0, prod); (1, dec)].
Definition ix_reaction : list raw_transition :=
  [ix_t (-1) 0 1 2 3 0 "K(2)*(1430)" 2 (qx_ls 2 2) (qx_ls 2 0);
   ix_t (-1) 0 1 2 3 2 "f(0)(980)" 0 (qx_ls 0 0) (qx_ls 0 0)].
Lemma ix_three_body p a b c r s R jR prod dec : p < a -> a < b -> b < c -> c < r ->
  (s = a -> three_body (ix_t p a b c r s R jR prod dec) p a b c r) /\
  (s = b -> three_body (ix_t p a b c r s R jR prod dec) p b a c r) /\
  (s = c -> three_body (ix_t p a b c r s R jR prod dec) p c a b r).
Proof.
  intros L1 L2 L3 L4.
  assert (As : ascending [p; a; b; c; r]).
  { repeat constructor; lia. }
  assert (ND : NoDup [p; a; b; c; r]) by (apply ascending_NoDup; auto).
  assert (Q : forall x y, x <> y -> (x =? y) = false) by (intros; apply Z.eqb_neq; auto).
  split; [|split]; intros ->; (split; [split; [reflexivity|split; [lia|split]]|split; [exact As|split; reflexivity]]).
  - exact ND.
  - cbn [tr_topology ix_t qx_topology t_edges]. rewrite Z.eqb_refl, !Q by lia. apply perm_skip, perm_skip.
    symmetry. apply (Permutation_app_comm [_] [_; _]).
  - eapply Permutation_NoDup; [|exact ND]. apply perm_skip, perm_swap.
  - cbn [tr_topology ix_t qx_topology t_edges]. rewrite Z.eqb_refl, !Q by lia. apply perm_skip.
    eapply perm_trans; [apply perm_swap|]. apply perm_skip. symmetry. apply (Permutation_app_comm [_] [_; _]).
  - eapply Permutation_NoDup; [|exact ND]. apply perm_skip. apply (Permutation_app_comm [a; b] [c; r]) || idtac.
    eapply perm_trans; [apply perm_skip, perm_swap|]. apply perm_swap.
  - cbn [tr_topology ix_t qx_topology t_edges]. rewrite Z.eqb_refl, !Q by lia. apply perm_skip.
    eapply perm_trans; [apply perm_skip, perm_swap|]. eapply perm_trans; [apply perm_swap|]. apply perm_skip.
    symmetry. apply (Permutation_app_comm [_] [_; _]).
Qed.
Definition ix_shape (p a b c r : Z) (t : raw_transition) : Prop :=
  exists s R jR l S l' S', In s [a; b; c] /\ t = ix_t p a b c r s R jR (qx_ls l S) (qx_ls l' S').
Lemma ix_shape_three_body p a b c r t : p < a -> a < b -> b < c -> c < r -> ix_shape p a b c r t ->
  exists k i j, three_body t p k i j r /\ Permutation [k; i; j] [a; b; c].
Proof.
  intros L1 L2 L3 L4 (s & R & jR & l & S & l' & S' & I & ->).
  destruct (ix_three_body p a b c r s R jR (qx_ls l S) (qx_ls l' S') L1 L2 L3 L4) as (A & B & C).
  destruct I as [<-|[<-|[<-|[]]]].
  - exists a, b, c. split; auto.
  - exists b, a, c. split; auto. apply perm_swap.
  - exists c, a, b. split; auto. apply (Permutation_app_comm [c] [a; b]).
Qed.
Lemma ix_ready p a b c r ts : p < a -> a < b -> b < c -> c < r -> ts <> [] ->
  (forall t, In t ts -> ix_shape p a b c r t) -> ready ts /\ forall t, In t ts -> initial_first t.
Proof.
  intros L1 L2 L3 L4 NE Sh.
  assert (TB : forall t, In t ts -> exists k i j, three_body t p k i j r /\ Permutation [k; i; j] [a; b; c]).
  { intros t I. apply ix_shape_three_body; auto. }
  assert (Out : forall t x, In t ts -> In x [p; a; b; c] -> x < r).
  { intros t x _. cbn. intuition lia. }
  split; [split; [auto|split]|].
  - exists p, r. split; [|split; [|split]].
    + intros t I. destruct (TB t I) as (k & i & j & T & _). eauto.
    + intros t t' I I'. destruct (Sh t I) as (s & R & jR & l & S & l' & S' & _ & ->).
      destruct (Sh t' I') as (s1 & R1 & jR1 & l1 & S1 & l1' & S1' & _ & ->). reflexivity.
    + intros t t' x o o' I I' Nx X X'. destruct (Sh t I) as (s & R & jR & l & S & l' & S' & _ & ->).
      destruct (Sh t' I') as (s1 & R1 & jR1 & l1 & S1 & l1' & S1' & _ & ->).
      assert (o = o').
      { unfold state_of in X, X'. cbn [ix_t tr_states dget] in X, X'. revert X X'.
        repeat (destruct eq_dec; [congruence|]). congruence. }
      subst o'. clear X'. assert (exists n s pa, pa <> None /\ o = qx_q n s pa) as (n & s' & pa & Np & ->).
      { unfold state_of in X. cbn [ix_t tr_states dget] in X. revert X.
        repeat (destruct eq_dec; [intros X; injection X as <-; eexists _, _, _; split; [|reflexivity]; congruence|]). discriminate. }
      destruct (qx_converts n s' pa Np) as (q & Q). exists q; auto.
    + intros t t' n o o' I I' X X'. destruct (Sh t I) as (s & R & jR & l & S & l' & S' & _ & ->).
      destruct (Sh t' I') as (s1 & R1 & jR1 & l1 & S1 & l1' & S1' & _ & ->).
      assert (forall l S l' S', coupling_of (ix_t p a b c r s R jR (qx_ls l S) (qx_ls l' S')) n = Some o -> exists l S, o = qx_ls l S) as G.
      { clear. intros l S l' S' X. unfold coupling_of in X. cbn [ix_t tr_interactions dget] in X. revert X.
        repeat (destruct eq_dec; [intros X; injection X as <-; eauto|]). discriminate. }
      assert (forall l S l' S', coupling_of (ix_t p a b c r s R jR (qx_ls l S) (qx_ls l' S')) n = Some o' -> exists l S, o' = qx_ls l S) as G'.
      { clear. intros l S l' S' X. unfold coupling_of in X. cbn [ix_t tr_interactions dget] in X. revert X.
        repeat (destruct eq_dec; [intros X; injection X as <-; eauto|]). discriminate. }
      destruct (G _ _ _ _ X) as (? & ? & ->). destruct (G' _ _ _ _ X') as (? & ? & ->).
      cbn. split; intros (y & Y & _); discriminate.
  - intros t I. destruct (TB t I) as (k & i & j & T & P). split; [|split].
    + destruct (Sh t I) as (s & R & jR & l & S & l' & S' & _ & ->). split.
      * intros x o X. cbn [ix_t tr_states In] in X.
        assert (exists n s pa, pa <> None /\ o = qx_q n s pa) as (n & s' & pa & Np & ->).
        { repeat (destruct X as [X|X]; [injection X as _ <-; eexists _, _, _; split; [|reflexivity]; congruence|]). destruct X. }
        cbn. split; auto. exists (2 * s'). symmetry. apply Qc_of_Z_mult2.
      * intros x o X. cbn [ix_t tr_interactions In] in X.
        assert (exists l S, o = qx_ls l S) as (l0 & S0 & ->).
        { repeat (destruct X as [X|X]; [injection X as _ <-; eauto|]). destruct X. }
        cbn. exists (2 * S0). symmetry. apply Qc_of_Z_mult2.
    + destruct (Sh t I) as (s & R & jR & l & S & l' & S' & _ & ->). intros x o X. cbn [ix_t tr_states In] in X.
      repeat (destruct X as [X|X]; [injection X as _ <-; exact Logic.I|]). destruct X.
    + intros p1 k1 i1 j1 r1 T1 x X. destruct (three_body_unique t t _ _ _ _ _ _ _ _ _ _ T1 T eq_refl) as (-> & -> & -> & -> & ->).
      destruct X as [<-|X]; [lia|]. apply (Permutation_in _ P) in X. cbn in X. lia.
  - intros t I. destruct (TB t I) as (k & i & j & T & P).
    intros p1 k1 i1 j1 r1 T1 x X. destruct (three_body_unique t t _ _ _ _ _ _ _ _ _ _ T1 T eq_refl) as (-> & -> & -> & -> & ->).
    apply (Permutation_in _ P) in X. cbn in X. lia.
Qed.


Lemma ix_reaction_ready : ready ix_reaction /\ forall t, In t ix_reaction -> initial_first t.
Proof.
  apply (ix_ready (-1) 0 1 2 3); try lia; [discriminate|]. intros t I.
  repeat (destruct I as [<-|I]; [unfold ix_shape; do 7 eexists; split; [|reflexivity]; cbn; auto|]). destruct I.
Qed.
Lemma ix_proper_spins : proper_spins ix_reaction.
Proof.
  intros t x s I _ (o & So & Cv & _).
  assert (Q : exists name n parity, 0 <= n /\ o = qx_q name n parity).
  { unfold state_of in So. clear - I So.
    repeat (destruct I as [<-|I]; [cbn [ix_t tr_states dget] in So;
      repeat (destruct eq_dec; [injection So as <-; eexists _, _, _; split; [|reflexivity]; lia|]); discriminate So|]).
    destruct I. }
  destruct Q as (name & n & parity & N & ->). exact (qx_spin _ _ _ _ N Cv).
Qed.
Lemma ix_couplings n : couplings_at ix_reaction n.
Proof.
  intros t o I Co C.
  assert (Q : exists l S, o = qx_ls l S).
  { unfold coupling_of in Co. clear - I Co.
    repeat (destruct I as [<-|I]; [cbn [ix_t tr_interactions dget] in Co;
      repeat (destruct eq_dec; [injection Co as <-; eauto|]); discriminate Co|]).
    destruct I. }
  destruct Q as (l & S & ->). cbn in C. destruct C as (y & Y & _). discriminate Y.
Qed.
Lemma ix_identical : identical ix_reaction 1 2.
Proof.
  exists (ix_t (-1) 0 1 2 3 0 "K(2)*(1430)" 2 (qx_ls 2 2) (qx_ls 2 0)), 0, 1, (qx_q "pi0" 0 (Some (-1))), (qx_q "pi0" 0 (Some (-1))).
  split; [left; reflexivity|]. split; [eexists; split; reflexivity|]. split; [eexists; split; reflexivity|]. split; [discriminate|].
  split; [reflexivity|]. split; [reflexivity|]. split; [|split; reflexivity].
  destruct (qx_converts "pi0" 0 (Some (-1))) as (q & Q); [discriminate|]. exists q. auto.
Qed.
Lemma ix_values : relabelled_values (exchange 1 2) (rb_base (id_env 72 24)) (rb_base (id_env 24 72)).
Proof.
  split; [|intros; apply rb_others; assumption]. split; [reflexivity|]. intros i [<-|[<-|[<-|[]]]]; split; reflexivity.
Qed.
(** The decay of the permuted reaction has three chains; the signs of the exchange agree. *)
Lemma ix_decay : exists r' d, permute_reaction uniqueness_repr (Reaction ix_reaction "canonical-helicity") = Ok r' /\
  to_three_body_decay (rx_transitions r') (MinLS false) = Ok d /\ length (d_chains d) = 3%nat /\
  resolve_reference d (Some 3) = Ok 3 /\
  forall c, In c (d_chains d) -> (exchange_sign c * order_sign false false never (descending (exchange 1 2)) c = 1)%R.
Proof.
  eexists _, _. split; [vm_compute; reflexivity|]. split; [vm_compute; reflexivity|]. split; [reflexivity|]. split; [reflexivity|].
  intros c [<-|[<-|[<-|[]]]]; unfold order_sign, exchange_sign; cbn; unfold parity_sign; cbn; ring.
Qed.
