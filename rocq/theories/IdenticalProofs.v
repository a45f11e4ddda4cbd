(** The decay of a permuted reaction is closed under the exchange of identical particles, up to the order of decay products (C110). *)
From Coq Require Import String ZArith QArith Qcanon List Bool Lia Sorted Permutation Reals.
From Coquelicot Require Import Complex.
From Verif Require Import Prelude Spin SpinFacts Decay DecayFacts Qrules SpecQrules QrulesFacts QrulesThree QrulesNorm
  QrulesConvert QrulesDecay QrulesLabels QrulesMinLs SpecIdentical IdenticalFacts.
From Verif Require Import Expr Angles Sums CExpr SpecKin SpecDPD Builder SpecBuilder BuilderFacts ModelFacts
  OccFacts BuilderProofs Dynamics SpecDynamics DynamicsProofs LineshapeProofs SpecWorkflow WorkflowFacts SpecRelabel SpecReorder ReorderShapes.
Import ListNotations.
Local Open Scope string_scope.
Local Open Scope Z_scope.
Local Open Scope list_scope.

Lemma rank_lt (t : raw_transition) x y : ascending (edge_ids t) -> In x (edge_ids t) -> In y (edge_ids t) -> (x < y <-> rank t x < rank t y).
Proof. intros A X Y. apply (proj1 (rank_renumbering t A)); assumption. Qed.
Lemma rank_eq (t : raw_transition) x y : ascending (edge_ids t) -> In x (edge_ids t) -> In y (edge_ids t) -> rank t x = rank t y -> x = y.
Proof. intros A X Y E. pose proof (rank_lt t x y A X Y). pose proof (rank_lt t y x A Y X). lia. Qed.
Lemma rank_exchange (t : raw_transition) x y z : ascending (edge_ids t) -> In x (edge_ids t) -> In y (edge_ids t) -> In z (edge_ids t) ->
  exchange (rank t x) (rank t y) (rank t z) = rank t (exchange x y z).
Proof.
  intros A X Y Z. unfold exchange.
  destruct (Z.eqb_spec z x) as [->|Nx]; [rewrite Z.eqb_refl; reflexivity|].
  destruct (Z.eqb_spec (rank t z) (rank t x)) as [E|_]; [apply (rank_eq t _ _ A Z X) in E; contradiction|].
  destruct (Z.eqb_spec z y) as [->|Ny]; [rewrite Z.eqb_refl; reflexivity|].
  destruct (Z.eqb_spec (rank t z) (rank t y)) as [E|_]; [apply (rank_eq t _ _ A Z Y) in E; contradiction|]. reflexivity.
Qed.
Lemma exchange_in x y z l : In x l -> In y l -> In z l -> In (exchange x y z) l.
Proof. intros. unfold exchange. destruct (z =? x); [assumption|]. destruct (z =? y); assumption. Qed.

(** The action of the exchange on the chain of a transition *)
Definition exchanged (a b : Z) (c : chain) : chain := relabel (exchange a b) (reorder never (descending (exchange a b)) c).

Lemma exchanged_chain s0 Rp si sj sk prod dec a b : let p := exchange a b in
  exchanged a b (Node (PSt s0) (Node (PPart Rp) (Leaf (PSt si)) (Leaf (PSt sj)) dec) (Leaf (PSt sk)) prod) =
  Node (PSt (relabel_state p s0))
    (if p (st_index sj) <? p (st_index si)
     then Node (PPart Rp) (Leaf (PSt (relabel_state p sj))) (Leaf (PSt (relabel_state p si))) dec
     else Node (PPart Rp) (Leaf (PSt (relabel_state p si))) (Leaf (PSt (relabel_state p sj))) dec)
    (Leaf (PSt (relabel_state p sk))) prod.
Proof. intros p. unfold exchanged, reorder, never, descending. fold p. destruct (p (st_index sj) <? p (st_index si)); reflexivity. Qed.

Section Closed.
  Context `{EqDec edge_obj} `{EqDec node_obj} `{CmpLaws edge_obj} `{CmpLaws node_obj}.
  Variables (ts us : list raw_transition).
  Hypotheses (R : ready ts) (IF : forall t, In t ts -> initial_first t) (PM : permuted_of ts us).

  Lemma chain_exchanged a b u c : identical ts a b -> In u us -> chain_of_raw u c ->
    exists v, In v us /\ chain_of_raw v (exchanged a b c).
  Proof.
    intros Id Iu Ch. destruct (permuted_closed ts R IF us PM a b Id) as (x & y & Nxy & Cl).
    destruct (Cl u Iu) as (Ra & Rb & Cl'). clear Cl.
    destruct Ch as (p & k & i & j & r & s0 & sk & si & sj & oR & Rp & op & od & prod & dec & T & D0 & Dk & Di & Dj & SR & VR & C0 & V0 & C1 & V1 & ->).
    destruct (Cl' p k i j r T) as (Ix & Iy & St & v & i' & j' & Iv & Tv & E1 & E2 & E3). clear Cl'.
    exists v. split; [exact Iv|]. rewrite exchanged_chain. cbv zeta.
    assert (A : ascending (edge_ids u)) by (destruct T as (_ & A & _); exact A).
    assert (In3 : forall z, In z [k; i; j] -> In z (edge_ids u)).
    { intros z Iz. apply (three_body_ids _ _ _ _ _ _ z T). right. apply (in_or_app [k; i; j] [r]). left; exact Iz. }
    assert (Ip : In p (edge_ids u)) by (apply (three_body_ids _ _ _ _ _ _ p T); left; reflexivity).
    assert (Rv : forall z, rank v z = rank u z) by (intros z; unfold rank; rewrite E1; reflexivity).
    assert (Ex : forall z, In z (edge_ids u) -> exchange a b (rank u z) = rank u (exchange x y z)).
    { intros z Iz. rewrite <- Ra, <- Rb. apply rank_exchange; auto. }
    assert (De : forall z s, In z [k; i; j] -> describes u z s -> describes v (exchange x y z) (relabel_state (exchange a b) s)).
    { intros z s Iz (o & So & Vo & Io). destruct (St z o Iz So) as (o' & So' & q & Q1 & Q2).
      exists o'. split; [unfold state_of; rewrite E2; exact So'|]. cbn [relabel_state st_particle st_index].
      split; [rewrite (converts_fun _ _ _ Vo Q1); exact Q2|]. rewrite Io, Rv. apply Ex. apply In3. exact Iz. }
    destruct (three_body_NoDup_outer _ _ _ _ _ _ T) as (ND & Np & Nr & _).
    destruct (three_body_NoDup_outer _ _ _ _ _ _ Tv) as (ND' & Np' & Nr' & _).
    assert (D0' : describes v p (relabel_state (exchange a b) s0)).
    { destruct D0 as (o & So & Vo & Io). exists o. split; [unfold state_of; rewrite E2; exact So|].
      cbn [relabel_state st_particle st_index]. split; [exact Vo|]. rewrite Io, Rv, (Ex p Ip). unfold exchange.
      destruct (Z.eqb_spec p x) as [<-|_]; [contradiction|]. destruct (Z.eqb_spec p y) as [<-|_]; [contradiction|]. reflexivity. }
    assert (Ii : In i [k; i; j]) by (right; left; reflexivity). assert (Ij : In j [k; i; j]) by (right; right; left; reflexivity).
    assert (Ik : In k [k; i; j]) by (left; reflexivity).
    assert (Mem : forall z, In z [k; i; j] -> z <> k -> exchange x y z = i' \/ exchange x y z = j').
    { intros z Iz Nz. assert (Q : In (exchange x y z) (edge_ids v)) by (rewrite E1; apply In3, exchange_in; assumption).
      apply (three_body_ids _ _ _ _ _ _ _ Tv) in Q. pose proof (exchange_in x y z _ Ix Iy Iz) as Q'.
      destruct Q as [Q|[Q|[Q|[Q|[Q|[]]]]]].
      - rewrite <- Q in Q'. contradiction.
      - apply exchange_inj in Q. congruence.
      - left; auto.
      - right; auto.
      - rewrite <- Q in Q'. contradiction. }
    assert (Nik : i <> k) by (intros ->; inversion ND as [|? ? Q _]; apply Q; left; reflexivity).
    assert (Njk : j <> k) by (intros ->; inversion ND as [|? ? Q _]; apply Q; right; left; reflexivity).
    assert (Nij : i <> j) by (destruct T as ((_ & L & _) & _); lia).
    assert (Lij : i' < j') by (destruct Tv as ((_ & L & _) & _); exact L).
    assert (Nij' : exchange x y i <> exchange x y j) by (intros Q; apply exchange_inj in Q; contradiction).
    assert (Oi : exchange a b (st_index si) = rank u (exchange x y i)).
    { destruct Di as (o & _ & _ & ->). apply Ex. apply In3. exact Ii. }
    assert (Oj : exchange a b (st_index sj) = rank u (exchange x y j)).
    { destruct Dj as (o & _ & _ & ->). apply Ex. apply In3. exact Ij. }
    assert (Ln : (exchange x y j < exchange x y i) <-> rank u (exchange x y j) < rank u (exchange x y i)).
    { apply rank_lt; [exact A| |]; apply In3, exchange_in; assumption. }
    rewrite Oi, Oj. specialize (De k sk Ik Dk) as Dk'. specialize (De i si Ii Di) as Di'. specialize (De j sj Ij Dj) as Dj'.
    assert (SR' : state_of v r = Some oR) by (unfold state_of; rewrite E2; exact SR).
    assert (C0' : coupling_of v 0 = Some op) by (unfold coupling_of; rewrite E3; exact C0).
    assert (C1' : coupling_of v 1 = Some od) by (unfold coupling_of; rewrite E3; exact C1).
    pose proof (Mem i Ii Nik) as Mi. pose proof (Mem j Ij Njk) as Mj.
    destruct (Z.ltb_spec (rank u (exchange x y j)) (rank u (exchange x y i))) as [L|L].
    - apply Ln in L. assert (exchange x y i = j' /\ exchange x y j = i') as [Qi Qj] by lia. rewrite Qi in Di'. rewrite Qj in Dj'.
      exists p, (exchange x y k), i', j', r, (relabel_state (exchange a b) s0), (relabel_state (exchange a b) sk),
        (relabel_state (exchange a b) sj), (relabel_state (exchange a b) si), oR, Rp, op, od, prod, dec.
      repeat (split; [assumption|]). reflexivity.
    - assert (~ exchange x y j < exchange x y i) by (rewrite Ln; lia).
      assert (exchange x y i = i' /\ exchange x y j = j') as [Qi Qj] by lia. rewrite Qi in Di'. rewrite Qj in Dj'.
      exists p, (exchange x y k), i', j', r, (relabel_state (exchange a b) s0), (relabel_state (exchange a b) sk),
        (relabel_state (exchange a b) si), (relabel_state (exchange a b) sj), oR, Rp, op, od, prod, dec.
      repeat (split; [assumption|]). reflexivity.
  Qed.

  (** The chains of a raw transition have their decay products in ascending order. *)
  Lemma chain_ascending u c : chain_of_raw u c -> exists s0 Rp si sj sk prod dec,
    c = Node (PSt s0) (Node (PPart Rp) (Leaf (PSt si)) (Leaf (PSt sj)) dec) (Leaf (PSt sk)) prod /\ st_index si < st_index sj.
  Proof.
    intros (p & k & i & j & r & s0 & sk & si & sj & oR & Rp & op & od & prod & dec & T & _ & _ & Di & Dj & _ & _ & _ & _ & _ & _ & ->).
    exists s0, Rp, si, sj, sk, prod, dec. split; [reflexivity|].
    destruct Di as (oi & _ & _ & ->), Dj as (oj & _ & _ & ->).
    apply rank_lt; [destruct T as (_ & A & _); exact A| | |destruct T as ((_ & L & _) & _); exact L];
      apply (three_body_ids _ _ _ _ _ _ _ T); cbn; auto.
  Qed.
End Closed.

Lemma relabel_exchange_twice a b s : relabel_state (exchange a b) (relabel_state (exchange a b) s) = s.
Proof. destruct s as [q n]. unfold relabel_state. cbn [st_particle st_index]. rewrite exchange_invol. reflexivity. Qed.
Lemma exchanged_twice a b s0 Rp si sj sk prod dec : st_index si < st_index sj ->
  let c := Node (PSt s0) (Node (PPart Rp) (Leaf (PSt si)) (Leaf (PSt sj)) dec) (Leaf (PSt sk)) prod in
  exchanged a b (exchanged a b c) = c.
Proof.
  intros L c. unfold c. rewrite exchanged_chain. cbv zeta.
  destruct (exchange a b (st_index sj) <? exchange a b (st_index si)) eqn:E; rewrite exchanged_chain; cbv zeta; rewrite !relabel_exchange_twice;
    cbn [relabel_state st_index]; rewrite !exchange_invol.
  - destruct (Z.ltb_spec (st_index si) (st_index sj)); [reflexivity|lia].
  - destruct (Z.ltb_spec (st_index sj) (st_index si)); [lia|reflexivity].
Qed.

(** A list without duplicates that is closed under an involution *)
Lemma involution_perm {A} (f : A -> A) (l : list A) : NoDup l -> (forall x, In x l -> In (f x) l) -> (forall x, In x l -> f (f x) = x) ->
  Permutation l (map f l).
Proof.
  intros ND Cl Inv. apply NoDup_Permutation; [exact ND| |].
  - clear Cl. induction l as [|x l IH]; [constructor|]. cbn [map]. inversion ND as [|? ? N ND']; subst. constructor.
    + intros I. apply in_map_iff in I. destruct I as (y & E & I). apply N. assert (x = y).
      { rewrite <- (Inv x (or_introl eq_refl)), <- (Inv y (or_intror I)). congruence. } subst y. exact I.
    + apply IH; [exact ND'|]. intros y I. apply Inv. right; exact I.
  - intros x. split.
    + intros I. apply in_map_iff. exists (f x). auto.
    + intros I. apply in_map_iff in I. destruct I as (y & <- & I). auto.
Qed.
Lemma least_unique (P Q : option ls_coupling -> Prop) c c' : (forall x, P x <-> Q x) -> least_coupling P c -> least_coupling Q c' -> c = c'.
Proof.
  intros E [A B] [A' B']. destruct c as [m|], c' as [m'|]; try reflexivity.
  - destruct (B (Some m')) as (n & En & Cn); [apply E; exact A'|]. injection En as <-.
    destruct (B' (Some m)) as (n & En & Cn'); [apply E; exact A|]. injection En as <-.
    destruct Cn as [Cn|Cn]; [|congruence]. destruct Cn' as [Cn'|Cn']; [|congruence].
    apply cmp_sym in Cn. rewrite Cn' in Cn. discriminate Cn.
  - destruct (B None) as (n & En & _); [apply E; exact A'|]. discriminate En.
  - destruct (B' None) as (n & En & _); [apply E; exact A|]. discriminate En.
Qed.

(** Chains of the shape made from transitions *)
Definition isobar_shape (c : chain) : Prop := exists s0 Rp si sj sk prod dec,
  c = Node (PSt s0) (Node (PPart Rp) (Leaf (PSt si)) (Leaf (PSt sj)) dec) (Leaf (PSt sk)) prod /\ st_index si < st_index sj.
Lemma shape_twice a b c : isobar_shape c -> exchanged a b (exchanged a b c) = c.
Proof. intros (s0 & Rp & si & sj & sk & prod & dec & -> & L). apply exchanged_twice. exact L. Qed.
Lemma alike_shape ids c c' : chains_alike ids c c' -> isobar_shape c' -> isobar_shape c.
Proof.
  intros (s0 & Rr & x & y & k & prod & dec & prod' & dec' & -> & -> & _) (a0 & Rp & si & sj & sk & pr & de & E & L).
  injection E as -> -> -> -> -> -> ->. exists a0, Rp, si, sj, sk, prod, dec. auto.
Qed.
Lemma alike_exchanged a b ids c c' : isobar_shape c -> chains_alike ids c c' -> chains_alike ids (exchanged a b c) (exchanged a b c').
Proof.
  intros (a0 & Rp & si & sj & sk & pr & de & -> & L) (s0 & Rr & x & y & k & prod & dec & prod' & dec' & E & -> & N0 & N1).
  injection E as <- <- <- <- <- <- <-. rewrite !exchanged_chain. cbv zeta.
  destruct (exchange a b (st_index sj) <? exchange a b (st_index si)); eexists _, _, _, _, _, pr, de, prod', dec';
    (split; [reflexivity|]); (split; [reflexivity|]); auto.
Qed.
Lemma coupling_exchanged a b n c x : isobar_shape c -> (coupling_at n (exchanged a b c) x <-> coupling_at n c x).
Proof.
  intros (a0 & Rp & si & sj & sk & pr & de & -> & L). rewrite exchanged_chain. cbv zeta.
  destruct (exchange a b (st_index sj) <? exchange a b (st_index si)); split; intros (s0 & Rr & p & q & k & prod & dec & E & C);
    injection E as <- <- <- <- <- <- <-; eexists _, _, _, _, _, pr, de; (split; [reflexivity|exact C]).
Qed.
Lemma alike_refl ids c : isobar_shape c -> chains_alike ids c c.
Proof.
  intros (a0 & Rp & si & sj & sk & pr & de & -> & L). eexists _, _, _, _, _, pr, de, pr, de. split; [reflexivity|]. split; [reflexivity|]. auto.
Qed.
Lemma alike_sym ids c c' : chains_alike ids c c' -> chains_alike ids c' c.
Proof.
  intros (s0 & Rr & x & y & k & prod & dec & prod' & dec' & -> & -> & A & B). eexists _, _, _, _, _, prod', dec', prod, dec.
  split; [reflexivity|]. split; [reflexivity|]. split; intros N; symmetry; auto.
Qed.
Lemma alike_trans ids c c' c'' : chains_alike ids c c' -> chains_alike ids c' c'' -> chains_alike ids c c''.
Proof.
  intros (s0 & Rr & x & y & k & prod & dec & prod' & dec' & -> & -> & A & B) (s1 & R1 & x1 & y1 & k1 & pr & de & pr' & de' & E & -> & A' & B').
  injection E as <- <- <- <- <- <- <-. exists s0, Rr, x, y, k, prod, dec, pr', de'. split; [reflexivity|]. split; [reflexivity|].
  split; intros N; [rewrite (A N); auto|rewrite (B N); auto].
Qed.
Lemma alike_equal ids c c' : chains_alike ids c c' ->
  (forall n x x', In n ids -> In n [0; 1] -> coupling_at n c x -> coupling_at n c' x' -> x = x') -> c = c'.
Proof.
  intros (s0 & Rr & x & y & k & prod & dec & prod' & dec' & -> & -> & A & B) C.
  assert (E0 : prod = prod').
  { destruct (in_dec Z.eq_dec 0 ids) as [I|N]; [|exact (A N)]. apply (C 0); [exact I|left; reflexivity| |];
      eexists _, _, _, _, _, _, _; (split; [reflexivity|]); left; auto. }
  assert (E1 : dec = dec').
  { destruct (in_dec Z.eq_dec 1 ids) as [I|N]; [|exact (B N)]. apply (C 1); [exact I|right; left; reflexivity| |];
      eexists _, _, _, _, _, _, _; (split; [reflexivity|]); right; auto. }
  subst. reflexivity.
Qed.
Lemma coupling_at_fun n c x x' : coupling_at n c x -> coupling_at n c x' -> x = x'.
Proof.
  intros (s0 & Rr & p & q & k & prod & dec & -> & C) (s1 & R1 & p1 & q1 & k1 & prod1 & dec1 & E & C').
  injection E as <- <- <- <- <- <- <-. destruct C as [[-> ->]|[-> ->]], C' as [[N ->]|[N ->]]; try discriminate N; reflexivity.
Qed.

(** A selection of minimal couplings of a closed decay is closed. *)
Lemma selection_closed a b ids d0 d : minimal_selection ids d0 d -> (forall c, In c (d_chains d0) -> isobar_shape c) ->
  (forall c, In c (d_chains d0) -> In (exchanged a b c) (d_chains d0)) ->
  forall c, In c (d_chains d) -> isobar_shape c /\ In (exchanged a b c) (d_chains d).
Proof.
  intros (_ & M1 & M2 & M3 & M4) Sh Cl c Hc. destruct (M2 c Hc) as (c0 & I0 & A0).
  pose proof (alike_shape ids c c0 A0 (Sh c0 I0)) as Sc. split; [exact Sc|].
  destruct (M1 (exchanged a b c0) (Cl c0 I0)) as (c1 & I1 & A1).
  pose proof (alike_exchanged a b ids c c0 Sc A0) as A2. pose proof (alike_trans _ _ _ _ A2 A1) as A3.
  enough (E : exchanged a b c = c1) by (rewrite E; exact I1). apply (alike_equal ids _ _ A3).
  intros n x x' In_ _ Cx Cx'. apply (coupling_exchanged a b n c x Sc) in Cx.
  destruct (M4 c n Hc In_) as (y & Cy & Ly). pose proof (coupling_at_fun _ _ _ _ Cx Cy). subst y.
  destruct (M4 c1 n I1 In_) as (y & Cy' & Ly'). pose proof (coupling_at_fun _ _ _ _ Cx' Cy'). subst y.
  refine (least_unique _ _ _ _ _ Ly Ly'). intros z. split; intros (e & Ie & Ae & Ce).
  - exists (exchanged a b e). split; [apply Cl; exact Ie|]. split.
    + apply (alike_trans _ _ (exchanged a b c)); [apply alike_sym; exact A3|]. apply alike_exchanged; assumption.
    + apply coupling_exchanged; auto.
  - assert (Se : isobar_shape e) by (apply Sh; exact Ie). exists (exchanged a b e). split; [apply Cl; exact Ie|]. split.
    + rewrite <- (shape_twice a b c Sc) at 1. apply alike_exchanged.
      * apply (alike_shape ids _ e); [|exact Se]. apply (alike_trans _ _ c1); assumption.
      * apply (alike_trans _ _ c1); assumption.
    + apply coupling_exchanged; auto.
Qed.

Lemma identical_labels ts a b : ready ts -> (forall t, In t ts -> initial_first t) -> identical ts a b ->
  a <> b /\ In a [1; 2; 3] /\ In b [1; 2; 3].
Proof.
  intros R IF (t & x & y & ox & oy & It & Fx & Fy & Nxy & _ & _ & _ & Ra & Rb).
  pose proof R as (_ & (p & r & TB & _) & Cv). destruct (TB t It) as (k & i & j & T). destruct (Cv t It) as (_ & _ & RL).
  destruct (rank_ends t p k i j r T (IF t It) RL) as [R0 R4].
  assert (A : ascending (edge_ids t)) by (destruct T as (_ & A & _); exact A).
  apply (three_body_final_iff _ _ _ _ _ _ _ T) in Fx. apply (three_body_final_iff _ _ _ _ _ _ _ T) in Fy.
  assert (In3 : forall z, In z [k; i; j] -> In z (edge_ids t)).
  { intros z Iz. apply (three_body_ids _ _ _ _ _ _ z T). right. apply (in_or_app [k; i; j] [r]). left; exact Iz. }
  assert (Ip : In p (edge_ids t)) by (apply (three_body_ids _ _ _ _ _ _ p T); left; reflexivity).
  assert (Ir : In r (edge_ids t)) by (apply (three_body_ids _ _ _ _ _ _ r T); cbn; auto 6).
  assert (Rg : forall z, In z [k; i; j] -> In (rank t z) [1; 2; 3]).
  { intros z Iz. assert (L1 : p < z) by (apply (IF t It _ _ _ _ _ T); exact Iz).
    assert (L2 : z < r) by (apply (RL _ _ _ _ _ T); right; exact Iz).
    apply (rank_lt t p z A Ip (In3 z Iz)) in L1. apply (rank_lt t z r A (In3 z Iz) Ir) in L2. cbn. lia. }
  split; [|split].
  - rewrite <- Ra, <- Rb. intros E. apply (rank_eq t) in E; auto.
  - rewrite <- Ra. auto.
  - rewrite <- Rb. auto.
Qed.
Lemma exchange_relabelling a b : a <> b -> In a [1; 2; 3] -> In b [1; 2; 3] ->
  relabelling (exchange a b) /\ exchanges (exchange a b) /\ forall k, In k [1; 2; 3] -> k <> a -> k <> b -> exchange a b k = k.
Proof.
  intros N Ia Ib. split; [|split].
  - destruct Ia as [<-|[<-|[<-|[]]]]; destruct Ib as [<-|[<-|[<-|[]]]]; try congruence; (split; [reflexivity|]);
      cbn; apply NoDup_Permutation; try (repeat constructor; cbn; intuition lia); intros; cbn; intuition lia.
  - unfold exchanges. destruct Ia as [<-|[<-|[<-|[]]]]; destruct Ib as [<-|[<-|[<-|[]]]]; try congruence; cbn; unfold cyclic; cbn; intuition lia.
  - intros k _ Na Nb. unfold exchange. destruct (Z.eqb_spec k a); [contradiction|]. destruct (Z.eqb_spec k b); [contradiction|]. reflexivity.
Qed.

Lemma nonempty_in {A} (l : list A) : l <> [] -> exists x, In x l.
Proof. destruct l as [|x l]; [congruence|]. exists x. left; reflexivity. Qed.

Section Result.
  Context `{EqDec edge_obj} `{EqDec node_obj} `{CmpLaws edge_obj} `{CmpLaws node_obj}.
  Variables (ts : list raw_transition).
  Hypotheses (R : ready ts) (IF : forall t, In t ts -> initial_first t).

  Lemma permuted_reaction f r' : permute_reaction uniqueness_repr (Reaction ts f) = Ok r' -> permuted_of ts (rx_transitions r').
  Proof.
    unfold permute_reaction, permute_all. cbn [rx_transitions rx_formalism]. intros E. apply bind_ok in E. destruct E as (us & E & Er).
    apply bind_ok in E. destruct E as (ls & M & El). injection El as <-. injection Er as <-. cbn [rx_transitions].
    exists ls. split; [reflexivity|]. exact (mapM_ok_inv _ _ _ M).
  Qed.

  (** The permuted reaction is again a reaction of the kind the adapter needs. *)
  Lemma c110_reaction f : exists r', permute_reaction uniqueness_repr (Reaction ts f) = Ok r' /\ rx_formalism r' = f /\
    ready (rx_transitions r') /\ (forall t, In t (rx_transitions r') -> initial_first t) /\
    (forall t, In t ts -> In t (rx_transitions r')) /\
    (proper_spins ts -> proper_spins (rx_transitions r')) /\
    (forall n, couplings_at ts n -> couplings_at (rx_transitions r') n).
  Proof.
    destruct (permuted_all ts R) as (ls & M & F).
    exists (Reaction (concat ls) f). split; [unfold permute_reaction, permute_all; cbn [rx_transitions]; rewrite M; reflexivity|].
    split; [reflexivity|]. cbn [rx_transitions]. assert (PM : permuted_of ts (concat ls)) by (exists ls; auto).
    destruct (permuted_ready ts R IF _ PM) as [R' IF']. split; [exact R'|]. split; [exact IF'|].
    split; [intros t It; exact (origin_permuted ts R _ PM t It)|]. split.
    - intros PS u x s Iu Nx De. destruct (permuted_origin ts R _ PM u Iu) as (t & p & k & i & j & r & l & k' & i' & j' & It & T & _ & _ & _ & Tu & E1 & E2 & _ & Q).
      apply (PS t x s It).
      + intros I. apply Nx. apply (three_body_intermediate_iff _ _ _ _ _ _ _ T) in I. subst x. apply (three_body_intermediate_iff _ _ _ _ _ _ _ Tu). reflexivity.
      + destruct De as (o & So & Vo & Io). exists o. split; [unfold state_of; rewrite <- E2; exact So|]. split; [exact Vo|].
        rewrite Io. unfold rank. rewrite E1. reflexivity.
    - intros n Cs u o Iu Co. destruct (permuted_origin ts R _ PM u Iu) as (t & p & k & i & j & r & l & k' & i' & j' & It & T & _ & _ & _ & Tu & _ & _ & E3 & Q).
      apply (Cs t o It). unfold coupling_of. rewrite <- E3. exact Co.
  Qed.

  Lemma c110_closed f r' m d s a b : permute_reaction uniqueness_repr (Reaction ts f) = Ok r' ->
    to_three_body_decay (rx_transitions r') m = Ok d -> std_decay d s -> identical ts a b ->
    relabelled_up_to_order (exchange a b) never (descending (exchange a b)) d s d s.
  Proof.
    intros P E SD Id. pose proof (permuted_reaction f r' P) as PM. set (us := rx_transitions r') in *.
    destruct (permuted_ready ts R IF _ PM) as [R' IF'].
    destruct (c67_decay us R' IF') as (d0 & E0 & V0 & K0 & St0 & Sr0 & Ch0).
    destruct (c68_min_ls us m d0 R' IF' E0) as (d' & E' & MS). assert (d' = d) by congruence. subst d'.
    assert (Sh : forall c, In c (d_chains d0) -> isobar_shape c).
    { intros c Ic. apply Ch0 in Ic. destruct Ic as (t & It & Ct). exact (chain_ascending t c Ct). }
    assert (Cl : forall c, In c (d_chains d0) -> In (exchanged a b c) (d_chains d0)).
    { intros c Ic. apply Ch0 in Ic. destruct Ic as (t & It & Ct). apply Ch0. exact (chain_exchanged ts us R IF PM a b t c Id It Ct). }
    pose proof (selection_closed a b _ d0 d MS Sh Cl) as SC.
    destruct (decay_any us m R' IF') as (d' & E2 & _ & Sr). assert (d' = d) by congruence. subst d'.
    split.
    - destruct (identical_everywhere ts R us PM a b Id) as (x & y & Nxy & Ev).
      assert (NE : exists u, In u us) by (destruct R' as (NE & _); exact (nonempty_in _ NE)).
      destruct NE as (u & Iu). destruct (Ev u Iu) as (Fx & Fy & Ra & Rb & ox & oy & Sx & Sy & q & Q1 & Q2).
      assert (Es : d_states d = d_states d0) by (destruct MS; assumption).
      assert (In4 : forall z o, is_final u z -> state_of u z = Some o -> converts_particle o q -> st_particle (s (rank u z)) = q).
      { intros z o Fz Sz Q. destruct (proj1 (proj2 R')) as (p & r & TB & _). destruct (TB u Iu) as (k & i & j & T).
        assert (I : In (rank u z, State q (rank u z)) (d_states d0)).
        { apply (St0 u _ _ Iu). exists z. split; [|split; [|split; [reflexivity|exists o; split; [exact Sz|split; [exact Q|reflexivity]]]]].
          - apply (three_body_final_iff _ _ _ _ _ _ _ T) in Fz. apply (three_body_ids _ _ _ _ _ _ _ T). right. apply (in_or_app [k; i; j] [r]). left; exact Fz.
          - intros I. apply (three_body_intermediate_iff _ _ _ _ _ _ _ T) in I. subst z. apply (three_body_final_iff _ _ _ _ _ _ _ T) in Fz.
            destruct (three_body_NoDup_outer _ _ _ _ _ _ T) as (_ & _ & Nr & _). contradiction. }
        rewrite <- Es in I. apply (Permutation_in _ (sd_states _ _ SD)) in I.
        destruct I as [I|[I|[I|[I|[]]]]]; injection I as I1 I2; rewrite <- I1, I2; reflexivity. }
      pose proof (In4 x ox Fx Sx Q1) as Px. pose proof (In4 y oy Fy Sy Q2) as Py. rewrite Ra in Px. rewrite Rb in Py.
      intros i _. unfold exchange. destruct (Z.eqb_spec i a) as [->|_]; [congruence|]. destruct (Z.eqb_spec i b) as [->|_]; congruence.
    - apply (involution_perm (exchanged a b)).
      + eapply strictly_sorted_NoDup; eauto.
      + intros c Ic. apply SC. exact Ic.
      + intros c Ic. apply shape_twice. apply SC. exact Ic.
  Qed.

  Lemma c110_symmetric f m ls all w ph dh g :
    proper_spins ts ->
    ls = MinPair ph dh \/ ls = MinBool ph /\ dh = ph ->
    closed_phsp (bw_phsp_factor w) -> phsp_value (bw_phsp_factor w) g -> symmetric_phsp g ->
    (ph = false \/ needs_production_ls w = true -> couplings_at ts 0) ->
    (dh = false \/ needs_decay_ls w = true -> couplings_at ts 1) ->
    exists r' d s b0 b, permute_reaction uniqueness_repr (Reaction ts f) = Ok r' /\
      to_three_body_decay (rx_transitions r') m = Ok d /\ std_decay d s /\
      mk_builder d ls all = Ok b0 /\ register_each b0 (d_chains d) (bw_call w) = Ok b /\
      forall ref cl uc, ref = None \/ (exists r, ref = Some r /\ In r [1; 2; 3]) ->
      exists md, formulate b ref cl uc = Ok md /\
        forall x y k e base base' cpl, identical ts x y -> resolve_reference d ref = Ok k -> k <> x -> k <> y ->
          relabelled_values (exchange x y) base base' ->
          physical (fun z => Re (base z)) -> nonsingular (fun z => Re (base z)) ->
          (dh = false \/ forall i, In i [1; 2; 3] -> p_spin (s i) = 0) ->
          (forall c, In c (d_chains d) ->
             (exchange_sign c * order_sign ph dh never (descending (exchange x y)) c = e)%R) ->
          full_value (at_point (m_variables md) base' cpl) md = full_value (at_point (m_variables md) base cpl) md.
  Proof.
    intros PS Fl Cl Pg Sg L0 L1. destruct (c110_reaction f) as (r' & Er & _ & R' & IF' & _ & PS' & Cp').
    specialize (PS' PS).
    destruct (c99_decay _ m R' IF' PS') as (d & s & E & D & Tb & Pl & NE & ND & _ & Ls).
    assert (B0 : exists b0, mk_builder d ls all = Ok b0 /\ b0 = Builder d (mk_configurator d) ph dh all).
    { destruct Fl as [->|[-> ->]]; cbn [mk_builder]; eauto. }
    destruct B0 as (b0 & E0 & Eb0).
    destruct (register_each_ok (bw_call w) (d_chains d) b0) as (b & E1 & A1 & A2 & A3 & A4 & A5 & A6).
    { rewrite Eb0. reflexivity. } { rewrite Eb0. auto. }
    assert (Ed : b_decay b = d) by (rewrite A1, Eb0; reflexivity).
    assert (Ep : b_prod_helicity b = ph) by (rewrite A3, Eb0; reflexivity).
    assert (Eh : b_dec_helicity b = dh) by (rewrite A4, Eb0; reflexivity).
    destruct (c99_registered d s w b D Pl Tb Ed) as (dyn & Dyn & Bw).
    { rewrite A2, Eb0. reflexivity. } { intros c Hc. apply A6. left. exact Hc. } { exact Cl. }
    { intros c Hc. destruct (Ls c Hc) as [X Y]. split; intros N; [apply X, Cp', L0|apply Y, Cp', L1]; auto. }
    exists r', d, s, b0, b. split; [exact Er|]. split; [exact E|]. split; [exact D|]. split; [exact E0|]. split; [exact E1|].
    intros ref cl uc Hr. rewrite <- Ed in D, Pl, Tb.
    destruct (c63 b s dyn D Dyn) with (ref := ref) (cl := cl) (uc := uc) as (md & F).
    { rewrite Ed, Ep, Eh. intros c Hc. destruct (Ls c Hc) as [X Y]. split; intros N; [apply X, Cp', L0|apply Y, Cp', L1]; auto. }
    { rewrite Ed. destruct Hr as [->|Hr]; [left; auto|right; auto]. }
    exists md. split; [exact F|]. intros x y k e base base' cpl Id Rk Nx Ny Rv Ph Ns Sp Si.
    destruct (identical_labels ts x y R IF Id) as (Nxy & Ix & Iy). destruct (exchange_relabelling x y Nxy Ix Iy) as (P1 & P2 & P3).
    assert (RD : relabelled_up_to_order (exchange x y) never (descending (exchange x y)) d s d s).
    { rewrite Ed in D. exact (c110_closed f r' m d s x y Er E D Id). }
    apply (c109_breit_wigner b (exchange x y) s dyn uc ref cl md k base base' cpl never (descending (exchange x y)) e); auto.
    - rewrite Ed. intros c Hc. cbv zeta. right. exists w, g. split; [exact Pg|]. split; [exact Sg|]. split; [apply Bw; exact Hc|].
      apply Bw. destruct RD as [_ RD]. apply (Permutation_in _ (Permutation_sym RD)).
      apply (in_map (fun c => relabel (exchange x y) (reorder never (descending (exchange x y)) c))). exact Hc.
    - rewrite Ed. exact Rk.
    - unfold exchange. destruct (Z.eqb_spec k x); [contradiction|]. destruct (Z.eqb_spec k y); [contradiction|]. reflexivity.
    - rewrite Ed. exact RD.
    - rewrite Eh. exact Sp.
    - rewrite Ed, Ep, Eh. exact Si.
  Qed.
End Result.
