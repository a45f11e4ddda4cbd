(** From a reaction to a model: the decays of to_three_body_decay meet the conditions of the theorems about models (C99). *)
From Coq Require Import String ZArith QArith Qcanon List Bool Lia Reals Sorted Permutation.
From Coquelicot Require Import Complex.
From Verif Require Import Prelude Spin SpinFacts Decay DecayFacts DecayProofs Qrules SpecQrules QrulesFacts QrulesThree QrulesNorm
  QrulesConvert QrulesDecay QrulesLabels QrulesMinLs.
From Verif Require Import Expr Angles Sums CExpr SpecKin SpecDPD Builder SpecBuilder BuilderFacts ModelFacts
  OccFacts BuilderProofs Dynamics SpecDynamics DynamicsProofs LineshapeProofs SpecWorkflow.
Import ListNotations.
Local Open Scope string_scope.
Local Open Scope Z_scope.
Local Open Scope list_scope.

Lemma decay_any ts m : ready ts -> (forall t, In t ts -> initial_first t) ->
  exists d, to_three_body_decay ts m = Ok d /\ valid_decay d /\ StronglySorted clt (d_chains d).
Proof.
  intros R IF. pose proof R as (NE & OR & Cv). pose proof OR as (p & r & TB & _).
  destruct ts as [|t0 ts0] eqn:Ets; [congruence|]. rewrite <- Ets in *.
  assert (I0 : In t0 ts) by (rewrite Ets; left; auto).
  destruct (TB t0 I0) as (k & i & j & T0). destruct (std_dec t0 _ _ _ _ _ T0) as [SL|NS].
  - destruct (c67_standard ts m R) as (us & l & d & _ & _ & E & V & _ & _ & S & _).
    + intros t I. apply (uniform_labels ts R t0 t); auto.
    + exists d. auto.
  - destruct (normalize_ready ts R IF) as (ts1 & N1 & R1 & S1 & F).
    rewrite (c49_relabelled ts ts1 m R IF (ex_intro _ t0 (conj I0 NS)) N1).
    destruct (c67_standard ts1 m R1 S1) as (us & l & d & _ & _ & E & V & _ & _ & S & _). exists d. auto.
Qed.

Lemma sorted_any ts m : ready ts -> (forall t, In t ts -> initial_first t) ->
  exists d, to_three_body_decay ts m = Ok d /\ StronglySorted clt (d_chains d) /\ NoDup (d_chains d).
Proof.
  intros R IF. destruct (decay_any ts m R IF) as (d & E & _ & X). exists d. split; [exact E|]. split; [exact X|].
  eapply strictly_sorted_NoDup; eauto.
Qed.

Definition no_state : state := State (Particle "" "" 0 None 0 0)%Qc 0.
Definition state_number (d : decay) (n : Z) : state :=
  match dget n (d_states d) with Some s => s | None => no_state end.

Lemma mk_decay_chains st cs d : mk_decay st cs = Ok d -> d_chains d = cs.
Proof. intros H. apply (proj1 (mk_decay_ok _ _ _)) in H. destruct H as [-> _]. reflexivity. Qed.
Lemma decay_nonempty ts m d : to_three_body_decay ts m = Ok d -> d_chains d <> [].
Proof.
  unfold to_three_body_decay. intros H. destruct ts as [|t0 ts0]; [discriminate H|].
  apply bind_ok in H. destruct H as (ini & _ & H). apply bind_ok in H. destruct H as (fin & _ & H).
  apply bind_ok in H. destruct H as (ts1 & _ & H). apply bind_ok in H. destruct H as (ts2 & _ & H).
  apply bind_ok in H. destruct H as (ts3 & _ & H). destruct ts3 as [|some r]; [discriminate H|].
  apply bind_ok in H. destruct H as (ini' & _ & H). destruct ini' as [|[i0 s0] ?]; [discriminate H|].
  apply bind_ok in H. destruct H as (st0 & _ & H). apply bind_ok in H. destruct H as (fin' & _ & H).
  apply bind_ok in H. destruct H as (sts & _ & H). apply bind_ok in H. destruct H as (ch & M & H).
  apply bind_ok in H. destruct H as (ch' & So & H). apply mk_decay_chains in H. rewrite H.
  intros ->. apply sorted_perm in So. apply Permutation_sym, Permutation_nil in So. subst ch.
  apply mapM_ok_inv in M. inversion M.
Qed.

Lemma dec_ls_of s0 R a b k prod dec :
  ch_incoming_ls (Node s0 (Node R a b dec) (Leaf k) prod) = prod /\
  ch_outgoing_ls (Node s0 (Node R a b dec) (Leaf k) prod) = dec.
Proof. split; reflexivity. Qed.

(** The decay of a reaction *)
Lemma c99_decay ts m : ready ts -> (forall t, In t ts -> initial_first t) -> proper_spins ts ->
  exists d s, to_three_body_decay ts m = Ok d /\ std_decay d s /\ two_body_resonances d /\ plain_resonances d /\
    d_chains d <> [] /\ NoDup (d_chains d) /\
    (forall t x st, In t ts -> In x (edge_ids t) -> ~ is_intermediate t x -> describes t x st -> s (rank t x) = st) /\
    (forall c, In c (d_chains d) ->
       (couplings_at ts 0 -> ch_incoming_ls c <> None) /\ (couplings_at ts 1 -> ch_outgoing_ls c <> None)).
Proof.
  intros R IF PS. destruct (c67_decay ts R IF) as (d0 & E0 & V0 & K0 & St0 & _ & Ch0).
  destruct (c68_min_ls ts m d0 R IF E0) as (d & E & Es & M1 & M2 & _ & M4).
  destruct (decay_any ts m R IF) as (d' & E' & V & Sr). assert (d' = d) by congruence. subst d'.
  assert (NE : exists t0, In t0 ts).
  { destruct R as (NE & _). destruct ts as [|t0 ?]; [congruence|]. exists t0. left; auto. }
  destruct NE as (t0 & I0).
  rewrite <- Es in K0, St0.
  assert (D4 : exists a0 a1 a2 a3, d_states d = [(0, a0); (1, a1); (2, a2); (3, a3)]).
  { clear - K0. destruct (d_states d) as [|[? a0] [|[? a1] [|[? a2] [|[? a3] [|]]]]]; try discriminate K0.
    cbn [map fst] in K0. inversion K0. exists a0, a1, a2, a3. reflexivity. }
  destruct D4 as (a0 & a1 & a2 & a3 & D4).
  assert (Sn : forall n st, In (n, st) (d_states d) -> state_number d n = st).
  { intros n st I. unfold state_number. rewrite D4 in I |- *. clear - I.
    destruct I as [I|[I|[I|[I|[]]]]]; inversion I; subst; reflexivity. }
  assert (Ds : forall n, In n [0; 1; 2; 3] -> In (n, state_number d n) (d_states d)).
  { intros n I. unfold state_number. rewrite D4. clear - I. destruct I as [<-|[<-|[<-|[<-|[]]]]]; cbn; auto 6. }
  assert (Sh : forall c, In c (d_chains d) -> exists s0 Rp si sj sk prod dec,
     c = Node (PSt s0) (Node (PPart Rp) (Leaf (PSt si)) (Leaf (PSt sj)) dec) (Leaf (PSt sk)) prod).
  { intros c Hc. destruct (M2 c Hc) as (c0 & I & AL). apply Ch0 in I. destruct I as (t & It & Ct).
    destruct Ct as (p & k & i & j & r & s0 & sk & si & sj & oR & Rp & op & od & prod & dec & _ & _ & _ & _ & _ & _ & _ & _ & _ & _ & _ & Ec).
    destruct AL as (x0 & RR & a & b & kk & pr & de & pr' & de' & -> & E2 & _).
    rewrite Ec in E2. injection E2 as <- <- <- <- <- <- <-. exists s0, Rp, si, sj, sk, pr, de. reflexivity. }
  exists d, (state_number d). split; [exact E|]. split; [|split; [|split; [|split; [|split; [|split]]]]].
  - split.
    + exact V.
    + rewrite D4. unfold state_number. rewrite D4. reflexivity.
    + intros i Hi. apply Ds in Hi. apply (St0 t0 i _ I0) in Hi. destruct Hi as (x & _ & _ & -> & De).
      destruct De as (o & _ & _ & Ei). exact Ei.
    + intros i Hi. apply Ds in Hi. apply (St0 t0 i _ I0) in Hi. destruct Hi as (x & _ & Nx & _ & De).
      exact (PS t0 x _ I0 Nx De).
  - intros c Hc. destruct (Sh c Hc) as (s0 & Rp & si & sj & sk & prod & dec & ->). exists Rp, si, sj, dec. reflexivity.
  - intros c Hc. destruct (Sh c Hc) as (s0 & Rp & si & sj & sk & prod & dec & ->). exists Rp. reflexivity.
  - exact (decay_nonempty ts m d E).
  - eapply strictly_sorted_NoDup; eauto.
  - intros t x st It Ix Nx De. apply Sn. apply (St0 t _ _ It). exists x. auto.
  - intros c Hc. destruct (Sh c Hc) as (s0 & Rp & si & sj & sk & prod & dec & Ec).
    assert (Z0 : forall c n y, In c (d_chains d0) -> coupling_at n c y -> couplings_at ts n -> y <> None).
    { clear - Ch0. intros c n y Hc Ca Cs. apply Ch0 in Hc. destruct Hc as (t & It & Ct).
      destruct Ct as (p & k & i & j & r & s0 & sk & si & sj & oR & Rp & op & od & prod & dec & _ & _ & _ & _ & _ & _ & _ & C0 & V0 & C1 & V1 & Ec).
      destruct Ca as (x0 & RR & a & b & kk & pr & de & E2 & Ca). rewrite Ec in E2. injection E2 as <- <- <- <- <- <- <-.
      destruct Ca as [[-> ->]|[-> ->]]; intros ->.
      - exact (Cs t op It C0 V0).
      - exact (Cs t od It C1 V1). }
    assert (Z1 : forall n y, In n [0; 1] -> coupling_at n c y -> couplings_at ts n -> y <> None).
    { intros n y Hn Ca Cs. destruct (in_dec Z.eq_dec n (min_ls_nodes m)) as [I|N].
      - destruct (M4 c n Hc I) as (x & Cx & (c0 & Ic0 & _ & C0) & _).
        assert (x = y).
        { destruct Cx as (x0 & RR & a & b & kk & pr & de & E2 & Cx).
          destruct Ca as (x0' & RR' & a' & b' & kk' & pr' & de' & E2' & Ca).
          rewrite E2 in E2'. injection E2' as <- <- <- <- <- <- <-.
          destruct Cx as [[-> ->]|[-> ->]], Ca as [[Q ->]|[Q ->]]; try discriminate Q; reflexivity. }
        subst y. exact (Z0 c0 n x Ic0 C0 Cs).
      - destruct (M2 c Hc) as (c0 & Ic0 & AL).
        destruct AL as (x0 & RR & a & b & kk & pr & de & pr' & de' & E1 & E2 & N0 & N1).
        assert (Cy : coupling_at n c0 y).
        { destruct Ca as (x0' & RR' & a' & b' & kk' & pr1 & de1 & E3 & Ca). rewrite E1 in E3.
          injection E3 as <- <- <- <- <- <- <-. exists x0, RR, a, b, kk, pr', de'. split; [exact E2|].
          destruct Ca as [[-> ->]|[-> ->]]; [left|right]; split; auto. }
        exact (Z0 c0 n y Ic0 Cy Cs). }
    split; intros Cs; rewrite Ec.
    + apply (Z1 0 prod); auto. { cbn; auto. } rewrite Ec. do 7 eexists. split; [reflexivity|]. left. auto.
    + apply (Z1 1 dec); auto. { cbn; auto. } rewrite Ec. do 7 eexists. split; [reflexivity|]. right. auto.
Qed.

(** The loop that registers dynamics *)
Lemma register_each_ok f cs : forall b, dc_decay (b_dynamics b) = b_decay b -> (forall c, In c cs -> In c (d_chains (b_decay b))) ->
  exists b', register_each b cs f = Ok b' /\ b_decay b' = b_decay b /\ dc_decay (b_dynamics b') = b_decay b /\
    b_prod_helicity b' = b_prod_helicity b /\ b_dec_helicity b' = b_dec_helicity b /\
    b_all_subsystems b' = b_all_subsystems b /\
    (forall c, In c cs \/ dget c (dc_builders (b_dynamics b)) = Some f -> dget c (dc_builders (b_dynamics b')) = Some f).
Proof.
  induction cs as [|c cs IH]; intros b Hd Hi; cbn [register_each].
  - exists b. repeat (split; auto). intros c [[]|H]; exact H.
  - unfold builder_register, register_builder, get_chain. rewrite Hd.
    assert (M : memb c (d_chains (b_decay b)) = true) by (apply memb_In, Hi; left; auto). rewrite M. cbn [bind].
    set (b1 := Builder _ _ _ _ _). destruct (IH b1) as (b' & E & A1 & A2 & A3 & A4 & A5 & A6).
    + reflexivity.
    + intros x Hx. apply Hi. right; auto.
    + exists b'. repeat (split; auto). intros x Hx. apply A6. unfold b1; cbn [b_dynamics dc_builders]. rewrite dget_dset.
      destruct (eq_dec x c) as [Ex|Ex]; [right; reflexivity|].
      destruct Hx as [[Hx|Hx]|Hx]; auto. congruence.
Qed.

Definition builder_flags (ls : Builder.min_ls_arg) : bool * bool :=
  match ls with MinBool x => (x, x) | MinPair p q => (p, q) | MinOther => (false, false) end.

Lemma c99_registered d s w b : std_decay d s -> plain_resonances d -> two_body_resonances d ->
  b_decay b = d -> dc_decay (b_dynamics b) = d ->
  (forall c, In c (d_chains d) -> dget c (dc_builders (b_dynamics b)) = Some (bw_call w)) ->
  closed_phsp (bw_phsp_factor w) ->
  (forall c, In c (d_chains d) -> (needs_production_ls w = true -> ch_incoming_ls c <> None) /\
                                  (needs_decay_ls w = true -> ch_outgoing_ls c <> None)) ->
  exists dyn, dynamics_of b dyn /\ forall c, In c (d_chains d) -> bw_call w c = Ok (dyn c).
Proof.
  intros D Pl Tb Eb Ed Rg Cl Ls.
  assert (Iso : forall c, In c (d_chains d) -> exists r x y k,
    isobar_chain c (s 0) r x y k (ch_incoming_ls c) (ch_outgoing_ls c)).
  { intros c Hc. destruct (Tb c Hc) as (r & x & y & j & En).
    destruct (std_isobar d s c D Pl Hc) as (r' & a & b' & k & I & _).
    - exists (PSt x), (PSt y). rewrite En. auto.
    - exists r', a, b', k. exact I. }
  exists (fun c => match bw_call w c with Ok e => e | Err _ => DefExpr (CNum 1) [] end).
  assert (Ok1 : forall c, In c (d_chains d) -> exists e, bw_call w c = Ok e).
  { intros c Hc. destruct (Iso c Hc) as (r & x & y & k & I). destruct (Ls c Hc) as [L1 L2].
    apply (proj1 (c36_total w c _ r x y k _ _ I)). split; auto. }
  split.
  - intros c Hc. rewrite Eb in Hc. destruct (Ok1 c Hc) as [e Ee]. rewrite Ee. split.
    + exists (bw_call w). split; [|exact Ee]. unfold get_builder, get_chain, find_chain. rewrite Ed.
      destruct (find_first _ _) as [c'|] eqn:Ef.
      * apply (proj1 (find_first_Some _ _ _)) in Ef. destruct Ef as (l1 & l2 & Ef & _).
        cbn [bind]. rewrite Rg; [reflexivity|]. rewrite Ef. apply in_or_app. right. left. reflexivity.
      * exfalso. pose proof (proj1 (find_first_None _ _) Ef c Hc) as Q. cbn beta in Q. rewrite Prelude.eqb_refl in Q. discriminate Q.
    + destruct (Iso c Hc) as (r & x & y & k & I). apply (proj1 (c36_symbols w c _ r x y k _ _ e Cl I Ee)).
  - intros c Hc. destruct (Ok1 c Hc) as [e Ee]. rewrite Ee. reflexivity.
Qed.

Lemma c99_workflow ts m ls all w ph dh :
  ready ts -> (forall t, In t ts -> initial_first t) -> proper_spins ts ->
  ls = MinPair ph dh \/ ls = MinBool ph /\ dh = ph ->
  closed_phsp (bw_phsp_factor w) ->
  (ph = false \/ needs_production_ls w = true -> couplings_at ts 0) ->
  (dh = false \/ needs_decay_ls w = true -> couplings_at ts 1) ->
  exists d s b0 b, to_three_body_decay ts m = Ok d /\ std_decay d s /\
    mk_builder d ls all = Ok b0 /\ register_each b0 (d_chains d) (bw_call w) = Ok b /\
    forall ref cl uc, ref = None \/ (exists r, ref = Some r /\ In r [1; 2; 3]) ->
    exists md, formulate b ref cl uc = Ok md /\
      (forall x, occurs_in_amplitudes md (OVar x) -> (exists v, dget (KSym x) (m_params md) = Some v) \/ mandelstam x) /\
      (forall ev, Im (full_value ev md) = 0%R /\ (0 <= Re (full_value ev md))%R) /\
      forall f, phsp_value (bw_phsp_factor w) f ->
      forall ev l i j k, helicity_tuple s l -> cyclic i j k -> In k (get_subsystem_ids d) ->
      exists X, amp_value ev md k l =
        dpd_amplitude ph dh s (d_chains d)
          (fun c r => (if uc then coefficient else coupling_product) ev ph dh c r (at4 l k) (at4 l i) (at4 l j))
          X (Re (e_sym ev (theta_name i j))) (at4 l) i j k /\
        forall c r a b' k' lp ld, In c (d_chains d) -> isobar_chain c (s 0) r a b' k' lp ld ->
          X c = chain_lineshape w f (orbital lp) (orbital ld) (e_sym ev (sigma_of k') * e_sym ev (sigma_of k'))%C (e_sym ev)
                  (s 0) r a b' k'.
Proof.
  intros R IF PS Fl Cl L0 L1.
  destruct (c99_decay ts m R IF PS) as (d & s & E & D & Tb & Pl & NE & ND & _ & Ls).
  assert (B0 : exists b0, mk_builder d ls all = Ok b0 /\ b0 = Builder d (mk_configurator d) ph dh all).
  { destruct Fl as [->|[-> ->]]; cbn [mk_builder]; eauto. }
  destruct B0 as (b0 & E0 & Eb0).
  destruct (register_each_ok (bw_call w) (d_chains d) b0) as (b & E1 & A1 & A2 & A3 & A4 & A5 & A6).
  { rewrite Eb0. reflexivity. } { rewrite Eb0. auto. }
  assert (Ed : b_decay b = d) by (rewrite A1, Eb0; reflexivity).
  assert (Ep : b_prod_helicity b = ph) by (rewrite A3, Eb0; reflexivity).
  assert (Eh : b_dec_helicity b = dh) by (rewrite A4, Eb0; reflexivity).
  destruct (c99_registered d s w b D Pl Tb Ed) as (dyn & Dyn & Bw).
  { rewrite A2, Eb0. reflexivity. } { intros c Hc. apply A6. left. exact Hc. } { exact Cl. }
  { intros c Hc. destruct (Ls c Hc) as [X Y]. split; intros N; [apply X, L0|apply Y, L1]; auto. }
  exists d, s, b0, b. split; [exact E|]. split; [exact D|]. split; [exact E0|]. split; [exact E1|].
  intros ref cl uc Hr. rewrite <- Ed in D, Pl, Tb.
  destruct (c63 b s dyn D Dyn) with (ref := ref) (cl := cl) (uc := uc) as (md & F).
  { rewrite Ed, Ep, Eh. intros c Hc. destruct (Ls c Hc) as [X Y]. split; intros N; [apply X, L0|apply Y, L1]; auto. }
  { rewrite Ed. destruct Hr as [->|Hr]; [left; auto|right; auto]. }
  exists md. split; [exact F|]. split; [|split].
  - apply (c36_model b s dyn ref cl uc md D Tb Dyn); auto. rewrite Ed. intros c Hc. right. exists w. auto.
  - intros ev. destruct (c26 b s ref cl uc md D F) as (r & ks & _ & _ & Q). apply Q.
  - intros f Pf ev l i j k Hl Hc Hk. exists (fun c => ceval ev (fun _ => 0) (de_expr (dyn c))). split.
    + destruct (amplitude_formula b s D dyn ref cl uc md Dyn (fun _ => Pl) F l i j k Hl Hc) as (_ & _ & Q).
      { right. rewrite Ed. exact Hk. }
      rewrite Ep, Eh, Ed in Q. apply Q.
    + intros c r a b' k' lp ld Hc' I. apply (c36_value w c (s 0) r a b' k' lp ld (dyn c) f ev _ Pf I). apply Bw, Hc'.
Qed.
