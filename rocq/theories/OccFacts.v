(** Which symbols occur in the expressions of a model *)
From Coq Require Import String ZArith QArith Qcanon Qreals List Bool Reals Lia Lra Permutation Sorted.
From Coquelicot Require Import Complex.
From Verif Require Import Prelude Spin Decay Expr Angles Sums Wigner CG CExpr SpecKin SpecDPD Builder SpecBuilder
  SpinFacts DecayFacts AnglesFacts WignerFacts CExprFacts BuilderFacts ModelFacts.
Import ListNotations.
Local Open Scope string_scope.
Local Open Scope Z_scope.
Local Open Scope list_scope.

(** ** Substitution *)
Lemma vanishes_ext e : forall h h', (forall s, h s = h' s) -> vanishes h e = vanishes h' e.
Proof.
  induction e; cbn [vanishes]; intros h h' H; auto.
  - rewrite (IHe1 h h' H), (IHe2 h h' H). auto.
  - rewrite !(heval_ext h h' _ H). auto.
Qed.
Lemma pool_flat_h {A} (f : (symbol -> Z) -> list A) pools :
  (forall h h', (forall s, h s = h' s) -> f h = f h') ->
  forall h h', (forall s, h s = h' s) -> pool_flat f pools h = pool_flat f pools h'.
Proof.
  intros F. induction pools as [|[s vals] ps IH]; cbn [pool_flat]; intros h h' H; auto.
  induction vals as [|v vals IHv]; cbn [flat_map]; auto. f_equal; auto. apply IH. apply upd_ext; auto.
Qed.
Lemma pool_flat_ext {A} (f g : (symbol -> Z) -> list A) pools : forall h, (forall h, f h = g h) ->
  pool_flat f pools h = pool_flat g pools h.
Proof.
  induction pools as [|[s vals] ps IH]; cbn [pool_flat]; intros h H; auto.
  induction vals as [|v vals IHv]; cbn [flat_map]; auto. f_equal; auto.
Qed.
Lemma occ_ext e : forall h h', (forall s, h s = h' s) -> occ h e = occ h' e.
Proof.
  induction e; cbn [occ]; intros h h' H;
    rewrite ?(vanishes_ext e1 h h' H), ?(vanishes_ext e2 h h' H);
    repeat match goal with
    | IH : forall h h', _ -> occ h ?e = occ h' ?e |- context [occ h ?e] => rewrite (IH h h' H)
    end; auto.
  - do 2 f_equal. apply map_ext. intros. apply ieval_ext; auto.
  - apply pool_flat_h; auto.
Qed.
Lemma pool_flat_upd {A} (f : (symbol -> Z) -> list A) s z pools :
  (forall h h', (forall s, h s = h' s) -> f h = f h') ->
  ~ In s (map fst pools) -> forall h,
  pool_flat f pools (upd h s z) = pool_flat (fun h => f (upd h s z)) pools h.
Proof.
  intros F. induction pools as [|[t vals] ps IH]; cbn [pool_flat map fst]; intros N h; auto.
  assert (Nt : s <> t) by (intros ->; apply N; left; auto).
  assert (N' : ~ In s (map fst ps)) by (intros X; apply N; right; auto).
  induction vals as [|v vals IHv]; cbn [flat_map]; auto. f_equal; auto.
  rewrite <- IH by auto. apply pool_flat_h; auto. apply upd_comm; auto.
Qed.
Lemma pool_flat_shadow {A} (f : (symbol -> Z) -> list A) s z pools :
  (forall h h', (forall s, h s = h' s) -> f h = f h') ->
  In s (map fst pools) -> forall h, pool_flat f pools (upd h s z) = pool_flat f pools h.
Proof.
  intros F. induction pools as [|[t vals] ps IH]; cbn [pool_flat map fst]; intros N h; [destruct N|].
  assert (X : forall v, pool_flat f ps (upd (upd h s z) t v) = pool_flat f ps (upd h t v)).
  { intros v. destruct (eqb_spec t s) as [->|D].
    - apply pool_flat_h; auto. apply upd_shadow.
    - destruct N as [E|N]; [congruence|].
      rewrite <- (IH N (upd h t v)). apply pool_flat_h; auto. apply upd_comm. congruence. }
  induction vals as [|v vals IHv]; cbn [flat_map]; auto. f_equal; auto.
Qed.
Lemma vanishes_csub s z e : forall h, vanishes h (csub s z e) = vanishes (upd h s z) e.
Proof.
  induction e; intros h; cbn [csub vanishes]; auto.
  - rewrite IHe1, IHe2; auto.
  - rewrite !heval_hsub; auto.
  - destruct (memb s (map fst pools)); reflexivity.
Qed.
Lemma occ_csub s z e : forall h, occ h (csub s z e) = occ (upd h s z) e.
Proof.
  induction e; intros h; cbn [csub occ]; rewrite ?vanishes_csub;
    repeat match goal with IH : forall h, occ h (csub s z ?e) = _ |- _ => rewrite IH end; auto.
  - do 2 f_equal. rewrite map_map. apply map_ext. intros [t|x]; simpl; auto. rewrite heval_hsub. auto.
  - destruct (memb s (map fst pools)) eqn:M; cbn [occ].
    + apply memb_In in M. symmetry. apply pool_flat_shadow; auto. intros; apply occ_ext; auto.
    + apply memb_notIn in M. rewrite pool_flat_upd; auto; [|intros; apply occ_ext; auto].
      apply pool_flat_ext. auto.
Qed.
Lemma cleanup_pools_occ e pools : NoDup (map fst pools) ->
  Forall (fun p => snd p <> []) pools -> forall e' ps, cleanup_pools e pools = (e', ps) ->
  incl (map fst ps) (map fst pools) /\
  forall h, pool_flat (fun h => occ h e') ps h = pool_flat (fun h => occ h e) pools h.
Proof.
  induction pools as [|[s vals] pools IH]; intros ND NE e' ps E.
  - inversion E; subst. split; [intros x []|reflexivity].
  - cbn [cleanup_pools] in E. destruct (cleanup_pools e pools) as [e1 ps1] eqn:E1.
    inversion ND as [|? ? N ND']; subst. inversion NE as [|? ? V NE']; subst.
    destruct (IH ND' NE' _ _ eq_refl) as [I Q].
    destruct vals as [|z [|z2 vals]].
    + exfalso. apply V. reflexivity.
    + inversion E; subst. split; [intros x Hx; right; apply I; auto|]. intros h.
      cbn [pool_flat flat_map]. rewrite app_nil_r, <- Q, pool_flat_upd.
      * apply pool_flat_ext. intros. apply occ_csub.
      * intros; apply occ_ext; auto.
      * intros X. apply N, I, X.
    + inversion E; subst. split.
      * intros x [<-|Hx]; [left; auto|right; apply I; auto].
      * intros h. change (pool_flat (fun h => occ h e') ((s, z :: z2 :: vals) :: ps1) h)
          with (flat_map (fun v => pool_flat (fun h => occ h e') ps1 (upd h s v)) (z :: z2 :: vals)).
        change (pool_flat (fun h => occ h e) ((s, z :: z2 :: vals) :: pools) h)
          with (flat_map (fun v => pool_flat (fun h => occ h e) pools (upd h s v)) (z :: z2 :: vals)).
        generalize (z :: z2 :: vals) as vs. induction vs as [|v vs IHv]; cbn [flat_map]; auto.
        rewrite Q. f_equal; auto.
Qed.
Lemma cleanup_occ e pools : NoDup (map fst pools) -> Forall (fun p => snd p <> []) pools ->
  forall h, occ h (cleanup (CSum e pools)) = occ h (CSum e pools).
Proof.
  intros ND NE h. unfold cleanup. destruct (cleanup_pools e pools) as [e' ps] eqn:E.
  destruct (cleanup_pools_occ e pools ND NE _ _ E) as [_ Q].
  cbn [occ]. rewrite <- Q. destruct ps; reflexivity.
Qed.
Lemma pool_flat_product4 {A} (f : (symbol -> Z) -> list A) a0 a1 a2 a3 r0 r1 r2 r3 h x :
  In x (pool_flat f [(a0, r0); (a1, r1); (a2, r2); (a3, r3)] h) <->
  exists l, In l (product4 r0 r1 r2 r3) /\
    In x (f (upd (upd (upd (upd h a0 (at4 l 0)) a1 (at4 l 1)) a2 (at4 l 2)) a3 (at4 l 3))).
Proof.
  cbn [pool_flat]. rewrite in_flat_map. split.
  - intros (l0 & H0 & H). apply in_flat_map in H. destruct H as (l1 & H1 & H).
    apply in_flat_map in H. destruct H as (l2 & H2 & H). apply in_flat_map in H. destruct H as (l3 & H3 & H).
    exists (l0, l1, l2, l3). split; [apply product4_In; auto|exact H].
  - intros ([[[l0 l1] l2] l3] & H & Hx). apply product4_In in H. destruct H as (H0 & H1 & H2 & H3).
    exists l0. split; auto. apply in_flat_map. exists l1. split; auto.
    apply in_flat_map. exists l2. split; auto. apply in_flat_map. exists l3. split; auto.
Qed.

(** ** Lineshapes *)
Lemma lineshape_vanishes h e : lineshape e = true -> vanishes h e = false.
Proof.
  induction e; cbn [lineshape vanishes]; intros H; auto; try discriminate.
  apply andb_prop in H. destruct H. rewrite IHe1, IHe2; auto.
Qed.
Lemma lineshape_occ h e : lineshape e = true -> occ h e = map OVar (symbols_of e).
Proof.
  induction e; cbn [lineshape occ symbols_of map]; intros H; auto; try discriminate;
    repeat match goal with H : _ && _ = true |- _ => apply andb_prop in H; destruct H end;
    rewrite ?lineshape_vanishes by auto; cbn [orb]; rewrite ?map_app;
    repeat match goal with IH : lineshape ?e = true -> _, H : lineshape ?e = true |- _ => rewrite (IH H); clear IH end; auto.
Qed.
Lemma lineshape_signs h e : lineshape e = true -> sign_exponents h e = [].
Proof.
  induction e; cbn [lineshape sign_exponents]; intros H; auto; try discriminate;
    repeat match goal with H : _ && _ = true |- _ => apply andb_prop in H; destruct H end;
    repeat match goal with IH : lineshape ?e = true -> _, H : lineshape ?e = true |- _ => rewrite (IH H); clear IH end; auto.
Qed.
Lemma cg_factor_occ isobar hel e : formulate_clebsch_gordan_factors isobar hel = Ok e ->
  forall h, occ h e = [] /\ vanishes h e = false /\ sign_exponents h e = [].
Proof.
  destruct isobar as [o|p c1 c2 [ls|]]; cbn [formulate_clebsch_gordan_factors]; intros H; try discriminate.
  inv_bind H. inv_bind H. ok_inj H. subst e. intros h. repeat split; reflexivity.
Qed.

(** ** Couplings *)
Definition scaling_keys (ph dh uc : bool) (c : chain) (r lk li lj : Z) : list (string * list ival) :=
  let label := p_latex (ch_resonance c) in
  if uc then
    [(coefficient_base label ph dh,
      coupling_index ph (ch_incoming_ls c) r lk ++ coupling_index dh (ch_outgoing_ls c) li lj)]
  else
    [(production_name ph, IStr label :: coupling_index ph (ch_incoming_ls c) r lk);
     (decay_name dh, IStr label :: coupling_index dh (ch_outgoing_ls c) li lj)].
Definition okey_of (p : string * list ival) : okey := OIdx (fst p) (snd p).
Definition pkey_of (p : string * list ival) : pkey := KIdx (fst p) (snd p).
Lemma scaling_occ h ph dh uc c lR lk li lj sc :
  create_scaling_factors c ph lR lk dh li lj uc = Ok sc ->
  let keys := scaling_keys ph dh uc c (heval h lR) (heval h lk) (heval h li) (heval h lj) in
  occ h (scaling_product sc) = map okey_of keys /\ vanishes h (scaling_product sc) = false /\
  sign_exponents h (scaling_product sc) = [].
Proof.
  unfold create_scaling_factors, create_coupling_symbol, scaling_keys. intros H.
  destruct ph, dh, uc, (ch_incoming_ls c) as [ls|], (ch_outgoing_ls c) as [ls'|]; cbn [bind] in H;
    try discriminate; ok_inj H; subst sc; repeat split; reflexivity.
Qed.
Definition sc_keys (sc : scaling) : list pkey :=
  match sc with ScPair p q => [indexed_key p; indexed_key q] | ScOne x => [indexed_key x] end.
Lemma sc_keys_eq ph dh uc c r lk li lj sc :
  create_scaling_factors c ph (HVal r) (HVal lk) dh (HVal li) (HVal lj) uc = Ok sc ->
  sc_keys sc = map pkey_of (scaling_keys ph dh uc c r lk li lj).
Proof.
  unfold create_scaling_factors, create_coupling_symbol, scaling_keys. intros H.
  destruct ph, dh, uc, (ch_incoming_ls c) as [ls|], (ch_outgoing_ls c) as [ls'|]; cbn [bind] in H;
    try discriminate; ok_inj H; subst sc; reflexivity.
Qed.
Lemma set_defaults_get sc params y :
  dget y (set_scaling_defaults sc params) = if memb y (sc_keys sc) then Some one_val else dget y params.
Proof.
  destruct sc as [p q|x]; cbn [set_scaling_defaults sc_keys]; rewrite ?dget_dset;
    cbn [memb existsb]; unfold eqb; repeat destruct (eq_dec _ _); auto.
Qed.
Lemma set_defaults_keys sc params y :
  In y (dkeys (set_scaling_defaults sc params)) <-> In y (sc_keys sc) \/ In y (dkeys params).
Proof. destruct sc as [p q|x]; cbn [set_scaling_defaults sc_keys In]; rewrite ?dset_keys; intuition. Qed.
Lemma set_defaults_NoDup sc params : NoDup (dkeys params) -> NoDup (dkeys (set_scaling_defaults sc params)).
Proof. destruct sc; cbn [set_scaling_defaults]; intros; repeat apply dset_NoDup; auto. Qed.

Definition couples (c : chain) (lam : Z -> Z) (k r : Z) : Prop :=
  In r (helicities (p_spin (ch_resonance c))) /\ lam 0 = r - lam k.

Section Chains.
  Variables (b : builder) (dyn : chain -> defexpr) (uc : bool).
  Hypothesis (Dyn : dynamics_of b dyn).
  Variables (lam spin : Z -> Z) (i j k : Z) (theta : symbol).
  Notation keys c r := (scaling_keys (b_prod_helicity b) (b_dec_helicity b) uc c r (lam k) (lam i) (lam j)).

  Lemma coupling_defaults_facts c rs : forall params params',
    coupling_defaults b c lam k i j uc rs params = Ok params' ->
    (forall y, In y (dkeys params') <-> In y (dkeys params) \/
       exists r p, In r rs /\ lam 0 = r - lam k /\ In p (keys c r) /\ y = pkey_of p) /\
    (forall y, dget y params' = Some one_val /\
        (exists r p, In r rs /\ lam 0 = r - lam k /\ In p (keys c r) /\ y = pkey_of p) \/
       (dget y params' = dget y params /\
        ~ exists r p, In r rs /\ lam 0 = r - lam k /\ In p (keys c r) /\ y = pkey_of p)) /\
    (NoDup (dkeys params) -> NoDup (dkeys params')).
  Proof.
    induction rs as [|r rs IH]; intros params params' H; cbn [coupling_defaults] in H.
    - ok_inj H. subst. split; [|split].
      + intros y. split; [auto|]. intros [Hy|(r & p & [] & _)]; auto.
      + intros y. right. split; auto. intros (r & p & [] & _).
      + auto.
    - destruct (Z.eqb_spec (lam 0) (r - lam k)) as [Er|Nr]; cbn [negb] in H.
      + inv_bind H. pose proof (sc_keys_eq _ _ _ _ _ _ _ _ _ E) as K.
        destruct (IH _ _ H) as (A & B & N). split; [|split].
        * intros y. rewrite A, set_defaults_keys, K, in_map_iff. split.
          -- intros [[(p & <- & Hp)|Hy]|(r' & p & Hr & Q & Hp & E')]; auto.
             ++ right. exists r, p. repeat split; auto. left; auto.
             ++ right. exists r', p. repeat split; auto. right; auto.
          -- intros [Hy|(r' & p & [<-|Hr] & Q & Hp & ->)]; auto.
             ++ left; left. exists p. auto.
             ++ right. exists r', p. auto.
        * intros y. destruct (B y) as [[By (r' & p & Hr & Q & Hp & E')]|[By Ny]].
          { left. split; auto. exists r', p. repeat split; auto. right; auto. }
          rewrite set_defaults_get, K in By. destruct (memb y (map pkey_of (keys c r))) eqn:M.
          { left. split; auto. apply memb_In, in_map_iff in M. destruct M as (p & <- & Hp).
            exists r, p. repeat split; auto. left; auto. }
          right. split; auto. intros (r' & p & [<-|Hr] & Q & Hp & ->).
          -- apply memb_notIn in M. apply M, in_map; auto.
          -- apply Ny. exists r', p. auto.
        * intros ND. apply N, set_defaults_NoDup, ND.
      + destruct (IH _ _ H) as (A & B & N). split; [|split; auto].
        * intros y. rewrite A. split; intros [Hy|(r' & p & Hr & Q & Hp & E')]; auto.
          -- right. exists r', p. repeat split; auto. right; auto.
          -- destruct Hr as [<-|Hr]; [contradiction|]. right. exists r', p. auto.
        * intros y. destruct (B y) as [[By (r' & p & Hr & Q & Hp & E')]|[By Ny]].
          { left. split; auto. exists r', p. repeat split; auto. right; auto. }
          right. split; auto.
          intros (r' & p & [<-|Hr] & Q & Hp & E'); [contradiction|]. apply Ny. exists r', p. auto.
  Qed.

  Definition term_occ (c : chain) (x : okey) : Prop :=
    exists r, couples c lam k r /\
      ((exists y, In y (symbols_of (de_expr (dyn c))) /\ x = OVar y) \/ x = OAngle theta \/
       exists p, In p (keys c r) /\ x = okey_of p).
  Definition term_key (c : chain) (y : pkey) : Prop :=
    In y (dkeys (de_params (dyn c))) \/ exists r p, couples c lam k r /\ In p (keys c r) /\ y = pkey_of p.

  Lemma chain_term_facts c params e params' : In c (d_chains (b_decay b)) ->
    chain_term b c lam spin k i j theta uc params = Ok (e, params') ->
    (forall h x, In x (occ h e) <-> term_occ c x) /\
    (forall h z, In z (sign_exponents h e) -> z = spin k - lam k \/ z = spin j - lam j) /\
    (forall y, In y (dkeys params') <-> In y (dkeys params) \/ term_key c y) /\
    (forall y v, dget y params' = Some v -> dget y params = Some v \/ v = one_val /\
       (exists r p, couples c lam k r /\ In p (keys c r) /\ y = pkey_of p) \/ In (y, v) (de_params (dyn c))) /\
    (NoDup (dkeys params) -> NoDup (dkeys params')).
  Proof.
    intros Hc H. unfold chain_term in H. destruct (Dyn c Hc) as [(f & F & Fc) Ls].
    rewrite F in H. cbn [bind] in H. rewrite Fc in H. cbn [bind] in H.
    inv_bind H. inv_bind H. rename E into CD, E0 into SC. rename v0 into sc, v into params2.
    set (e0 := chain_amp c lam spin k i j theta (de_expr (dyn c)) sc) in H.
    assert (O0 : forall h, h lambda_R = h lambda_R ->
      (lam 0 = h lambda_R - lam k ->
        occ h e0 = map OVar (symbols_of (de_expr (dyn c))) ++ [OAngle theta] ++ map okey_of (keys c (h lambda_R)) /\
        vanishes h e0 = false) /\
      (lam 0 <> h lambda_R - lam k -> occ h e0 = [] /\ vanishes h e0 = true) /\
      sign_exponents h e0 = [spin k - lam k; spin j - lam j]).
    { intros h _. destruct (scaling_occ h _ _ _ _ _ _ _ _ _ SC) as (O1 & V1 & S1).
      cbn [heval] in O1. unfold e0, chain_amp. cbn [occ vanishes heval sign_exponents].
      rewrite O1, V1, S1, (lineshape_vanishes h _ Ls), (lineshape_occ h _ Ls), (lineshape_signs h _ Ls).
      split; [|split].
      - intros ->. rewrite Z.eqb_refl. cbn [negb orb app]. rewrite !app_nil_r, <- app_assoc. auto.
      - intros N. apply Z.eqb_neq in N. rewrite N. auto.
      - reflexivity. }
    assert (O1 : forall e1 p1, 
      (let* e := (if b_dec_helicity b then Ok e0
         else let* fi := dgetitem i (final_states (b_decay b)) in
              let* fj := dgetitem j (final_states (b_decay b)) in
              let* g := formulate_clebsch_gordan_factors (ch_decay_node c)
                  (dict_of [(PSt fi, HVal (lam i)); (PSt fj, HVal (lam j))]) in Ok (CMul e0 g)) in
       let* e := (if b_prod_helicity b then Ok e
         else let* fk := dgetitem k (final_states (b_decay b)) in
              let* g := formulate_clebsch_gordan_factors c
                  (dict_of [(to_particle (ch_decay_node c), HVar lambda_R); (PSt fk, HVal (lam k))]) in
              Ok (CMul e g)) in
       Ok (CSum e [(lambda_R, spin_range2 (p_spin (ch_resonance c)))], params2)) = Ok (e1, p1) ->
      p1 = params2 /\ exists e2, e1 = CSum e2 [(lambda_R, spin_range2 (p_spin (ch_resonance c)))] /\
        (forall h, occ h e2 = occ h e0 /\ sign_exponents h e2 = sign_exponents h e0)).
    { clear H. intros e1 p1 H.
      assert (Step : forall a g, (forall h, occ h g = [] /\ vanishes h g = false /\ sign_exponents h g = []) ->
        (forall h, occ h a = occ h e0 /\ sign_exponents h a = sign_exponents h e0 /\ vanishes h a = vanishes h e0) ->
        forall h, occ h (CMul a g) = occ h e0 /\ sign_exponents h (CMul a g) = sign_exponents h e0 /\
          vanishes h (CMul a g) = vanishes h e0).
      { intros a g G A h. destruct (G h) as (G1 & G2 & G3). destruct (A h) as (A1 & A2 & A3).
        cbn [occ sign_exponents vanishes]. rewrite G1, G2, G3, A1, A2, A3, !app_nil_r, orb_false_r.
        split; [|auto]. destruct (O0 h eq_refl) as (Q1 & Q2 & _).
        destruct (Z.eq_dec (lam 0) (h lambda_R - lam k)) as [Y|Y].
        - destruct (Q1 Y) as [_ V]. rewrite V. reflexivity.
        - destruct (Q2 Y) as [W V]. rewrite V, W. reflexivity. }
      inv_bind H. rename v into a, E into EA. inv_bind H. rename v into a2, E into EB. ok_inj H.
      assert (PA : forall h, occ h a = occ h e0 /\ sign_exponents h a = sign_exponents h e0 /\ vanishes h a = vanishes h e0).
      { destruct (b_dec_helicity b).
        - ok_inj EA. subst a. auto.
        - inv_bind EA. inv_bind EA. inv_bind EA. ok_inj EA. subst a. apply Step; auto.
          eapply cg_factor_occ; eauto. }
      assert (PB : forall h, occ h a2 = occ h e0 /\ sign_exponents h a2 = sign_exponents h e0 /\ vanishes h a2 = vanishes h e0).
      { destruct (b_prod_helicity b).
        - ok_inj EB. subst a2. auto.
        - inv_bind EB. inv_bind EB. ok_inj EB. subst a2. apply Step; auto.
          eapply cg_factor_occ; eauto. }
      inversion H; subst. split; auto. exists a2. split; auto. intros h. destruct (PB h) as (A & B & _). auto. }
    destruct (O1 _ _ H) as (-> & e2 & -> & O2). clear O1 H.
    destruct (coupling_defaults_facts c _ _ _ CD) as (K1 & K2 & K3).
    rewrite <- helicities_range in *.
    split; [|split; [|split; [|split]]].
    - intros h x. cbn [occ pool_flat]. rewrite in_flat_map. split.
      + intros (r & Hr & Hx). rewrite (proj1 (O2 _)) in Hx.
        destruct (O0 (upd h lambda_R r) eq_refl) as (Q1 & Q2 & _). rewrite !upd_same in *.
        destruct (Z.eq_dec (lam 0) (r - lam k)) as [Y|Y].
        * exists r. split; [split; auto|]. destruct (Q1 Y) as [W _]. rewrite W, !in_app_iff, !in_map_iff in Hx.
          destruct Hx as [(y & <- & Hy)|[[<-|[]]|(p & <- & Hp)]]; eauto.
        * destruct (Q2 Y) as [W _]. rewrite W in Hx. destruct Hx.
      + intros (r & [Hr Y] & Hx). exists r. split; auto. rewrite (proj1 (O2 _)).
        destruct (O0 (upd h lambda_R r) eq_refl) as (Q1 & _ & _). rewrite !upd_same in *.
        destruct (Q1 Y) as [W _]. rewrite W, !in_app_iff, !in_map_iff.
        destruct Hx as [(y & Hy & ->)|[->|(p & Hp & ->)]]; eauto. right; left; left; auto.
    - intros h z. cbn [sign_exponents pool_flat]. rewrite in_flat_map. intros (r & Hr & Hz).
      rewrite (proj2 (O2 _)) in Hz. destruct (O0 (upd h lambda_R r) eq_refl) as (_ & _ & S0).
      rewrite S0 in Hz. destruct Hz as [<-|[<-|[]]]; auto.
    - intros y. rewrite K1, dupdate_keys. unfold term_key, couples. split.
      + intros [[A|A]|(r & p & A1 & A2 & A3 & ->)]; auto. right; right. exists r, p. auto.
      + intros [A|[A|(r & p & [A1 A2] & A3 & ->)]]; auto. right. exists r, p. auto.
    - intros y v Hv. destruct (K2 y) as [[Y (r & p & A1 & A2 & A3 & A4)]|[Y N]].
      + right; left. split; [congruence|]. exists r, p. unfold couples. auto.
      + rewrite Hv in Y. symmetry in Y. rewrite dget_dupdate in Y.
        destruct (dget y (rev (de_params (dyn c)))) as [w|] eqn:W; [|auto].
        right; right. inversion Y; subst w. apply dget_Some_In in W. apply in_rev in W. auto.
    - intros ND. apply K3, dupdate_NoDup, ND.
  Qed.

  Lemma chain_terms_facts cs : (forall c, In c cs -> In c (d_chains (b_decay b))) -> forall params es params',
    chain_terms b lam spin k i j theta uc cs params = Ok (es, params') ->
    (forall h x, In x (occ h (CAddL es)) <-> exists c, In c cs /\ term_occ c x) /\
    (forall h z, In z (sign_exponents h (CAddL es)) -> z = spin k - lam k \/ z = spin j - lam j) /\
    (forall y, In y (dkeys params') <-> In y (dkeys params) \/ exists c, In c cs /\ term_key c y) /\
    (forall y v, dget y params' = Some v -> dget y params = Some v \/ exists c, In c cs /\
       (v = one_val /\ (exists r p, couples c lam k r /\ In p (keys c r) /\ y = pkey_of p) \/
        In (y, v) (de_params (dyn c)))) /\
    (NoDup (dkeys params) -> NoDup (dkeys params')).
  Proof.
    induction cs as [|c cs IH]; intros Sub params es params' H; cbn [chain_terms] in H.
    - ok_inj H. inversion H; subst. split; [|split; [|split; [|split]]].
      + intros h x. cbn. split; [intros []|intros (c & [] & _)].
      + intros h z [].
      + intros y. split; [auto|intros [Y|(c & [] & _)]; auto].
      + auto.
      + auto.
    - inv_bind H. destruct v as [e p1]. inv_bind H. destruct v as [es' p2]. ok_inj H. inversion H; subst. clear H.
      destruct (chain_term_facts c params e p1 (Sub c (or_introl eq_refl)) E) as (A1 & A2 & A3 & A4 & A5).
      destruct (IH (fun c' Hc' => Sub c' (or_intror Hc')) _ _ _ E0) as (B1 & B2 & B3 & B4 & B5).
      split; [|split; [|split; [|split]]].
      + intros h x. cbn [CAddL occ]. rewrite in_app_iff, A1, B1. split.
        * intros [X|(c' & Hc' & X)]; [exists c|exists c']; split; auto; [left|right]; auto.
        * intros (c' & [<-|Hc'] & X); [left; auto|right; eauto].
      + intros h z. cbn [CAddL sign_exponents]. rewrite in_app_iff. intros [Z|Z]; eauto.
      + intros y. rewrite B3, A3. split.
        * intros [[Y|Y]|(c' & Hc' & Y)]; auto; right; [exists c|exists c']; split; auto; [left|right]; auto.
        * intros [Y|(c' & [<-|Hc'] & Y)]; auto. right; eauto.
      + intros y v Hv. destruct (B4 y v Hv) as [Y|(c' & Hc' & Y)].
        * destruct (A4 y v Y) as [Z|Z]; auto. right. exists c. split; [left; auto|exact Z].
        * right. exists c'. split; [right; auto|exact Y].
      + auto.
  Qed.
End Chains.

Lemma std_masses d s : std_decay d s ->
  create_mass_symbol_mapping d = Ok [(m_sym 0, p_mass (s 0)); (m_sym 1, p_mass (s 1));
                                     (m_sym 2, p_mass (s 2)); (m_sym 3, p_mass (s 3))].
Proof.
  intros D. unfold create_mass_symbol_mapping. rewrite (std_sorted_keys _ _ D). cbn [bind mapM].
  assert (G : forall i, In i [0; 1; 2; 3] -> dgetitem i (d_states d) = Ok (s i)).
  { intros i Hi. unfold dgetitem. rewrite (std_get d s D i Hi). reflexivity. }
  rewrite !G by (simpl; auto).
  cbn [bind]. unfold create_mass_symbol. cbn [to_particle].
  rewrite (std_index0 _ _ D), (std_index1 _ _ D), (std_index2 _ _ D), (std_index3 _ _ D). reflexivity.
Qed.

Lemma helicities_nonempty j : 0 <= j -> In j (helicities j).
Proof.
  intros Hj. unfold helicities. apply in_map_iff. exists (Z.to_nat j). split; [lia|]. apply in_seq. lia.
Qed.
Lemma tuples_nonempty d s : std_decay d s -> tuples s <> [].
Proof.
  intros D E.
  assert (X : In (p_spin (s 0), p_spin (s 1), p_spin (s 2), p_spin (s 3)) (tuples s)).
  { apply tuples_In. repeat split; apply helicities_nonempty; apply (sd_spin _ _ D); simpl; auto. }
  rewrite E in X. destruct X.
Qed.

(** ** The model *)
Section Model.
  Variables (b : builder) (s : Z -> state) (dyn : chain -> defexpr) (uc : bool).
  Hypothesis (D : std_decay (b_decay b) s).
  Hypothesis (Dyn : dynamics_of b dyn).
  Notation keys c r lk li lj := (scaling_keys (b_prod_helicity b) (b_dec_helicity b) uc c r lk li lj).

  Lemma loop_params work : forall amps vars params amps' vars' params',
    formulate_loop b uc work (amps, vars, params) = Ok (amps', vars', params') ->
    (forall y v, dget y params' = Some v -> dget y params = Some v \/ exists l k m, In (l, k) work /\
       formulate_subsystem_amplitude b l k uc = Ok m /\ In (y, v) (m_params m)) /\
    (NoDup (dkeys params) -> NoDup (dkeys params')).
  Proof.
    induction work as [|[l k] work IH]; intros amps vars params amps' vars' params' H; cbn [formulate_loop] in H.
    - ok_inj H. inversion H; subst. split; auto.
    - inv_bind H. destruct (IH _ _ _ _ _ _ H) as [A B]. split.
      + intros y w Hw. destruct (A y w Hw) as [Y|(l' & k' & m & I & F & Q)].
        * rewrite dget_dupdate in Y. destruct (dget y (rev (m_params v))) as [u|] eqn:W; [|auto].
          inversion Y; subst u. apply dget_Some_In in W. apply in_rev in W.
          right. exists l, k, v. split; [left; auto|auto].
        * right. exists l', k', m. split; [right; auto|auto].
      + intros ND. apply B, dupdate_NoDup, ND.
  Qed.

  (** The helicities and the chain of one term in the amplitudes *)
  Definition term_at (l : Z * Z * Z * Z) (i j k : Z) (c : chain) : Prop :=
    helicity_tuple s l /\ cyclic i j k /\ In c (chains_of b k).
  Definition coupled (l : Z * Z * Z * Z) (k : Z) (c : chain) (r : Z) : Prop :=
    In r (helicities (p_spin (ch_resonance c))) /\ at4 l 0 = r - at4 l k.

  Lemma chains_of_In k c : In c (chains_of b k) -> In c (d_chains (b_decay b)).
  Proof. unfold chains_of. rewrite filter_In. tauto. Qed.
  Lemma chains_of_ids k c : In c (chains_of b k) -> In k (get_subsystem_ids (b_decay b)).
  Proof.
    unfold chains_of, get_subsystem_ids. rewrite filter_In, to_set_In, in_map_iff. intros [H E].
    apply Z.eqb_eq in E. eauto.
  Qed.

  Lemma subsystem_facts l k m : formulate_subsystem_amplitude b l k uc = Ok m ->
    exists i j e, cyclic i j k /\ m_amplitudes m = [((amp_name k, amp_index l), e)] /\
      (forall h x, In x (occ h e) <-> exists c r, In c (chains_of b k) /\ coupled l k c r /\
         ((exists y, In y (symbols_of (de_expr (dyn c))) /\ x = OVar y) \/ x = OAngle (theta_name i j) \/
          exists p, In p (keys c r (at4 l k) (at4 l i) (at4 l j)) /\ x = okey_of p)) /\
      (forall h z, In z (sign_exponents h e) -> z = p_spin (s k) - at4 l k \/ z = p_spin (s j) - at4 l j) /\
      (forall y, In y (dkeys (m_params m)) <-> exists c, In c (chains_of b k) /\
         (In y (dkeys (de_params (dyn c))) \/ exists r p, coupled l k c r /\
            In p (keys c r (at4 l k) (at4 l i) (at4 l j)) /\ y = pkey_of p)) /\
      (forall y v, dget y (m_params m) = Some v -> exists c, In c (chains_of b k) /\
         ((v = one_val /\ exists r p, coupled l k c r /\
            In p (keys c r (at4 l k) (at4 l i) (at4 l j)) /\ y = pkey_of p) \/ In (y, v) (de_params (dyn c)))) /\
      NoDup (dkeys (m_params m)).
  Proof.
    intros F. destruct (subsystem_amplitude_inv b s D l k uc m F) as (i & j & th & terms & params & Cy & _ & T & A & _ & P).
    destruct (cyclic_in _ _ _ Cy) as (Hi & Hj & Hk).
    destruct (chain_terms_facts b dyn uc Dyn (lam4 l) (spin4 s) i j k (theta_name i j) _ (chains_of_In k) _ _ _ T)
      as (B1 & B2 & B3 & B4 & B5).
    assert (Q : forall n, In n [1; 2; 3] -> lam4 l n = at4 l n).
    { intros n Hn. apply lam4_at4. right; exact Hn. }
    assert (Q0 : lam4 l 0 = at4 l 0) by (apply lam4_at4; left; auto).
    assert (S4 : forall n, In n [1; 2; 3] -> spin4 s n = p_spin (s n)).
    { intros n Hn. apply spin4_eq. right; exact Hn. }
    unfold term_occ, term_key, couples in *. rewrite ?Q0, ?(Q i Hi), ?(Q j Hj), ?(Q k Hk), ?(S4 k Hk), ?(S4 j Hj) in *.
    exists i, j, (CAddL terms). split; auto. split; auto. split; [|split; [|split; [|split]]].
    - intros h x. rewrite B1. unfold coupled. split.
      + intros (c & Hc & r & X & Y). exists c, r. auto.
      + intros (c & r & Hc & X & Y). exists c. split; auto. exists r. auto.
    - exact B2.
    - subst params. intros y. rewrite B3. unfold coupled. split.
      + intros [[]|Y]. exact Y.
      + auto.
    - subst params. intros y v Hv. destruct (B4 y v Hv) as [Y|Y]; [discriminate|]. exact Y.
    - subst params. apply B5. constructor.
  Qed.

  Variables (ref : option Z) (cl : bool) (m : model).
  Hypothesis (F : formulate b ref cl uc = Ok m).

  Theorem amplitudes_occ x : occurs_in_amplitudes m x <->
    exists l i j k c r, term_at l i j k c /\ coupled l k c r /\
      ((exists y, In y (symbols_of (de_expr (dyn c))) /\ x = OVar y) \/ x = OAngle (theta_name i j) \/
       exists p, In p (keys c r (at4 l k) (at4 l i) (at4 l j)) /\ x = okey_of p).
  Proof.
    destruct (formulate_inv b s D ref cl uc m F)
      as (r0 & ks & terms & zdefs & amps & vars & params & masses & inv & _ & Hks & _ & L & _ & _ & Em).
    destruct (formulate_loop_facts b s D uc _ _ _ _ _ _ _ L) as (W & KA & _).
    set (ids := if b_all_subsystems b then [1; 2; 3] else ks) in *.
    unfold occurs_in_amplitudes. rewrite Em. cbn [m_amplitudes].
    assert (Hids : forall k c, In c (chains_of b k) -> In k ids).
    { intros k c Hc. apply chains_of_ids in Hc. unfold ids. destruct (b_all_subsystems b).
      - apply (ids_range b s D); auto.
      - apply (ids_123 b ks k Hks); auto. }
    split.
    - intros (key & e & G & X). assert (K : In key (dkeys amps)) by (apply dget_In; eauto).
      apply KA in K. destruct K as [[]|(l & k & I & ->)].
      destruct (W l k I) as (m1 & F1 & G1 & _). apply (work_of_In s) in I. destruct I as [Hl _].
      destruct (subsystem_facts l k m1 F1) as (i & j & e1 & Cy & A & O & _).
      rewrite A in G1. specialize (G1 _ e1 (dget_single _ _)). rewrite G1 in G. inversion G; subst e1.
      apply O in X. destruct X as (c & r & Hc & Cp & X). exists l, i, j, k, c, r. unfold term_at. auto.
    - intros (l & i & j & k & c & r & (Hl & Cy & Hc) & Cp & X).
      assert (I : In (l, k) (work_of s ids)) by (apply work_of_In; split; auto; eapply Hids; eauto).
      destruct (W l k I) as (m1 & F1 & G1 & _).
      destruct (subsystem_facts l k m1 F1) as (i' & j' & e1 & Cy' & A & O & _).
      destruct (cyclic_fun _ _ _ _ _ Cy Cy') as [<- <-].
      rewrite A in G1. specialize (G1 _ e1 (dget_single _ _)). exists (amp_name k, amp_index l), e1.
      split; auto. apply O. exists c, r. auto.
  Qed.

  Theorem params_keys y : In y (dkeys (m_params m)) <->
    (exists x, mass_symbol x /\ y = KSym x) \/
    exists l i j k c, term_at l i j k c /\
      (In y (dkeys (de_params (dyn c))) \/ exists r p, coupled l k c r /\
         In p (keys c r (at4 l k) (at4 l i) (at4 l j)) /\ y = pkey_of p).
  Proof.
    destruct (formulate_inv b s D ref cl uc m F)
      as (r0 & ks & terms & zdefs & amps & vars & params & masses & inv & _ & Hks & _ & L & Hm & _ & Em).
    destruct (formulate_loop_facts b s D uc _ _ _ _ _ _ _ L) as (W & _ & _ & _ & _ & _ & _ & _ & KP).
    set (ids := if b_all_subsystems b then [1; 2; 3] else ks) in *.
    rewrite Em. cbn [m_params]. rewrite dupdate_keys.
    assert (Hids : forall k c, In c (chains_of b k) -> In k ids).
    { intros k c Hc. apply chains_of_ids in Hc. unfold ids. destruct (b_all_subsystems b).
      - apply (ids_range b s D); auto.
      - apply (ids_123 b ks k Hks); auto. }
    assert (MK : In y (dkeys (map (fun kv : symbol * Qc => (KSym (fst kv), real_val (snd kv))) masses)) <->
                 exists x, mass_symbol x /\ y = KSym x).
    { rewrite (std_masses _ _ D) in Hm. ok_inj Hm. subst masses. unfold mass_symbol. cbn [map dkeys fst snd In].
      split.
      - intros [<-|[<-|[<-|[<-|[]]]]]; eexists; (split; [|reflexivity]); auto.
      - intros (x & [<-|[<-|[<-|[<-|[]]]]] & ->); auto. }
    rewrite MK. split.
    - intros [K|K]; [|auto]. right. apply KP in K. destruct K as [[]|(l & k & m1 & I & F1 & K)].
      apply (work_of_In s) in I. destruct I as [Hl _].
      destruct (subsystem_facts l k m1 F1) as (i & j & e1 & Cy & _ & _ & _ & P & _).
      apply P in K. destruct K as (c & Hc & K). exists l, i, j, k, c. unfold term_at. auto.
    - intros [K|(l & i & j & k & c & (Hl & Cy & Hc) & K)]; [auto|]. left.
      assert (I : In (l, k) (work_of s ids)) by (apply work_of_In; split; auto; eapply Hids; eauto).
      destruct (W l k I) as (m1 & F1 & _ & _ & G1).
      destruct (subsystem_facts l k m1 F1) as (i' & j' & e1 & Cy' & _ & _ & _ & P & _).
      destruct (cyclic_fun _ _ _ _ _ Cy Cy') as [<- <-]. apply G1, P. exists c. auto.
  Qed.

  Theorem params_values y v : dget y (m_params m) = Some v ->
    (exists i, In i [0; 1; 2; 3] /\ y = KSym (m_sym i) /\ v = real_val (p_mass (s i))) \/
    (exists l i j k c r p, term_at l i j k c /\ coupled l k c r /\
       In p (keys c r (at4 l k) (at4 l i) (at4 l j)) /\ y = pkey_of p /\ v = one_val) \/
    (exists c, In c (d_chains (b_decay b)) /\ In (y, v) (de_params (dyn c)) /\ forall x, y = KSym x -> ~ mass_symbol x).
  Proof.
    destruct (formulate_inv b s D ref cl uc m F)
      as (r0 & ks & terms & zdefs & amps & vars & params & masses & inv & _ & Hks & _ & L & Hm & _ & Em).
    destruct (loop_params _ _ _ _ _ _ _ L) as [LP _].
    rewrite Em. cbn [m_params]. rewrite (std_masses _ _ D) in Hm. ok_inj Hm. subst masses.
    cbn [map fst snd]. rewrite dget_dupdate_nodup.
    2:{ cbn. repeat constructor; simpl; intuition discriminate. }
    match goal with |- context [dget y ?d] => destruct (dget y d) as [w|] eqn:W end.
    - intros E. inversion E; subst w. left. apply dget_Some_In in W. cbn [In] in W.
      destruct W as [W|[W|[W|[W|[]]]]]; inversion W; subst; eexists; (split; [|split; [reflexivity|reflexivity]]); simpl; auto.
    - intros E. right. destruct (LP y v E) as [Y|(l & k & m1 & I & F1 & Y)]; [discriminate|].
      apply (work_of_In s) in I. destruct I as [Hl _].
      destruct (subsystem_facts l k m1 F1) as (i & j & e1 & Cy & _ & _ & _ & _ & V & ND).
      apply In_dget in Y; auto. destruct (V y v Y) as (c & Hc & [[-> (r & p & Cp & Hp & ->)]|Y2]).
      + left. exists l, i, j, k, c, r, p. unfold term_at. auto 10.
      + right. exists c. split; [eapply chains_of_In; eauto|]. split; auto.
        intros x -> Hx. apply dget_None in W. apply W. unfold mass_symbol in Hx. cbn [In] in Hx.
        cbn [dkeys map fst In].
        destruct Hx as [<-|[<-|[<-|[<-|[]]]]]; [left|right; left|right; right; left|right; right; right; left]; reflexivity.
  Qed.

  Theorem signs_even key e : dget key (m_amplitudes m) = Some e ->
    forall z, In z (sign_exponents (fun _ => 0) e) -> Z.even z = true.
  Proof.
    destruct (formulate_inv b s D ref cl uc m F)
      as (r0 & ks & terms & zdefs & amps & vars & params & masses & inv & _ & Hks & _ & L & Hm & _ & Em).
    destruct (formulate_loop_facts b s D uc _ _ _ _ _ _ _ L) as (W & KA & _).
    rewrite Em. cbn [m_amplitudes]. intros G z Hz.
    assert (K : In key (dkeys amps)) by (apply dget_In; eauto).
    apply KA in K. destruct K as [[]|(l & k & I & ->)].
    destruct (W l k I) as (m1 & F1 & G1 & _). apply (work_of_In s) in I. destruct I as [Hl _].
    destruct (subsystem_facts l k m1 F1) as (i & j & e1 & Cy & A & _ & S1 & _).
    rewrite A in G1. specialize (G1 _ e1 (dget_single _ _)). rewrite G1 in G. inversion G; subst e1.
    destruct (cyclic_in _ _ _ Cy) as (Hi & Hj & Hk).
    destruct (S1 _ z Hz) as [->| ->]; apply helicity_even; auto; right; auto.
  Qed.

  Theorem intensity_occ x : occurs_in_intensity m x <-> exists r k,
    resolve_reference (b_decay b) ref = Ok r /\ In k (get_subsystem_ids (b_decay b)) /\
    ((exists l, helicity_tuple s l /\ x = OIdx (amp_name k) (amp_index l)) \/
     (exists i, In i [0; 1; 2; 3] /\ p_spin (s i) <> 0 /\ x = OAngle (zeta_symbol i k r))).
  Proof.
    destruct (formulate_inv b s D ref cl uc m F)
      as (r & ks & terms & zdefs & amps & vars & params & masses & inv & Hr & Hks & T & _ & _ & _ & Em).
    assert (Hk : forall k, In k ks -> In k [1; 2; 3]).
    { intros k Hk. apply (ids_range b s D), (ids_123 b ks k Hks), Hk. }
    destruct (aligned_terms_facts s r ks Hk _ _ _ T) as (_ & O & _).
    unfold occurs_in_intensity. rewrite Em. cbn [m_intensity].
    assert (OC : forall h, occ h (if cl then cleanup (aligned_expr s terms) else aligned_expr s terms)
                     = occ h (aligned_expr s terms)).
    { intros h. destruct cl; auto. unfold aligned_expr. apply cleanup_occ; apply (pools_ok b s D). }
    change (map (fun n => (hel_sym n, spin_range2 (spin4 s n))) [0; 1; 2; 3]) with
      [(hel_sym 0, spin_range2 (spin4 s 0)); (hel_sym 1, spin_range2 (spin4 s 1));
       (hel_sym 2, spin_range2 (spin4 s 2)); (hel_sym 3, spin_range2 (spin4 s 3))].
    cbn [occ]. rewrite pool_flat_product4, <- (tuples_spin4 s).
    assert (OA : forall h, In x (occ h (aligned_expr s terms)) <->
      exists k, In k ks /\ ((exists l, helicity_tuple s l /\ x = OIdx (amp_name k) (amp_index l)) \/
        (exists i, In i [0; 1; 2; 3] /\ p_spin (s i) <> 0 /\ x = OAngle (zeta_symbol i k r)))).
    { intros h. unfold aligned_expr.
      change (map (fun n => (hel_prime n, spin_range2 (spin4 s n))) [0; 1; 2; 3]) with
        [(hel_prime 0, spin_range2 (spin4 s 0)); (hel_prime 1, spin_range2 (spin4 s 1));
         (hel_prime 2, spin_range2 (spin4 s 2)); (hel_prime 3, spin_range2 (spin4 s 3))].
      cbn [occ]. rewrite pool_flat_product4, <- (tuples_spin4 s). split.
      - intros (l & Hl & X). apply O in X. destruct X as (k & Hk' & X). exists k. split; auto.
        change (upd (upd (upd (upd h (hel_prime 0) (at4 l 0)) (hel_prime 1) (at4 l 1)) (hel_prime 2) (at4 l 2))
                  (hel_prime 3) (at4 l 3)) with (upd4 hel_prime h l) in X. rewrite hp_upd4 in X.
        destruct X as [X|(i & Hi & Si & X)].
        + left. exists l. split; auto. apply tuples_In; auto.
        + right. exists i. rewrite (spin4_eq s i Hi) in Si. auto.
      - intros (k & Hk' & [(l & Hl & ->)|(i & Hi & Si & ->)]).
        + exists l. apply tuples_In in Hl. split; auto. apply O. exists k. split; auto. left.
          change (upd (upd (upd (upd h (hel_prime 0) (at4 l 0)) (hel_prime 1) (at4 l 1)) (hel_prime 2) (at4 l 2))
                    (hel_prime 3) (at4 l 3)) with (upd4 hel_prime h l). rewrite hp_upd4. auto.
        + destruct (tuples s) as [|l ls] eqn:Et.
          { exfalso. apply (tuples_nonempty _ s D); auto. }
          exists l. split; [left; auto|]. apply O. exists k. split; auto. right. exists i.
          rewrite (spin4_eq s i Hi). auto. }
    split.
    - intros (l & Hl & X). rewrite OC, OA in X. destruct X as (k & Hk' & X). exists r, k.
      split; auto. split; auto. apply (ids_123 b ks k Hks); auto.
    - intros (r' & k & Hr' & Hk' & X). assert (r' = r) by congruence. subst r'.
      destruct (tuples s) as [|l ls] eqn:Et.
      { exfalso. apply (tuples_nonempty _ s D); auto. }
      exists l. split; [left; auto|]. rewrite OC, OA. exists k. split; auto. apply (ids_123 b ks k Hks); auto.
  Qed.
End Model.
