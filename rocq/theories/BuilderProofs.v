(** Proofs of the properties of the amplitude builder (C21-C35, C39, C40). *)
From Coq Require Import String ZArith QArith Qcanon Qreals List Bool Reals Lia Lra Permutation Sorted.
From Coquelicot Require Import Complex.
From Verif Require Import Prelude Spin Decay Expr Angles Sums Wigner CG CExpr SpecKin SpecDPD Builder SpecBuilder
  SpinFacts DecayFacts AnglesFacts WignerFacts CGFacts CExprFacts BuilderFacts ModelFacts RefFacts OccFacts.
Import ListNotations.
Local Open Scope string_scope.
Local Open Scope Z_scope.
Local Open Scope list_scope.

(** ** C21 *)
Lemma std_invariants d s : std_decay d s -> exists e1 e2 e3 : rexpr,
  formulate_invariants d = Ok [(sigma_sym 1, e1); (sigma_sym 2, e2); (sigma_sym 3, e3)] /\
  forall env, let M := (at_m0 env ^ 2 + at_m1 env ^ 2 + at_m2 env ^ 2 + at_m3 env ^ 2)%R in
    reval env e1 = (M - at_s2 env - at_s3 env)%R /\
    reval env e2 = (M - at_s3 env - at_s1 env)%R /\
    reval env e3 = (M - at_s1 env - at_s2 env)%R.
Proof.
  intros D. unfold formulate_invariants, formulate_third_mandelstam. rewrite (std_masses _ _ D).
  cbn [bind dkeys map fst]. do 3 eexists. split; [reflexivity|].
  intros env; cbv zeta. unfold at_m0, at_m1, at_m2, at_m3, at_s1, at_s2, at_s3.
  cbn [reval sigmaE]. change (m_sym 0) with (Sym "m0" ANonneg). change (m_sym 1) with (Sym "m1" ANonneg).
  change (m_sym 2) with (Sym "m2" ANonneg). change (m_sym 3) with (Sym "m3" ANonneg).
  change (sigma_sym 1) with (Sym "sigma1" ANonneg). change (sigma_sym 2) with (Sym "sigma2" ANonneg).
  change (sigma_sym 3) with (Sym "sigma3" ANonneg). repeat split; ring.
Qed.
Lemma c21 d s : std_decay d s -> exists e1 e2 e3,
  formulate_invariants d = Ok [(Sym "sigma1" ANonneg, e1); (Sym "sigma2" ANonneg, e2); (Sym "sigma3" ANonneg, e3)] /\
  (forall env p1 p2 p3, momenta_of env p1 p2 p3 ->
     reval env e1 = at_s1 env /\ reval env e2 = at_s2 env /\ reval env e3 = at_s3 env) /\
  (forall env, (reval env e1 = at_s1 env <-> reval env e2 = at_s2 env) /\
               (reval env e2 = at_s2 env <-> reval env e3 = at_s3 env)) /\
  create_mass_symbol_mapping d = Ok [(Sym "m0" ANonneg, p_mass (s 0)); (Sym "m1" ANonneg, p_mass (s 1));
                                     (Sym "m2" ANonneg, p_mass (s 2)); (Sym "m3" ANonneg, p_mass (s 3))].
Proof.
  intros D. destruct (std_invariants d s D) as (e1 & e2 & e3 & F & V). exists e1, e2, e3.
  split; [exact F|]. split; [|split; [|exact (std_masses d s D)]].
  - intros env p1 p2 p3 H. destruct (V env) as (V1 & V2 & V3). rewrite V1, V2, V3.
    destruct H as ((_ & _ & M1) & (_ & _ & M2) & (_ & _ & M3) & (_ & _ & M0) & S1 & S2 & S3).
    rewrite S1, S2, S3. cbn [pow]. rewrite !Rmult_1_r, <- M0, <- M1, <- M2, <- M3.
    destruct p1 as [E1 [x1 y1 z1]], p2 as [E2 [x2 y2 z2]], p3 as [E3 [x3 y3 z3]].
    unfold msq, add4, add3, dot; simpl. repeat split; ring.
  - intros env. destruct (V env) as (V1 & V2 & V3). rewrite V1, V2, V3. split; split; lra.
Qed.

(** ** C30 *)
Lemma max_by_count_spec l : forall best, StronglySorted Z.lt (map fst (best :: l)) ->
  In (max_by_count best l) (best :: l) /\
  forall x, In x (best :: l) -> (snd x <= snd (max_by_count best l))%nat /\
    (snd x = snd (max_by_count best l) -> fst (max_by_count best l) <= fst x).
Proof.
  induction l as [|x l IH]; intros best S; cbn [max_by_count].
  - split; [left; auto|]. intros x [<-|[]]. split; [lia|intros; lia].
  - cbn [map] in S. inversion S as [|? ? S1 F1]; subst. inversion S1 as [|? ? S2 F2]; subst.
    inversion F1 as [|? ? L1 F1']; subst.
    destruct (Nat.ltb_spec (snd best) (snd x)) as [Q|Q].
    + destruct (IH x S1) as [I P]. split; [right; auto|].
      intros y [<-|Hy]; [|apply P; auto]. destruct (P x (or_introl eq_refl)) as [P1 P2].
      split; [lia|]. intros E. lia.
    + destruct (IH best) as [I P].
      { cbn [map]. constructor; auto. }
      split; [destruct I as [I|I]; [left; auto|right; right; auto]|].
      intros y [<-|[<-|Hy]].
      * apply P; left; auto.
      * destruct (P best (or_introl eq_refl)) as [P1 P2]. split; [lia|]. intros E.
        assert (X : snd best = snd (max_by_count best l)) by lia. specialize (P2 X). lia.
      * apply P; right; auto.
Qed.
Lemma sorted_Z_lt (l r : list Z) : NoDup l -> sorted l = Ok r -> StronglySorted Z.lt r.
Proof.
  intros ND E. pose proof (sorted_perm _ _ E) as P.
  assert (NDr : NoDup r) by (eapply Permutation_NoDup; eauto).
  pose proof (sorted_NoDup_strict _ (sorted_sorted _ _ E) NDr) as S.
  clear - S. induction S as [|a l S IH F]; constructor; auto.
  eapply Forall_impl; [|exact F]. intros b Hb. unfold clt in Hb. injection Hb as X.
  apply Z.compare_lt_iff; exact X.
Qed.
Lemma to_set_NoDup' (l : list Z) : NoDup (to_set l).
Proof. apply to_set_NoDup. Qed.
Lemma chain_count_pos d k : (0 < chain_count d k)%nat <-> In k (get_subsystem_ids d).
Proof.
  unfold chain_count, get_subsystem_ids. rewrite to_set_In, in_map_iff. split.
  - intros H. destruct (filter _ _) as [|c l] eqn:E; [simpl in H; lia|].
    assert (I : In c (c :: l)) by (left; auto). rewrite <- E in I. apply filter_In in I.
    exists c. split; [apply Z.eqb_eq|]; tauto.
  - intros (c & E & I). assert (J : In c (filter (fun c => st_index (ch_spectator c) =? k) (d_chains d))).
    { apply filter_In. split; auto. apply Z.eqb_eq; auto. }
    destruct (filter _ _); [contradiction|simpl; lia].
Qed.
Lemma mapM_map {A B} (f : A -> B) (g : A -> res B) l : (forall a, In a l -> g a = Ok (f a)) ->
  mapM g l = Ok (map f l).
Proof.
  induction l as [|a l IH]; intros H; [reflexivity|]. cbn [mapM map].
  rewrite (H a (or_introl eq_refl)). cbn [bind]. rewrite IH by (intros; apply H; right; auto). reflexivity.
Qed.
Lemma c30 d s : std_decay d s ->
  (d_chains d = [] -> resolve_reference d None = Err ValueError) /\
  (d_chains d <> [] -> exists r, resolve_reference d None = Ok r /\
     (exists c, In c (d_chains d) /\ st_index (ch_spectator c) = r) /\
     forall k, (chain_count d k <= chain_count d r)%nat /\
               (chain_count d k = chain_count d r -> r <= k)) /\
  (forall r, resolve_reference d (Some r) = Ok r) /\
  (forall r, check_reference_subsystem d r = true <->
     ~ exists c, In c (d_chains d) /\ st_index (ch_spectator c) = r).
Proof.
  intros D. split; [|split; [|split; [reflexivity|]]].
  - intros E. cbn [resolve_reference]. unfold get_best_reference_subsystem, get_subsystem_ids.
    rewrite E. reflexivity.
  - intros NE. cbn [resolve_reference]. unfold get_best_reference_subsystem.
    destruct (sorted_Z (get_subsystem_ids d)) as (ks & Hks & P). rewrite Hks. cbn [bind].
    pose proof (sorted_Z_lt _ _ (to_set_NoDup' _) Hks) as SS.
    rewrite (mapM_map (fun k => (k, chain_count d k))).
    2:{ intros k _. rewrite (get_subsystem_ok _ k (sd_valid _ _ D)). reflexivity. }
    cbn [bind]. destruct ks as [|k0 ks].
    { destruct (d_chains d) as [|c cs] eqn:EC; [congruence|]. exfalso.
      assert (I : In (st_index (ch_spectator c)) (get_subsystem_ids d)).
      { unfold get_subsystem_ids. rewrite EC. apply to_set_In. left; auto. }
      apply (Permutation_in _ P) in I. contradiction. }
    cbn [map]. eexists. split; [reflexivity|].
    set (best := (k0, chain_count d k0)). set (l := map (fun k => (k, chain_count d k)) ks).
    destruct (max_by_count_spec l best) as [I M].
    { unfold best, l. cbn [map]. rewrite map_map. cbn [fst]. rewrite map_id. exact SS. }
    set (r := max_by_count best l) in *.
    assert (K : forall x, In x (best :: l) <-> In (fst x) (k0 :: ks) /\ snd x = chain_count d (fst x)).
    { intros [x n]. change (best :: l) with (map (fun k => (k, chain_count d k)) (k0 :: ks)).
      rewrite in_map_iff. cbn [fst snd]. split.
      - intros (y & E & Hy). inversion E; subst. auto.
      - intros [Hx ->]. exists x; auto. }
    apply K in I. destruct I as [I S2].
    assert (Ir : In (fst r) (get_subsystem_ids d)) by (eapply Permutation_in; [symmetry; exact P|auto]).
    split.
    + unfold get_subsystem_ids in Ir. rewrite to_set_In, in_map_iff in Ir.
      destruct Ir as (c & E & Hc). eauto.
    + intros k. rewrite <- S2. destruct (Nat.eq_0_gt_0_cases (chain_count d k)) as [Z0|Pos].
      * split; [lia|]. intros E. apply chain_count_pos in Ir. lia.
      * pose proof (proj1 (chain_count_pos d k) Pos) as Ik.
        assert (IK : In (k, chain_count d k) (best :: l)).
        { apply K. split; auto. cbn [fst]. eapply Permutation_in; eauto. }
        specialize (M _ IK). cbn [fst snd] in M. exact M.
  - intros r. unfold check_reference_subsystem. rewrite negb_true_iff.
    destruct (memb r (get_subsystem_ids d)) eqn:E.
    + rewrite memb_In in E. unfold get_subsystem_ids in E. rewrite to_set_In, in_map_iff in E.
      destruct E as (c & E & Hc). split; [discriminate|]. intros N. exfalso. apply N. eauto.
    + split; auto. intros _ (c & Hc & Ec). assert (X : memb r (get_subsystem_ids d) = true).
      { apply memb_In. unfold get_subsystem_ids. apply to_set_In. apply in_map_iff. eauto. }
      congruence.
Qed.

(** ** C31 *)
Lemma get_chain_denotes cf i c : get_chain cf i = Ok c <-> denotes (dc_decay cf) i c.
Proof.
  destruct i as [c'|n|]; cbn [get_chain denotes].
  - destruct (memb c' (d_chains (dc_decay cf))) eqn:E.
    + rewrite memb_In in E. split; [intros X; inversion X; subst; auto|intros [-> _]; auto].
    + split; [discriminate|]. intros [-> I]. apply memb_In in I. congruence.
  - unfold find_chain. destruct (find_first _ _) as [c'|] eqn:E.
    + pose proof E as E'. apply find_first_Some in E'. destruct E' as (l1 & l2 & H1 & H2 & H3).
      split.
      * intros X; inversion X; subst c'. exists l1, l2. split; auto. split; [apply eqb_eq; auto|].
        intros x Hx Q. specialize (H3 x Hx). apply eqb_eq in Q. congruence.
      * intros (a1 & a2 & A1 & A2 & A3). f_equal.
        assert (X : find_first (fun c : chain => eqb (p_name (ch_resonance c)) n) (d_chains (dc_decay cf)) = Some c).
        { apply find_first_Some. exists a1, a2. split; auto. split; [apply eqb_eq; auto|].
          intros x Hx. specialize (A3 x Hx). destruct (eqb (p_name (ch_resonance x)) n) eqn:Q; auto.
          exfalso. apply A3. apply (proj1 (eqb_eq _ _) Q). }
        congruence.
    + split; [discriminate|]. intros (a1 & a2 & A1 & A2 & A3). exfalso.
      rewrite find_first_None in E. specialize (E c). rewrite A1 in E.
      assert (X : eqb (p_name (ch_resonance c)) n = false) by (apply E, in_or_app; right; left; auto).
      apply eqb_eq in A2. congruence.
  - split; [discriminate|contradiction].
Qed.
Lemma get_chain_err cf i : (forall c, ~ denotes (dc_decay cf) i c) -> get_chain cf i = Err (registry_error i).
Proof.
  intros N. destruct (get_chain cf i) as [c|e] eqn:E.
  - exfalso. apply (N c), get_chain_denotes; auto.
  - destruct i as [c'|n|]; cbn [get_chain registry_error] in *.
    + destruct (memb c' _); [discriminate|congruence].
    + unfold find_chain in E. destruct (find_first _ _); [discriminate|congruence].
    + congruence.
Qed.
Lemma register_decay cf i f cf' : register_builder cf i f = Ok cf' -> dc_decay cf' = dc_decay cf.
Proof. unfold register_builder. intros H. inv_bind H. ok_inj H. subst; reflexivity. Qed.
Lemma register_all_decay h : forall cf, dc_decay (register_all cf h) = dc_decay cf.
Proof.
  induction h as [|[i f] h IH]; intros cf; cbn [register_all]; auto. rewrite IH.
  destruct (register_builder cf i f) eqn:E; auto. eapply register_decay; eauto.
Qed.
Lemma register_all_app h h' : forall cf, register_all cf (h ++ h') = register_all (register_all cf h) h'.
Proof. induction h as [|[i f] h IH]; intros cf; cbn [register_all app]; auto. Qed.
Lemma register_get cf i f c : denotes (dc_decay cf) i c ->
  exists cf', register_builder cf i f = Ok cf' /\ dc_decay cf' = dc_decay cf /\
    forall c', dget c' (dc_builders cf') = if eq_dec c' c then Some f else dget c' (dc_builders cf).
Proof.
  intros Hd. unfold register_builder. apply get_chain_denotes in Hd. rewrite Hd. cbn [bind].
  eexists. split; [reflexivity|]. split; [reflexivity|]. intros c'. cbn [dc_builders]. apply dget_dset.
Qed.
Lemma register_all_never h c : forall cf, never_registered (dc_decay cf) h c ->
  dget c (dc_builders (register_all cf h)) = dget c (dc_builders cf).
Proof.
  induction h as [|[i f] h IH]; intros cf N; cbn [register_all]; auto.
  destruct (register_builder cf i f) as [cf'|e] eqn:E.
  - assert (D' : dc_decay cf' = dc_decay cf) by (eapply register_decay; eauto).
    rewrite IH.
    2:{ intros j g Hj. rewrite D'. apply (N j g); right; auto. }
    unfold register_builder in E. inv_bind E. ok_inj E. subst cf'. cbn [dc_builders].
    rewrite dget_dset. destruct (eq_dec c v) as [->|]; auto.
    exfalso. apply (N i f (or_introl eq_refl)). apply get_chain_denotes; auto.
  - apply IH. intros j g Hj. apply (N j g); right; auto.
Qed.
Lemma register_all_last d h c f : last_registered d h c f ->
  dget c (dc_builders (register_all (mk_configurator d) h)) = Some f.
Proof.
  intros (h1 & i & h2 & -> & Hd & N). rewrite register_all_app. cbn [register_all].
  set (cf := register_all (mk_configurator d) h1).
  assert (Dc : dc_decay cf = d) by (unfold cf; rewrite register_all_decay; reflexivity).
  destruct (register_get cf i f c) as (cf' & E & D' & G); [rewrite Dc; auto|].
  rewrite E. rewrite register_all_never.
  - rewrite G. destruct (eq_dec c c); congruence.
  - rewrite D', Dc. exact N.
Qed.
Lemma c31 d h : let cf := register_all (mk_configurator d) h in
  (forall i c f, denotes d i c -> last_registered d h c f -> get_builder cf i = Ok f) /\
  (forall i c, denotes d i c -> never_registered d h c ->
     exists f, get_builder cf i = Ok f /\ forall c, f c = Ok (DefExpr (CNum 1) [])) /\
  (forall i c, denotes d i c -> (exists f, last_registered d h c f) \/ never_registered d h c) /\
  (forall i f, (forall c, ~ denotes d i c) ->
     register_builder cf i f = Err (registry_error i) /\ get_builder cf i = Err (registry_error i)).
Proof.
  intros cf. assert (Dc : dc_decay cf = d) by (unfold cf; rewrite register_all_decay; reflexivity).
  split; [|split; [|split]].
  - intros i c f Hd Hl. unfold get_builder. rewrite <- Dc in Hd. apply get_chain_denotes in Hd.
    rewrite Hd. cbn [bind]. unfold cf. rewrite (register_all_last _ _ _ _ Hl). reflexivity.
  - intros i c Hd Hn. unfold get_builder. rewrite <- Dc in Hd. apply get_chain_denotes in Hd.
    rewrite Hd. cbn [bind]. unfold cf. rewrite register_all_never by exact Hn.
    exists default_builder. split; reflexivity.
  - intros i c _. clear cf Dc. induction h as [|[j g] h IH].
    + right. intros i' f' [].
    + destruct IH as [(f & h1 & i1 & h2 & -> & A & B)|N].
      * left. exists f, ((j, g) :: h1), i1, h2. auto.
      * destruct (get_chain (mk_configurator d) j) as [c'|e] eqn:E.
        { apply get_chain_denotes in E. cbn in E. destruct (eq_dec c' c) as [->|Nc].
          - left. exists g, [], j, h. split; auto.
          - right. intros i' f' [X|X]; [inversion X; subst|eauto].
            intros Q. change d with (dc_decay (mk_configurator d)) in E, Q.
            apply get_chain_denotes in E, Q. congruence. }
        { right. intros i' f' [X|X]; [inversion X; subst|eauto].
          intros Q. change d with (dc_decay (mk_configurator d)) in Q. apply get_chain_denotes in Q. congruence. }
  - intros i f N. rewrite <- Dc in N. unfold register_builder, get_builder. rewrite (get_chain_err _ _ N). auto.
Qed.

(** ** C32 *)
Lemma name_denotes d c : NoDup (map (fun c => p_name (ch_resonance c)) (d_chains d)) -> In c (d_chains d) ->
  denotes d (IdName (p_name (ch_resonance c))) c.
Proof.
  intros ND I. apply in_split in I. destruct I as (l1 & l2 & E). exists l1, l2. split; auto. split; auto.
  intros c' Hc' Q. rewrite E, map_app in ND. cbn [map] in ND. apply NoDup_remove_2 in ND. apply ND.
  apply in_or_app. left. apply in_map_iff. exists c'. auto.
Qed.

(** ** C35 *)
Lemma c35 (a b c : defexpr) : NoDup (dkeys (de_params b)) -> NoDup (dkeys (de_params c)) ->
  (forall ev h, ceval ev h (de_expr (de_mul a (MulDef b))) =
     (ceval ev h (de_expr a) * ceval ev h (de_expr b))%C) /\
  (forall k, dget k (de_params (de_mul a (MulDef b))) =
     match dget k (de_params b) with Some v => Some v | None => dget k (de_params a) end) /\
  (forall k, In k (dkeys (de_params (de_mul a (MulDef b)))) <->
     In k (dkeys (de_params a)) \/ In k (dkeys (de_params b))) /\
  (forall ev h, ceval ev h (de_expr (de_mul a (MulDef de_unit))) = ceval ev h (de_expr a) /\
     ceval ev h (de_expr (de_mul de_unit (MulDef b))) = ceval ev h (de_expr b)) /\
  (forall k, dget k (de_params (de_mul a (MulDef de_unit))) = dget k (de_params a) /\
     dget k (de_params (de_mul de_unit (MulDef b))) = dget k (de_params b)) /\
  (forall ev h, ceval ev h (de_expr (de_mul (de_mul a (MulDef b)) (MulDef c))) =
     ceval ev h (de_expr (de_mul a (MulDef (de_mul b (MulDef c)))))) /\
  (forall k, dget k (de_params (de_mul (de_mul a (MulDef b)) (MulDef c))) =
     dget k (de_params (de_mul a (MulDef (de_mul b (MulDef c)))))) /\
  (forall e defs, de_mul a (MulPair e defs) = de_mul a (MulDef (DefExpr e defs))) /\
  (forall e, de_mul a (MulExpr e) = de_mul a (MulDef (DefExpr e []))).
Proof.
  intros NB NC. repeat apply conj; intros; cbn [de_mul de_expr de_params ceval de_unit]; auto.
  - apply dget_dupdate_nodup; auto.
  - apply dupdate_keys.
  - split; unfold CNum; cbn [ceval]; rewrite Q2R_Z; ring.
  - split; [reflexivity|]. rewrite dget_dupdate_nodup by auto. destruct (dget k (de_params b)); reflexivity.
  - ring.
  - rewrite !dget_dupdate_nodup; auto; [|apply dupdate_NoDup; auto].
    destruct (dget k (de_params c)); auto.
Qed.

(** ** C40 *)
Lemma ls_factor_swap J c j1 l1 j2 l2 :
  ls_factor J c j2 l2 j1 l1 = (parity_sign (2 * ls_L c + ls_S c - J) * ls_factor J c j1 l1 j2 l2)%R.
Proof.
  unfold ls_factor. replace (l2 - l1) with (- (l1 - l2)) by ring. set (dl := l1 - l2).
  rewrite <- (Z.opp_involutive l2) at 1. rewrite (cg_flip j2 (- l2) j1 l1 (ls_S c) dl).
  rewrite (cg_swap j1 l1 j2 (- l2)).
  assert (P : cg (2 * ls_L c) 0 (ls_S c) (- dl) J (- dl) =
    (parity_sign (2 * ls_L c + ls_S c - J) * cg (2 * ls_L c) 0 (ls_S c) dl J dl)%R).
  { replace (cg (2 * ls_L c) 0 (ls_S c) (- dl) J (- dl)) with (cg (2 * ls_L c) (- 0) (ls_S c) (- dl) J (- dl)) by reflexivity.
    rewrite cg_flip. destruct (cg_couples (2 * ls_L c) 0 (ls_S c) dl J dl) eqn:E.
    - apply couples_spec in E. destruct E as (P1 & P2 & P3 & M & T & V).
      f_equal. unfold cg_sign, parity_sign. apply even_half in V. destruct V as [q Hq]. rewrite Hq, half_2.
      apply is_projection_spec in P1, P2, P3.
      assert (Q : 0 <= q) by lia. rewrite <- (Z2Nat.id q Q) at 2. generalize (Z.to_nat q) as n. clear.
      intros n. induction n as [|n IH]; [reflexivity|].
      rewrite Nat2Z.inj_succ, Z.even_succ, <- Z.negb_even. cbn [pow]. rewrite IH.
      destruct (Z.even (Z.of_nat n)); simpl; lra.
    - unfold cg at 1 2. rewrite E. ring. }
  rewrite P. rewrite <- (Rmult_1_l (cg j1 l1 j2 (- l2) (ls_S c) dl)) at 2.
  rewrite <- (cg_sign_sq j1 j2 (ls_S c)), (cg_sign_comm j1 j2). ring.
Qed.
Lemma cg_factor_ok parent c1 c2 ls hel e :
  formulate_clebsch_gordan_factors (Node parent c1 c2 (Some ls)) hel = Ok e ->
  exists h1 h2, dget (to_particle c1) hel = Some h1 /\ dget (to_particle c2) hel = Some h2.
Proof.
  cbn [formulate_clebsch_gordan_factors]. intros H. inv_bind H. inv_bind H.
  apply dgetitem_ok in E, E0. eauto.
Qed.
Lemma c40 parent c1 c2 ls hel e :
  formulate_clebsch_gordan_factors (Node parent c1 c2 (Some ls)) hel = Ok e ->
  exists e', formulate_clebsch_gordan_factors (Node parent c2 c1 (Some ls)) hel = Ok e' /\
    forall ev h,
      ceval ev h e' = (RtoC (parity_sign (2 * ls_L ls + ls_S ls - p_spin (pobj_particle parent))) * ceval ev h e)%C /\
      Cmod (ceval ev h e') = Cmod (ceval ev h e).
Proof.
  intros F. destruct (cg_factor_ok _ _ _ _ _ _ F) as (h1 & h2 & G1 & G2).
  destruct (formulate_clebsch_gordan_factors (Node parent c2 c1 (Some ls)) hel) as [e'|x] eqn:F'.
  2:{ cbn [formulate_clebsch_gordan_factors] in F'. unfold dgetitem in F'. rewrite G1, G2 in F'. discriminate. }
  exists e'. split; auto. intros ev h.
  rewrite (cg_value' ev h _ _ _ _ _ _ _ _ F G1 G2), (cg_value' ev h _ _ _ _ _ _ _ _ F' G2 G1).
  rewrite ls_factor_swap, RtoC_mult. split; [reflexivity|].
  rewrite Cmod_mult, !Cmod_R. unfold parity_sign.
  destruct (Z.even _); [rewrite Rabs_R1|rewrite Rabs_left by lra]; ring.
Qed.

(** ** C22, C23 *)
Lemma c22 b s ref cl uc m : std_decay (b_decay b) s -> formulate b ref cl uc = Ok m ->
  (forall base idx, occurs_in_intensity m (OIdx base idx) -> exists e, dget (base, idx) (m_amplitudes m) = Some e) /\
  NoDup (dkeys (m_amplitudes m)) /\
  (forall x, In x (dkeys (m_amplitudes m)) <->
     exists k l, x = (amp_name k, amp_index l) /\ helicity_tuple s l /\
       (In k [1; 2; 3] /\ b_all_subsystems b = true \/
        exists c, In c (d_chains (b_decay b)) /\ st_index (ch_spectator c) = k)).
Proof.
  intros D F. destruct (amplitude_keys b s D ref cl uc m F) as [ND K].
  assert (Ids : forall k, In k (get_subsystem_ids (b_decay b)) <->
            exists c, In c (d_chains (b_decay b)) /\ st_index (ch_spectator c) = k).
  { intros k. unfold get_subsystem_ids. rewrite to_set_In, in_map_iff.
    split; intros (c & A & B); exists c; auto. }
  assert (K' : forall x, In x (dkeys (m_amplitudes m)) <->
     exists k l, x = (amp_name k, amp_index l) /\ helicity_tuple s l /\
       (In k [1; 2; 3] /\ b_all_subsystems b = true \/
        exists c, In c (d_chains (b_decay b)) /\ st_index (ch_spectator c) = k)).
  { intros x. rewrite K. split; intros (k & l & E & Hl & Hk); exists k, l; split; auto; split; auto.
    - destruct (b_all_subsystems b); [left; auto|right; apply Ids; auto].
    - destruct (b_all_subsystems b).
      + destruct Hk as [[Hk _]|Hk]; auto. apply (ids_range b s D), Ids, Hk.
      + destruct Hk as [[_ X]|Hk]; [discriminate|]. apply Ids; auto. }
  split; [|split; auto].
  intros base idx O. apply (intensity_occ b s uc D ref cl m F) in O.
  destruct O as (r & k & _ & Hk & [(l & Hl & E)|(i & _ & _ & E)]); [|discriminate].
  inversion E; subst. apply dget_In, K'. exists k, l. split; auto. split; auto. right. apply Ids; auto.
Qed.
Lemma c23 b s dyn ref cl uc m : std_decay (b_decay b) s -> dynamics_of b dyn -> formulate b ref cl uc = Ok m ->
  (forall base idx, occurs_in_amplitudes m (OIdx base idx) ->
     exists v, dget (KIdx base idx) (m_params m) = Some v) /\
  (forall x, occurs_in_amplitudes m (OAngle x) \/ occurs_in_intensity m (OAngle x) ->
     exists e, dget x (m_variables m) = Some e) /\
  ((forall c x, In c (d_chains (b_decay b)) -> In x (symbols_of (de_expr (dyn c))) ->
      In (KSym x) (dkeys (de_params (dyn c))) \/ mass_symbol x \/ mandelstam x) ->
   forall x, occurs_in_amplitudes m (OVar x) ->
     (exists v, dget (KSym x) (m_params m) = Some v) \/ mandelstam x) /\
  (forall x, ~ occurs_in_intensity m (OVar x)).
Proof.
  intros D Dyn F. split; [|split; [|split]].
  - intros base idx O. apply (amplitudes_occ b s dyn uc D Dyn ref cl m F) in O.
    destruct O as (l & i & j & k & c & r & T & Cp & [(y & _ & E)|[E|(p & Hp & E)]]); try discriminate.
    apply dget_In. apply (params_keys b s dyn uc D Dyn ref cl m F). right. exists l, i, j, k, c. split; auto.
    right. exists r, p. split; auto. split; auto. unfold okey_of in E. unfold pkey_of. congruence.
  - intros x O. apply dget_In. destruct (formulate_inv b s D ref cl uc m F) as (r & ks & _ & _ & _ & _ & _ & _ & _ & Hr & _).
    apply (variable_names b s D ref cl uc m r F Hr). destruct O as [O|O].
    + apply (amplitudes_occ b s dyn uc D Dyn ref cl m F) in O.
      destruct O as (l & i & j & k & c & r' & (Hl & Cy & Hc) & Cp & [(y & _ & E)|[E|(p & Hp & E)]]); try discriminate.
      inversion E; subst. left. exists i, j, k. split; auto. split; auto.
      apply chains_of_ids in Hc. destruct (b_all_subsystems b); auto. apply (ids_range b s D); auto.
    + apply (intensity_occ b s uc D ref cl m F) in O.
      destruct O as (r' & k & Hr' & Hk & [(l & Hl & E)|(i & Hi & Si & E)]); [discriminate|].
      inversion E; subst. right. exists i, k. assert (r' = r) by congruence. subst r'. auto.
  - intros Self x O. apply (amplitudes_occ b s dyn uc D Dyn ref cl m F) in O.
    destruct O as (l & i & j & k & c & r & T & Cp & [(y & Hy & E)|[E|(p & Hp & E)]]); try discriminate.
    inversion E; subst y. destruct (Self c x) as [K|[K|K]]; auto.
    { eapply chains_of_In. exact (proj2 (proj2 T)). }
    + left. apply dget_In. apply (params_keys b s dyn uc D Dyn ref cl m F). right. exists l, i, j, k, c. auto.
    + left. apply dget_In. apply (params_keys b s dyn uc D Dyn ref cl m F). left. eauto.
  - intros x O. apply (intensity_occ b s uc D ref cl m F) in O.
    destruct O as (r' & k & Hr' & Hk & [(l & Hl & E)|(i & Hi & Si & E)]); discriminate.
Qed.

(** ** C25 *)
Lemma dpd_nonzero ph dh s chains scal X th lam i j k :
  dpd_amplitude ph dh s chains scal X th lam i j k <> RtoC 0 ->
  exists c, In c chains /\ st_index (ch_spectator c) = k /\
    Z.abs (lam 0 + lam k) <= p_spin (ch_resonance c) /\ Z.abs (lam i - lam j) <= p_spin (ch_resonance c).
Proof.
  unfold dpd_amplitude. intros H.
  assert (G : forall (A : Type) (l : list A) f, Csum l f <> RtoC 0 -> exists a, In a l /\ f a <> RtoC 0).
  { intros A l f. induction l as [|a l IH]; intros N; [exfalso; apply N; reflexivity|].
    destruct (Ceq_dec (f a) (RtoC 0)) as [Z|Z].
    - destruct IH as (a' & I & Ha'); [|exists a'; split; [right; auto|auto]].
      intros E. apply N. cbn [Csum]. rewrite Z, E. ring.
    - exists a. split; [left; auto|auto]. }
  apply G in H. destruct H as (c & Hc & H). apply filter_In in Hc. destruct Hc as [Hc Ek].
  apply Z.eqb_eq in Ek. apply G in H. destruct H as (r & Hr & H).
  exists c. split; auto. split; auto. destruct (Z.eqb_spec (lam 0) (r - lam k)) as [E|]; [|congruence].
  assert (W : wigner_d (p_spin (ch_resonance c)) r (lam i - lam j) th <> 0%R).
  { intros Z. apply H. rewrite Z. ring. }
  destruct (is_projection (p_spin (ch_resonance c)) r) eqn:P1; [|rewrite wigner_d_out_l in W by auto; congruence].
  destruct (is_projection (p_spin (ch_resonance c)) (lam i - lam j)) eqn:P2; [|rewrite wigner_d_out_r in W by auto; congruence].
  apply is_projection_spec in P1, P2. lia.
Qed.
Lemma c25 b s dyn ref cl uc m : std_decay (b_decay b) s -> dynamics_of b dyn ->
  (b_prod_helicity b = false -> plain_resonances (b_decay b)) -> formulate b ref cl uc = Ok m ->
  forall ev l i j k, helicity_tuple s l -> cyclic i j k ->
    (b_all_subsystems b = true \/ In k (get_subsystem_ids (b_decay b))) ->
    (forall c, In c (d_chains (b_decay b)) -> st_index (ch_spectator c) = k ->
       p_spin (ch_resonance c) < Z.abs (at4 l 0 + at4 l k) \/ p_spin (ch_resonance c) < Z.abs (at4 l i - at4 l j)) ->
    amp_value ev m k l = RtoC 0.
Proof.
  intros D Dyn PR F ev l i j k Hl Cy Hk N.
  destruct (amplitude_formula b s D dyn ref cl uc m Dyn PR F l i j k Hl Cy Hk) as (_ & _ & V).
  rewrite V. destruct (Ceq_dec (dpd_amplitude (b_prod_helicity b) (b_dec_helicity b) s (d_chains (b_decay b))
    (fun c r => (if uc then coefficient else coupling_product) ev (b_prod_helicity b) (b_dec_helicity b)
                        c r (at4 l k) (at4 l i) (at4 l j))
          (fun c => ceval ev (fun _ => 0) (de_expr (dyn c)))
          (Re (e_sym ev (theta_name i j))) (at4 l) i j k) (RtoC 0)) as [E|E]; auto.
  apply dpd_nonzero in E. destruct E as (c & Hc & Ek & A & B). destruct (N c Hc Ek); lia.
Qed.

(** ** C26 *)
Lemma Rsum_nonneg {A} (l : list A) f : (forall a, In a l -> 0 <= f a)%R -> (0 <= Rsum l f)%R.
Proof.
  induction l as [|a l IH]; intros H; [simpl; lra|]. cbn [Rsum].
  apply Rplus_le_le_0_compat; [apply H; left; auto|apply IH; intros; apply H; right; auto].
Qed.
Lemma c26 b s ref cl uc m : std_decay (b_decay b) s -> formulate b ref cl uc = Ok m -> exists r ks,
  resolve_reference (b_decay b) ref = Ok r /\ Permutation ks (get_subsystem_ids (b_decay b)) /\
  forall ev, full_value ev m = RtoC (intensity_value s ks (amp_value ev m)
      (fun i k => Re (e_sym ev (zeta_symbol i k r)))) /\
    Im (full_value ev m) = 0%R /\ (0 <= Re (full_value ev m))%R.
Proof.
  intros D F. destruct (intensity_formula b s D ref cl uc m F) as (r & ks & Hr & Hks & V).
  exists r, ks. split; auto. split; [symmetry; apply sorted_perm; auto|]. intros ev.
  rewrite V. split; auto. split; [reflexivity|]. cbn [Re RtoC fst]. unfold intensity_value.
  apply Rsum_nonneg. intros. apply pow2_ge_0.
Qed.
Lemma c26_angles b s ref cl uc m r : std_decay (b_decay b) s -> formulate b ref cl uc = Ok m ->
  resolve_reference (b_decay b) ref = Ok r ->
  (forall i k, In i [0; 1; 2; 3] -> In k (get_subsystem_ids (b_decay b)) -> p_spin (s i) <> 0 ->
     exists z, formulate_zeta_angle i k r = Ok (zeta_symbol i k r, z) /\
       dget (zeta_symbol i k r) (m_variables m) = Some z) /\
  (forall x, In x (dkeys (m_variables m)) <->
     (exists i j k, cyclic i j k /\ x = theta_name i j /\
        In k (if b_all_subsystems b then [1; 2; 3] else get_subsystem_ids (b_decay b))) \/
     (exists i k, In i [0; 1; 2; 3] /\ In k (get_subsystem_ids (b_decay b)) /\ p_spin (s i) <> 0 /\
        x = zeta_symbol i k r)).
Proof.
  intros D F Hr. split.
  - exact (zeta_variable b s D ref cl uc m r F Hr).
  - exact (variable_names b s D ref cl uc m r F Hr).
Qed.

(** ** C29 *)
Lemma append_inj_l (p a b : string) : (p ++ a)%string = (p ++ b)%string -> a = b.
Proof. induction p as [|c p IH]; cbn; intros H; auto. inversion H; auto. Qed.
Lemma append_brace (a b : string) : (a ++ "}")%string = (b ++ "}")%string -> a = b.
Proof.
  revert b. induction a as [|c a IH]; intros [|c' b] H; cbn in H; auto.
  - inversion H. destruct b; discriminate.
  - inversion H. destruct a; discriminate.
  - inversion H; subst. f_equal. auto.
Qed.
Lemma coefficient_base_inj r r' ph dh : coefficient_base r ph dh = coefficient_base r' ph dh -> r = r'.
Proof.
  unfold coefficient_base. destruct ph, dh; cbn [andb]; intros H; apply append_inj_l, append_brace in H; auto.
Qed.
Lemma coupling_index_len h ls a b' : (h = false -> ls <> None) -> length (coupling_index h ls a b') = 2%nat.
Proof. unfold coupling_index. destruct h; auto. destruct ls; auto. intros H. exfalso. apply H; auto. Qed.
Lemma app_inj_len {A} (a b c d : list A) : length a = length c -> a ++ b = c ++ d -> a = c /\ b = d.
Proof.
  revert c. induction a as [|x a IH]; intros [|y c] L E; simpl in *; try discriminate; auto.
  inversion E; subst. destruct (IH c) as [-> ->]; auto.
Qed.
Lemma coefficient_inj ph dh c r lk li lj c' r' lk' li' lj' : has_ls ph dh c -> has_ls ph dh c' ->
  coefficient_key ph dh c r lk li lj = coefficient_key ph dh c' r' lk' li' lj' ->
  coupling_pair ph dh c r lk li lj = coupling_pair ph dh c' r' lk' li' lj'.
Proof.
  intros [P Q] [P' Q'] H. unfold coefficient_key in H. inversion H as [[B I]].
  apply coefficient_base_inj in B. apply app_inj_len in I.
  - destruct I as [I1 I2]. unfold coupling_pair. rewrite B, I1, I2. reflexivity.
  - rewrite !coupling_index_len by auto. reflexivity.
Qed.
Lemma coefficients_equal b s dyn ref1 cl1 m1 ref2 cl2 m2 ev1 ev2 :
  std_decay (b_decay b) s -> dynamics_of b dyn ->
  (b_prod_helicity b = false -> plain_resonances (b_decay b)) ->
  formulate b ref1 cl1 false = Ok m1 -> formulate b ref2 cl2 true = Ok m2 ->
  (forall x, e_sym ev1 x = e_sym ev2 x) ->
  (forall c r lk li lj, In c (d_chains (b_decay b)) ->
     coefficient ev2 (b_prod_helicity b) (b_dec_helicity b) c r lk li lj =
     coupling_product ev1 (b_prod_helicity b) (b_dec_helicity b) c r lk li lj) ->
  forall k l, helicity_tuple s l -> In k (get_subsystem_ids (b_decay b)) ->
    amp_value ev1 m1 k l = amp_value ev2 m2 k l.
Proof.
  intros D Dyn PR F1 F2 Es Ec k l Hl Hk.
  destruct (cyclic_ex k (ids_range b s D k Hk)) as (i & j & Cy).
  destruct (amplitude_formula b s D dyn ref1 cl1 false m1 Dyn PR F1 l i j k Hl Cy (or_intror Hk)) as (_ & _ & V1).
  destruct (amplitude_formula b s D dyn ref2 cl2 true m2 Dyn PR F2 l i j k Hl Cy (or_intror Hk)) as (_ & _ & V2).
  rewrite V1, V2. unfold dpd_amplitude. apply Csum_ext. intros c Hc. apply filter_In in Hc. destruct Hc as [Hc _].
  apply Csum_ext. intros r _. destruct (at4 l 0 =? r - at4 l k); auto.
  rewrite <- (Ec c r (at4 l k) (at4 l i) (at4 l j) Hc), Es.
  rewrite (lineshape_eval ev1 ev2 (fun _ => 0) (fun _ => 0) _ (proj2 (Dyn c Hc))); auto.
Qed.
Lemma c29 b s dyn ref cl m1 m2 : 
  std_decay (b_decay b) s -> dynamics_of b dyn ->
  (b_prod_helicity b = false -> plain_resonances (b_decay b)) ->
  formulate b ref cl false = Ok m1 -> formulate b ref cl true = Ok m2 ->
  forall ev1 ev2, (forall x, e_sym ev1 x = e_sym ev2 x) ->
  (forall c r lk li lj, In c (d_chains (b_decay b)) ->
     coefficient ev2 (b_prod_helicity b) (b_dec_helicity b) c r lk li lj =
     coupling_product ev1 (b_prod_helicity b) (b_dec_helicity b) c r lk li lj) ->
  full_value ev1 m1 = full_value ev2 m2 /\
  forall k l, helicity_tuple s l -> In k (get_subsystem_ids (b_decay b)) ->
    amp_value ev1 m1 k l = amp_value ev2 m2 k l.
Proof.
  intros D Dyn PR F1 F2 ev1 ev2 Es Ec.
  pose proof (coefficients_equal b s dyn ref cl m1 ref cl m2 ev1 ev2 D Dyn PR F1 F2 Es Ec) as A.
  split; [|exact A].
  destruct (intensity_formula b s D ref cl false m1 F1) as (r & ks & Hr & Hks & V1).
  destruct (intensity_formula b s D ref cl true m2 F2) as (r' & ks' & Hr' & Hks' & V2).
  assert (r' = r) by congruence. assert (ks' = ks) by congruence. subst r' ks'.
  rewrite V1, V2. f_equal.
  rewrite (intensity_amp_ext s ks (amp_value ev1 m1) (amp_value ev2 m2)).
  - unfold intensity_value, aligned_amplitude, alignment. apply Rsum_ext. intros l _. do 2 f_equal.
    apply Csum_ext. intros l' _. apply Csum_ext. intros k _. rewrite !Es. reflexivity.
  - intros k l Hk Hl. apply A; auto. apply (ids_123 b ks k Hks); auto.
Qed.
(** Such values exist for all values of the couplings. *)
Lemma c29_exists b ev1 :
  (forall c, In c (d_chains (b_decay b)) -> has_ls (b_prod_helicity b) (b_dec_helicity b) c) ->
  exists ev2, (forall x, e_sym ev1 x = e_sym ev2 x) /\
  forall c r lk li lj, In c (d_chains (b_decay b)) ->
     coefficient ev2 (b_prod_helicity b) (b_dec_helicity b) c r lk li lj =
     coupling_product ev1 (b_prod_helicity b) (b_dec_helicity b) c r lk li lj.
Proof.
  set (ph := b_prod_helicity b). set (dh := b_dec_helicity b). intros HL.
  exists (Env (e_sym ev1) (fun base idx =>
    match find_first (fun c => eqb (coefficient_base (p_latex (ch_resonance c)) ph dh) base) (d_chains (b_decay b)) with
    | None => RtoC 0
    | Some c => (e_idx ev1 (production_name ph) (IStr (p_latex (ch_resonance c)) :: firstn 2 idx)
                 * e_idx ev1 (decay_name dh) (IStr (p_latex (ch_resonance c)) :: skipn 2 idx))%C
    end)).
  split; auto. intros c r lk li lj Hc. unfold coefficient, coupling_product. cbn [e_idx].
  destruct (find_first _ _) as [c'|] eqn:E.
  - apply find_first_Some in E. destruct E as (l1 & l2 & _ & E & _). apply eqb_eq, coefficient_base_inj in E.
    rewrite E. destruct (HL c Hc) as [P Q].
    pose proof (coupling_index_len ph (ch_incoming_ls c) r lk P) as L1.
    destruct (coupling_index ph (ch_incoming_ls c) r lk) as [|x [|y [|z t]]]; try discriminate. reflexivity.
  - exfalso. rewrite find_first_None in E. specialize (E c Hc). cbv beta in E.
    assert (X : eqb (coefficient_base (p_latex (ch_resonance c)) ph dh) (coefficient_base (p_latex (ch_resonance c)) ph dh) = true)
      by (apply eqb_eq; auto). congruence.
Qed.

(** ** C34 *)
Lemma c34_value b s ref uc m1 m2 : std_decay (b_decay b) s ->
  formulate b ref false uc = Ok m1 -> formulate b ref true uc = Ok m2 ->
  (forall ev, full_value ev m1 = full_value ev m2) /\
  m_amplitudes m1 = m_amplitudes m2 /\ m_variables m1 = m_variables m2 /\ m_params m1 = m_params m2.
Proof.
  intros D F1 F2.
  destruct (formulate_inv b s D ref false uc m1 F1)
    as (r & ks & terms & zdefs & amps & vars & params & masses & inv & Hr & Hks & T & L & M & I & Em).
  destruct (formulate_inv b s D ref true uc m2 F2)
    as (r' & ks' & terms' & zdefs' & amps' & vars' & params' & masses' & inv' & Hr' & Hks' & T' & L' & M' & I' & Em').
  assert (r' = r) by congruence. assert (ks' = ks) by congruence. subst r' ks'.
  assert (E1 : (terms', zdefs') = (terms, zdefs)) by congruence. inversion E1; subst terms' zdefs'.
  assert (E2 : (amps', vars', params') = (amps, vars, params)) by congruence. inversion E2; subst amps' vars' params'.
  assert (masses' = masses) by congruence. assert (inv' = inv) by congruence. subst masses' inv'.
  subst m1 m2. cbn [m_amplitudes m_variables m_params]. split; auto.
  intros ev. unfold full_value. cbn [m_amplitudes m_intensity].
  cbn [ceval]. apply psum_ext. intros h. f_equal. f_equal. f_equal. symmetry.
  unfold aligned_expr. apply cleanup_value; apply (pools_ok b s D).
Qed.
Lemma csub_indices s z e : sum_indices (csub s z e) = sum_indices e.
Proof.
  induction e; cbn [csub sum_indices]; repeat match goal with H : _ = _ |- _ => rewrite H end; auto.
  destruct (memb s (map fst pools)); cbn [sum_indices]; auto. rewrite IHe; auto.
Qed.
Lemma cleanup_pools_indices e pools : forall e' ps, cleanup_pools e pools = (e', ps) ->
  sum_indices e' = sum_indices e /\
  forall x, In x (map fst ps) <-> exists v, In (x, v) pools /\ (2 <= length v)%nat.
Proof.
  induction pools as [|[s vals] pools IH]; intros e' ps E; cbn [cleanup_pools] in E.
  - inversion E; subst. split; auto. intros x. split; [intros []|intros (v & [] & _)].
  - destruct (cleanup_pools e pools) as [e1 ps1]. destruct (IH _ _ eq_refl) as [I Q].
    destruct vals as [|z [|z2 vals]]; inversion E; subst.
    + split; auto. intros x. rewrite Q. split; intros (v & A & B); exists v; split; auto.
      * right; auto.
      * destruct A as [A|A]; auto. inversion A; subst. simpl in B. lia.
    + rewrite csub_indices. split; auto. intros x. rewrite Q. split; intros (v & A & B); exists v; split; auto.
      * right; auto.
      * destruct A as [A|A]; auto. inversion A; subst. simpl in B. lia.
    + split; auto. intros x. cbn [map fst In]. rewrite Q. split.
      * intros [<-|(v & A & B)]; [exists (z :: z2 :: vals); split; [left; auto|simpl; lia]|exists v; auto].
      * intros (v & [A|A] & B); [left; congruence|right; eauto].
Qed.
Lemma range_len j : 0 <= j -> (2 <= length (spin_range2 j))%nat <-> j <> 0.
Proof.
  intros Hj. rewrite <- helicities_range. unfold helicities. rewrite map_length, seq_length. lia.
Qed.
Lemma aligned_no_sums r j lam lam' ks : forall defs terms defs',
  aligned_terms r j lam lam' ks defs = Ok (terms, defs') -> sum_indices (CAddL terms) = [].
Proof.
  assert (W : forall rr jj m m' i k defs e defs', wigner_gen rr jj m m' i k defs = Ok (e, defs') -> sum_indices e = []).
  { unfold wigner_gen. intros rr jj m m' i k defs e defs' H. destruct (jj =? 0).
    - ok_inj H. inversion H; reflexivity.
    - inv_bind H. destruct v. ok_inj H. inversion H; reflexivity. }
  induction ks as [|k ks IH]; intros defs terms defs' H; cbn [aligned_terms] in H.
  - ok_inj H. inversion H; reflexivity.
  - inv_bind H. destruct v as [e d1]. inv_bind H. destruct v as [es d2]. ok_inj H. inversion H; subst.
    cbn [CAddL sum_indices]. rewrite (IH _ _ _ E0), app_nil_r. clear IH E0 H.
    unfold aligned_term in E. inv_bind E.
    inv_bind E. destruct v0 as [w0 ?]. inv_bind E. destruct v0 as [w1 ?].
    inv_bind E. destruct v0 as [w2 ?]. inv_bind E. destruct v0 as [w3 ?]. ok_inj E. inversion E; subst.
    cbn [sum_indices]. rewrite (W _ _ _ _ _ _ _ _ _ E1), (W _ _ _ _ _ _ _ _ _ E2),
      (W _ _ _ _ _ _ _ _ _ E3), (W _ _ _ _ _ _ _ _ _ E4). reflexivity.
Qed.
Lemma c34_indices b s ref cl uc m : std_decay (b_decay b) s -> formulate b ref cl uc = Ok m ->
  forall i, In i [0; 1; 2; 3] ->
    In (hel_sym i) (sum_indices (m_intensity m)) /\
    (In (hel_prime i) (sum_indices (m_intensity m)) <-> cl = false \/ p_spin (s i) <> 0).
Proof.
  intros D F i Hi.
  destruct (formulate_inv b s D ref cl uc m F)
    as (r & ks & terms & zdefs & amps & vars & params & masses & inv & Hr & Hks & T & L & M & I & Em).
  subst m. cbn [m_intensity sum_indices]. pose proof (aligned_no_sums _ _ _ _ _ _ _ _ T) as NS. split.
  - apply in_or_app. left. rewrite map_map. cbn [fst]. apply in_map. auto.
  - rewrite in_app_iff, map_map. cbn [fst].
    assert (NH : ~ In (hel_prime i) (map (fun n => hel_sym n) [0; 1; 2; 3])).
    { intros X. apply in_map_iff in X. destruct X as (n & E & Hn). apply (proj2 (proj2 (hel_neq n i Hn Hi))); auto. }
    assert (HP : forall n, In n [0; 1; 2; 3] -> hel_prime n = hel_prime i -> n = i).
    { intros n Hn E. apply (proj1 (proj2 (hel_neq n i Hn Hi))); auto. }
    destruct cl.
    + unfold aligned_expr, cleanup.
      destruct (cleanup_pools (CAddL terms) (map (fun n => (hel_prime n, spin_range2 (spin4 s n))) [0; 1; 2; 3]))
        as [e' ps] eqn:E.
      destruct (cleanup_pools_indices _ _ _ _ E) as [Q1 Q2]. rewrite NS in Q1.
      assert (X : In (hel_prime i) (sum_indices (match ps with [] => e' | _ => CSum e' ps end)) <-> In (hel_prime i) (map fst ps)).
      { destruct ps; cbn [sum_indices map]; rewrite ?Q1, ?app_nil_r; [tauto|reflexivity]. }
      rewrite X, Q2. split.
      * intros [A|(v & A & B)]; [contradiction|]. right. apply in_map_iff in A. destruct A as (n & A & Hn).
        pose proof (f_equal fst A) as A1. pose proof (f_equal snd A) as A2. cbn [fst snd] in A1, A2.
        apply HP in A1; auto. subst n v. rewrite (spin4_eq s i Hi) in B.
        apply range_len in B; auto. apply (sd_spin _ _ D); auto.
      * intros [A|A]; [discriminate|]. right. exists (spin_range2 (spin4 s i)). split.
        { apply in_map_iff. exists i. auto. }
        rewrite (spin4_eq s i Hi). apply range_len; auto. apply (sd_spin _ _ D); auto.
    + split; [auto|]. intros _. right. unfold aligned_expr. cbn [sum_indices]. apply in_or_app. left.
      rewrite map_map. cbn [fst]. apply in_map; auto.
Qed.

(** ** C39 *)
Lemma c39 b s dyn ref cl uc m : std_decay (b_decay b) s -> dynamics_of b dyn -> formulate b ref cl uc = Ok m ->
  forall key e, dget key (m_amplitudes m) = Some e ->
  forall z, In z (sign_exponents (fun _ => 0) e) ->
    Z.even z = true /\ (csign z = RtoC 1 \/ csign z = RtoC (-1)).
Proof.
  intros D Dyn F key e G z Hz.
  pose proof (signs_even b s dyn uc D Dyn ref cl m F key e G z Hz) as E. split; auto.
  rewrite (csign_even z E). unfold parity_sign. destruct (Z.even (z / 2)); auto.
Qed.

(** ** C33 *)
Lemma c33 ph dh (chains : list chain) :
  NoDup (map (fun c => p_latex (ch_resonance c)) chains) ->
  forall c c' r r' lk li lj, In c chains -> In c' chains -> 
    coupling_pair ph dh c r lk li lj = coupling_pair ph dh c' r' lk li lj -> c = c' /\ (ph = true -> r = r').
Proof.
  intros ND c c' r r' lk li lj Hc Hc' E. unfold coupling_pair in E. inversion E as [[E1 E2 E3]].
  split.
  - clear E E2 E3. induction chains as [|a chains IH]; [destruct Hc|].
    cbn [map] in ND. inversion ND as [|? ? N ND']; subst.
    destruct Hc as [->|Hc], Hc' as [->|Hc']; auto.
    + exfalso. apply N. rewrite E1. apply in_map_iff. eauto.
    + exfalso. apply N. rewrite <- E1. apply in_map_iff. eauto.
  - intros ->. cbn in E2. congruence.
Qed.

(** ** C63: formulate succeeds *)
Section Total.
  Variables (b : builder) (s : Z -> state) (dyn : chain -> defexpr).
  Hypothesis (D : std_decay (b_decay b) s) (Dyn : dynamics_of b dyn).
  Hypothesis (LSs : forall c, In c (d_chains (b_decay b)) -> has_ls (b_prod_helicity b) (b_dec_helicity b) c).
  Lemma defaults_total c lam k i j uc rs : In c (d_chains (b_decay b)) -> forall params,
    exists p, coupling_defaults b c lam k i j uc rs params = Ok p.
  Proof.
    intros Hc. induction rs as [|r rs IH]; intros params; cbn [coupling_defaults]; [eauto|].
    destruct (negb (lam 0 =? r - lam k)); auto. destruct (LSs c Hc) as [P Q].
    destruct (scaling_total c _ _ (HVal r) (HVal (lam k)) (HVal (lam i)) (HVal (lam j)) uc P Q) as [sc ->].
    cbn [bind]. apply IH.
  Qed.
  Lemma chain_term_total c lam spin k i j th uc params : cyclic i j k ->
    In c (d_chains (b_decay b)) -> ch_spectator c = s k ->
    exists p, chain_term b c lam spin k i j th uc params = Ok p.
  Proof.
    intros Cy Hc Sp. unfold chain_term. destruct (Dyn c Hc) as [(f & F & Fc) _].
    rewrite F. cbn [bind]. rewrite Fc. cbn [bind].
    destruct (defaults_total c lam k i j uc (spin_range2 (p_spin (ch_resonance c))) Hc (dupdate params (de_params (dyn c)))) as [p ->].
    cbn [bind]. destruct (LSs c Hc) as [P Q].
    destruct (scaling_total c _ _ (HVar lambda_R) (HVal (lam k)) (HVal (lam i)) (HVal (lam j)) uc P Q) as [sc ->].
    cbn [bind]. destruct (cyclic_in _ _ _ Cy) as (Hi & Hj & Hk).
    pose proof (std_products _ _ D k i j c Hc Sp Cy) as PP.
    destruct (valid_chain_nodes c (std_valid _ _ D c Hc)) as
      (s0 & R & d1 & d2 & i1 & j1 & sp & t1 & t2 & Sh & T1 & T2 & Epar & EN & ER & ES & EP & EI & EO & ND).
    rewrite EP in PP. rewrite ES in Sp. subst sp.
    assert (NP : PSt (s i) <> PSt (s j)).
    { intros X. inversion X as [Y]. apply ND. destruct PP as [PP|PP]; inversion PP; subst; congruence. }
    destruct (dget_two (PSt (s i)) (PSt (s j)) (HVal (lam i)) (HVal (lam j)) NP) as [G1 G2].
    match goal with |- exists p, bind ?a _ = _ => assert (XA : exists e, a = Ok e) end.
    { destruct (b_dec_helicity b); [eauto|].
      rewrite !(std_final_item b s D) by auto. cbn [bind]. rewrite EN.
      assert (J : exists ls, j1 = Some ls). { destruct j1; eauto. exfalso. apply (Q eq_refl). auto. }
      destruct J as [ls ->]. cbn [formulate_clebsch_gordan_factors]. unfold dgetitem. rewrite T1, T2.
      destruct PP as [PP|PP]; inversion PP; subst; rewrite G1, G2; cbn [bind]; eauto. }
    destruct XA as [e1 ->]. cbn [bind].
    match goal with |- exists p, bind ?a _ = _ => assert (XB : exists e, a = Ok e) end.
    { destruct (b_prod_helicity b); [eauto|].
      rewrite !(std_final_item b s D) by auto. cbn [bind].
      assert (J : exists ls, i1 = Some ls). { destruct i1; eauto. exfalso. apply (P eq_refl). auto. }
      destruct J as [ls ->].
      set (dd := dict_of [(to_particle (ch_decay_node c), HVar lambda_R); (PSt (s k), HVal (lam k))]).
      assert (K1 : In (to_particle (ch_decay_node c)) (dkeys dd) /\ In (PSt (s k)) (dkeys dd)).
      { unfold dd, dict_of. rewrite !dupdate_keys. cbn. auto. }
      destruct K1 as [K1 K2]. apply dget_In in K1, K2. destruct K1 as [x1 K1], K2 as [x2 K2].
      rewrite EN in K1. cbn [to_particle] in K1.
      destruct Sh as [->| ->]; cbn [formulate_clebsch_gordan_factors to_particle]; unfold dgetitem;
        rewrite K1, K2; cbn [bind]; eauto. }
    destruct XB as [e2 ->]. cbn [bind]. eauto.
  Qed.
  Lemma chain_terms_total lam spin k i j th uc : cyclic i j k -> forall cs,
    (forall c, In c cs -> In c (d_chains (b_decay b)) /\ ch_spectator c = s k) -> forall params,
    exists p, chain_terms b lam spin k i j th uc cs params = Ok p.
  Proof.
    intros Cy. induction cs as [|c cs IH]; intros Sub params; cbn [chain_terms]; [eauto|].
    destruct (Sub c (or_introl eq_refl)) as [A B].
    destruct (chain_term_total c lam spin k i j th uc params Cy A B) as [[e p1] ->]. cbn [bind].
    destruct (IH (fun c' H => Sub c' (or_intror H)) p1) as [[es p2] ->]. cbn [bind]. eauto.
  Qed.
  Lemma subsystem_amplitude_total l k uc : In k [1; 2; 3] ->
    exists m, formulate_subsystem_amplitude b l k uc = Ok m.
  Proof.
    intros Hk. destruct (cyclic_ex k Hk) as (i & j & Cy). unfold formulate_subsystem_amplitude.
    rewrite (proj2 (product_ids_cyclic k i j) Cy). cbn [bind].
    destruct (scattering_symbol i j k Cy) as [th Hth]. rewrite Hth. cbn [bind].
    rewrite (std_initial _ _ D). cbn [bind]. rewrite !(std_final_item b s D) by (simpl; auto). cbn [bind].
    rewrite (get_subsystem_ok _ k (sd_valid _ _ D)). cbn [bind d_chains].
    destruct (chain_terms_total (lam4 l) (lam4 (p_spin (s 1), p_spin (s 1), p_spin (s 2), p_spin (s 3)))
      k i j (theta_name i j) uc Cy (filter (fun c => st_index (ch_spectator c) =? k) (d_chains (b_decay b))))
      with (params := @nil (pkey * pval)) as [p Hp].
    { intros c Hc. destruct (subsystem_chains _ _ D k c Hc) as (A & B & _). auto. }
    edestruct chain_terms_total as [q Hq]; [exact Cy| |rewrite Hq].
    { intros c Hc. destruct (subsystem_chains _ _ D k c Hc) as (A & B & _). auto. }
    cbn [bind]. destruct q. cbn [bind]. rewrite (amp_base_name k Hk). cbn [bind]. eauto.
  Qed.
  Lemma loop_total uc work : (forall l k, In (l, k) work -> In k [1; 2; 3]) -> forall acc,
    exists r, formulate_loop b uc work acc = Ok r.
  Proof.
    induction work as [|[l k] work IH]; intros W acc; cbn [formulate_loop]; [eauto|].
    destruct (subsystem_amplitude_total l k uc (W l k (or_introl eq_refl))) as [m ->]. cbn [bind].
    destruct acc as [[a v] p]. apply IH. intros l' k' H. apply (W l' k'). right; auto.
  Qed.
  Lemma wigner_gen_total r j m m' i k defs : In r [1; 2; 3] -> In k [1; 2; 3] -> In i [0; 1; 2; 3] ->
    exists p, wigner_gen r j m m' i k defs = Ok p.
  Proof.
    intros Hr Hk Hi. unfold wigner_gen. destruct (j =? 0); [eauto|].
    destruct (zeta_total i k r) as [(A & e & H)|[(N & _)|[(N & _)|(N & _)]]].
    - rewrite H. cbn [bind]. eauto.
    - exfalso. apply N. unfold zeta_ids. simpl in *. lia.
    - exfalso. apply N. unfold zeta_ids. simpl in *. lia.
    - exfalso. apply N. unfold zeta_ids. simpl in *. lia.
  Qed.
  Lemma aligned_terms_total r j lam lam' ks : In r [1; 2; 3] -> (forall k, In k ks -> In k [1; 2; 3]) -> forall defs,
    exists p, aligned_terms r j lam lam' ks defs = Ok p.
  Proof.
    intros Hr. induction ks as [|k ks IH]; intros Hk defs; cbn [aligned_terms]; [eauto|].
    assert (Hk' : In k [1; 2; 3]) by (apply Hk; left; auto).
    unfold aligned_term. rewrite (amp_base_name k Hk'). cbn [bind].
    destruct (wigner_gen_total r (j 0) (lam 0) (lam' 0) 0 k defs Hr Hk') as [[w0 d0] ->]; [simpl; auto|]. cbn [bind].
    destruct (wigner_gen_total r (j 1) (lam' 1) (lam 1) 1 k d0 Hr Hk') as [[w1 d1] ->]; [simpl; auto|]. cbn [bind].
    destruct (wigner_gen_total r (j 2) (lam' 2) (lam 2) 2 k d1 Hr Hk') as [[w2 d2] ->]; [simpl; auto|]. cbn [bind].
    destruct (wigner_gen_total r (j 3) (lam' 3) (lam 3) 3 k d2 Hr Hk') as [[w3 d3] ->]; [simpl; auto|]. cbn [bind].
    destruct (IH (fun k' H => Hk k' (or_intror H)) d3) as [[es d4] ->]. cbn [bind]. eauto.
  Qed.
  Lemma c63 ref cl uc :
    (ref = None /\ d_chains (b_decay b) <> [] \/ exists r, ref = Some r /\ In r [1; 2; 3]) ->
    exists m, formulate b ref cl uc = Ok m.
  Proof.
    intros Href. unfold formulate.
    assert (HR : exists r, resolve_reference (b_decay b) ref = Ok r /\ In r [1; 2; 3]).
    { destruct Href as [[-> NE]|(r & -> & Hr)]; [|exists r; auto].
      destruct (proj1 (proj2 (c30 _ _ D)) NE) as (r & E & (c & Hc & Ec) & _). exists r. split; auto.
      apply (ids_range b s D). unfold get_subsystem_ids. apply to_set_In, in_map_iff. eauto. }
    destruct HR as (r & -> & Hr). cbn [bind]. rewrite !(std_item b s D) by (simpl; auto). cbn [bind].
    destruct (sorted_Z (get_subsystem_ids (b_decay b))) as (ks & Hks & Pk).
    assert (Hk : forall k, In k ks -> In k [1; 2; 3]).
    { intros k H. apply (ids_range b s D), (ids_123 b ks k Hks), H. }
    assert (HI : exists ids, (if b_all_subsystems b then Ok [1; 2; 3] else sorted (get_subsystem_ids (b_decay b))) = Ok ids
              /\ forall k, In k ids -> In k [1; 2; 3]).
    { destruct (b_all_subsystems b); [exists [1; 2; 3]; auto|exists ks; auto]. }
    destruct HI as (ids & -> & Hids). cbn [bind].
    edestruct loop_total as [[[a v] p] ->].
    { intros l k H. apply in_flat_map in H. destruct H as (l' & _ & H). apply in_map_iff in H.
      destruct H as (k' & E & H). inversion E; subst. apply Hids; auto. }
    cbn [bind]. unfold formulate_aligned_amplitude. cbn [resolve_reference bind].
    rewrite (std_sorted_keys _ _ D). cbn [bind]. rewrite (std_spins b s D). cbn [bind]. rewrite Hks. cbn [bind].
    edestruct aligned_terms_total as [[ts ds] ->]; [exact Hr|exact Hk|]. cbn [bind].
    rewrite (std_masses _ _ D). cbn [bind].
    destruct (std_invariants _ _ D) as (e1 & e2 & e3 & -> & _). cbn [bind]. eauto.
  Qed.
End Total.
(** ... and only then, as far as the LS couplings are concerned. *)
Lemma c63_ls b s dyn ref cl uc m : std_decay (b_decay b) s -> dynamics_of b dyn -> formulate b ref cl uc = Ok m ->
  forall c, In c (d_chains (b_decay b)) -> has_ls (b_prod_helicity b) (b_dec_helicity b) c.
Proof.
  intros D Dyn F c Hc.
  destruct (formulate_inv b s D ref cl uc m F)
    as (r & ks & terms & zdefs & amps & vars & params & masses & inv & Hr & Hks & T & L & M & I & Em).
  destruct (formulate_loop_facts b s D uc _ _ _ _ _ _ _ L) as (W & _).
  assert (Ik : In (st_index (ch_spectator c)) (get_subsystem_ids (b_decay b))).
  { unfold get_subsystem_ids. apply to_set_In, in_map_iff. eauto. }
  set (k := st_index (ch_spectator c)) in *.
  destruct (tuples s) as [|l ls] eqn:Et; [exfalso; apply (tuples_nonempty _ s D); auto|].
  assert (Hl : In l (tuples s)) by (rewrite Et; left; auto).
  assert (IW : In (l, k) (work_of s (if b_all_subsystems b then [1; 2; 3] else ks))).
  { apply work_of_In. split; [apply tuples_In; auto|]. destruct (b_all_subsystems b).
    - apply (ids_range b s D); auto.
    - apply (ids_123 b ks k Hks); auto. }
  destruct (W l k IW) as (m1 & F1 & _).
  destruct (subsystem_amplitude_inv b s D l k uc m1 F1) as (i & j & th & ts & ps & Cy & _ & TT & _).
  assert (Hc' : In c (chains_of b k)) by (unfold chains_of; apply filter_In; split; auto; apply Z.eqb_refl).
  revert TT Hc'. generalize (@nil (pkey * pval)) as p0. revert ts. generalize (chains_of b k) as cs.
  induction cs as [|c' cs IH]; intros ts p0 TT Hc'; [destruct Hc'|]. cbn [chain_terms] in TT.
  inv_bind TT. destruct v as [e p1]. inv_bind TT. destruct v as [es p2]. ok_inj TT. inversion TT; subst. clear TT.
  destruct Hc' as [->|Hc']; [|eapply IH; eauto].
  unfold chain_term in E. inv_bind E. inv_bind E. inv_bind E. inv_bind E.
  destruct (scaling_value (Env (fun _ => RtoC 0) (fun _ _ => RtoC 0)) (fun _ => 0) b uc c _ _ _ _ _ E4) as (_ & P & Q).
  split; auto.
Qed.

(** ** C64: parameter defaults *)
Lemma c64 b s dyn ref cl uc m : std_decay (b_decay b) s -> dynamics_of b dyn ->
  (forall c y, In c (d_chains (b_decay b)) -> In y (dkeys (de_params (dyn c))) -> exists x, y = KSym x) ->
  formulate b ref cl uc = Ok m ->
  (forall base idx, (exists v, dget (KIdx base idx) (m_params m) = Some v) <-> occurs_in_amplitudes m (OIdx base idx)) /\
  (forall base idx v, dget (KIdx base idx) (m_params m) = Some v -> v = one_val) /\
  (forall i, In i [0; 1; 2; 3] -> dget (KSym (m_sym i)) (m_params m) = Some (real_val (p_mass (s i)))) /\
  (forall x v, dget (KSym x) (m_params m) = Some v ->
     mass_symbol x \/ exists c, In c (d_chains (b_decay b)) /\ In (KSym x, v) (de_params (dyn c))).
Proof.
  intros D Dyn Sy F. split; [|split; [|split]].
  - intros base idx. rewrite dget_In. split.
    + intros K. apply (params_keys b s dyn uc D Dyn ref cl m F) in K.
      destruct K as [(x & _ & E)|(l & i & j & k & c & T & [K|(r & p & Cp & Hp & E)])]; [discriminate| |].
      * destruct (Sy c _ (chains_of_In b _ _ (proj2 (proj2 T))) K) as [x E]. discriminate.
      * apply (amplitudes_occ b s dyn uc D Dyn ref cl m F). exists l, i, j, k, c, r. split; auto. split; auto.
        right; right. exists p. split; auto. unfold pkey_of in E. unfold okey_of. congruence.
    + intros O. apply dget_In. apply (proj1 (c23 b s dyn ref cl uc m D Dyn F)). auto.
  - intros base idx v G. destruct (params_values b s dyn uc D Dyn ref cl m F _ _ G)
      as [(i & _ & E & _)|[(l & i & j & k & c & r & p & _ & _ & _ & _ & E)|(c & Hc & I & _)]]; auto; [discriminate|].
    destruct (Sy c (KIdx base idx) Hc) as [x E]; [|discriminate]. apply in_map_iff. exists (KIdx base idx, v). auto.
  - intros i Hi. assert (K : In (KSym (m_sym i)) (dkeys (m_params m))).
    { apply (params_keys b s dyn uc D Dyn ref cl m F). left. exists (m_sym i). split; auto.
      unfold mass_symbol. apply In_0123 in Hi. destruct Hi as [->|[->|[->| ->]]]; cbn; auto 10. }
    apply dget_In in K. destruct K as [v K]. rewrite K. f_equal.
    assert (Inj : forall i', In i' [0; 1; 2; 3] -> m_sym i = m_sym i' -> i = i').
    { intros i' Hi' E. apply In_0123 in Hi, Hi'.
      destruct Hi as [->|[->|[->| ->]]], Hi' as [->|[->|[->| ->]]]; auto; discriminate E. }
    destruct (params_values b s dyn uc D Dyn ref cl m F _ _ K)
      as [(i' & Hi' & E & ->)|[(l & i' & j & k & c & r & p & _ & _ & _ & E & _)|(c & Hc & I & N)]].
    + inversion E. rewrite (Inj i' Hi'); auto. unfold m_sym. congruence.
    + discriminate.
    + exfalso. apply (N (m_sym i) eq_refl). unfold mass_symbol.
      apply In_0123 in Hi. destruct Hi as [->|[->|[->| ->]]]; cbn; auto 10.
  - intros x v G. destruct (params_values b s dyn uc D Dyn ref cl m F _ _ G)
      as [(i' & Hi' & E & ->)|[(l & i' & j & k & c & r & p & _ & _ & _ & E & _)|(c & Hc & I & N)]]; [|discriminate|eauto].
    left. inversion E. unfold mass_symbol. apply In_0123 in Hi'. destruct Hi' as [->|[->|[->| ->]]]; cbn; auto 10.
Qed.
