(** The option [all_subsystems] of the builder. *)
From Coq Require Import String ZArith QArith Qcanon Qreals List Bool Reals Lia Lra Permutation Sorted.
From Coquelicot Require Import Complex.
From Verif Require Import Prelude Spin Decay Expr Angles Sums Wigner CG CExpr SpecKin SpecDPD Builder
  SpinFacts DecayFacts AnglesFacts WignerFacts CExprFacts BuilderFacts ModelFacts RefFacts ChainProofs BuilderProofs SpecOptions.
Import ListNotations.
Local Open Scope string_scope.
Local Open Scope Z_scope.
Local Open Scope list_scope.

Section All.
  Variables (b b' : builder) (s : Z -> state) (uc : bool).
  Hypothesis D : std_decay (b_decay b) s.
  Hypothesis O : only_all_subsystems b b'.
  Notation d := (b_decay b).

  Lemma same_defaults c lam k i j rs : forall params,
    coupling_defaults b' c lam k i j uc rs params = coupling_defaults b c lam k i j uc rs params.
  Proof.
    induction rs as [|r rs IH]; intros params; cbn [coupling_defaults]; [reflexivity|].
    rewrite (oa_prod _ _ O), (oa_dec _ _ O). destruct (negb _); [apply IH|].
    destruct (create_scaling_factors _ _ _ _ _ _ _ _) as [x|]; cbn [bind]; [apply IH|reflexivity].
  Qed.
  Lemma same_term c lam spin k i j th params :
    chain_term b' c lam spin k i j th uc params = chain_term b c lam spin k i j th uc params.
  Proof.
    unfold chain_term. rewrite (oa_prod _ _ O), (oa_dec _ _ O), (oa_dynamics _ _ O), (oa_decay _ _ O).
    destruct (get_builder _ _) as [f|]; cbn [bind]; [|reflexivity]. destruct (f c) as [x|]; cbn [bind]; [|reflexivity].
    rewrite same_defaults. reflexivity.
  Qed.
  Lemma same_terms lam spin k i j th cs : forall params,
    chain_terms b' lam spin k i j th uc cs params = chain_terms b lam spin k i j th uc cs params.
  Proof.
    induction cs as [|c cs IH]; intros params; cbn [chain_terms]; [reflexivity|]. rewrite same_term.
    destruct (chain_term _ _ _ _ _ _ _ _ _ _) as [[e p]|]; cbn [bind]; [|reflexivity]. rewrite IH. reflexivity.
  Qed.
  Lemma same_subsystem l k : formulate_subsystem_amplitude b' l k uc = formulate_subsystem_amplitude b l k uc.
  Proof.
    unfold formulate_subsystem_amplitude. rewrite (oa_decay _ _ O).
    destruct (get_decay_product_ids k) as [[i j]|]; cbn [bind]; [|reflexivity].
    destruct (formulate_scattering_angle i j) as [[th e]|]; cbn [bind]; [|reflexivity].
    destruct (initial_state_r d); cbn [bind]; [|reflexivity].
    destruct (dgetitem 1 _); cbn [bind]; [|reflexivity]. destruct (dgetitem 2 _); cbn [bind]; [|reflexivity].
    destruct (dgetitem 3 _); cbn [bind]; [|reflexivity]. destruct (fst _); cbn [bind]; [|reflexivity].
    rewrite same_terms. reflexivity.
  Qed.

  Lemma empty_chains k : In k [1; 2; 3] -> ~ In k (get_subsystem_ids d) -> empty_subsystem d k.
  Proof.
    intros Hk N. split; [exact Hk|]. intros c Hc E. apply N. apply get_subsystem_ids_In. exists c. auto.
  Qed.
  (** The amplitude of a subsystem without chains *)
  Lemma empty_subsystem_model l i j k : cyclic i j k -> ~ In k (get_subsystem_ids d) -> exists th m,
    formulate_subsystem_amplitude b l k uc = Ok m /\ m_amplitudes m = [((amp_name k, amp_index l), CAddL [])] /\
    m_variables m = [(theta_name i j, th)] /\ m_params m = [].
  Proof.
    intros Cy N. destruct (cyclic_in _ _ _ Cy) as (_ & _ & Hk). destruct (scattering_symbol i j k Cy) as [th Hth].
    unfold formulate_subsystem_amplitude.
    rewrite (proj2 (product_ids_cyclic k i j) Cy). cbn [bind]. rewrite Hth. cbn [bind].
    rewrite (std_initial _ _ D). cbn [bind]. rewrite !(std_final_item b s D) by (simpl; auto). cbn [bind].
    rewrite (get_subsystem_ok _ k (sd_valid _ _ D)). cbn [bind d_chains]. rewrite no_subsystem by exact N.
    cbn [chain_terms bind]. rewrite (amp_base_name k Hk). cbn [bind]. exists th. eexists. split; [reflexivity|].
    destruct l as [[[l0 l1] l2] l3]. repeat split.
  Qed.

  (** The accumulated dictionaries of the two loops *)
  Definition known (k : Z) : bool := if in_dec Z.eq_dec k (get_subsystem_ids d) then true else false.
  Lemma known_In k : known k = true <-> In k (get_subsystem_ids d).
  Proof. unfold known. destruct (in_dec _ _ _); intuition congruence. Qed.
  Definition acc_t := (dict akey cexpr * dict symbol rexpr * dict pkey pval)%type.
  Definition acc_rel (x x' : acc_t) : Prop :=
    let '(amps, vars, params) := x in let '(amps', vars', params') := x' in
    params' = params /\
    (forall y, In y (dkeys amps) -> exists k l, y = (amp_name k, amp_index l) /\ In k [1; 2; 3] /\ known k = true) /\
    (forall y, In y (dkeys vars) -> exists i j k, y = theta_name i j /\ cyclic i j k /\ known k = true) /\
    (forall y, dget y amps' = dget y amps \/
       dget y amps = None /\ exists e, dget y amps' = Some e /\ empty_amplitude d s y e) /\
    (forall y, dget y vars' = dget y vars \/
       dget y vars = None /\ exists e, dget y vars' = Some e /\ empty_angle d y e).

  Lemma loop_rel work : (forall l k, In (l, k) work -> In k [1; 2; 3] /\ helicity_tuple s l) -> forall x x', acc_rel x x' ->
    match formulate_loop b uc (filter (fun w => known (snd w)) work) x, formulate_loop b' uc work x' with
    | Ok y, Ok y' => acc_rel y y'
    | Err _, Err _ => True
    | _, _ => False
    end.
  Proof.
    induction work as [|[l k] work IH]; intros W x x' X; [exact X|].
    destruct (W l k (or_introl eq_refl)) as [Hk Hl]. destruct (cyclic_ex k Hk) as (i & j & Cy).
    assert (W' : forall l k, In (l, k) work -> In k [1; 2; 3] /\ helicity_tuple s l) by (intros l' k' H; apply W; right; exact H).
    cbn [filter snd]. destruct (known k) eqn:Kn; cbn [formulate_loop]; rewrite same_subsystem.
    - destruct (formulate_subsystem_amplitude b l k uc) as [m|] eqn:E; cbn [bind]; [|exact I].
      destruct x as [[amps vars] params], x' as [[amps' vars'] params']. apply IH; [exact W'|].
      destruct (subsystem_amplitude_inv b s D l k uc m E) as (i' & j' & th & terms & ps & Cy' & _ & _ & EA & EV & EP).
      destruct (cyclic_fun _ _ _ _ _ Cy Cy') as [<- <-].
      destruct X as (X1 & X2 & X3 & X4 & X5). rewrite EA, EV. cbn [dupdate acc_rel].
      split; [congruence|]. split; [|split; [|split]].
      + intros y. rewrite dset_keys. intros [->|H]; [exists k, l; auto|auto].
      + intros y. rewrite dset_keys. intros [->|H]; [exists i, j, k; auto|auto].
      + intros y. rewrite !dget_dset. destruct (eq_dec y _); auto.
      + intros y. rewrite !dget_dset. destruct (eq_dec y _); auto.
    - assert (N : ~ In k (get_subsystem_ids d)) by (intros H; apply known_In in H; congruence).
      destruct (empty_subsystem_model l i j k Cy N) as (th & m & -> & EA & EV & EP). cbn [bind].
      destruct x as [[amps vars] params], x' as [[amps' vars'] params']. apply IH; [exact W'|].
      destruct X as (X1 & X2 & X3 & X4 & X5). rewrite EA, EV, EP. cbn [dupdate acc_rel].
      split; [exact X1|]. split; [exact X2|]. split; [exact X3|]. split.
      + intros y. rewrite dget_dset. destruct (eq_dec y _) as [->|]; [|auto]. right. split.
        * destruct (dget _ amps) as [e|] eqn:G; [|reflexivity]. exfalso. apply dget_Some_In in G. apply (in_map fst) in G.
          destruct (X2 _ G) as (k' & l' & E & Hk' & Kn'). cbn [fst] in E. apply pair_equal_spec in E. destruct E as [E _].
          apply amp_name_inj in E; [|exact Hk|exact Hk']. congruence.
        * eexists. split; [reflexivity|]. split; [|intros ev h; cbn [CAddL]; unfold CNum; cbn [ceval]; rewrite Q2R_Z; reflexivity].
          exists k, l. split; [reflexivity|].
          split; [apply empty_chains; assumption|exact Hl].
      + intros y. rewrite dget_dset. destruct (eq_dec y _) as [->|]; [|auto]. right. split.
        * destruct (dget _ vars) as [e|] eqn:G; [|reflexivity]. exfalso. apply dget_Some_In in G. apply (in_map fst) in G.
          destruct (X3 _ G) as (i' & j' & k' & E & Cy' & Kn'). cbn [fst] in E.
          apply (theta_name_inj _ _ _ _ _ _ Cy Cy') in E. congruence.
        * eexists. split; [reflexivity|]. exists i, j, k. split; [exact Cy|]. split; [apply empty_chains; assumption|reflexivity].
  Qed.

  Lemma known_ids ks : sorted (get_subsystem_ids d) = Ok ks -> ks = filter known [1; 2; 3].
  Proof.
    intros S.
    assert (C3 : forall k, In k ks <-> In k (filter known [1; 2; 3])).
    { intros k. rewrite (ids_123 b ks k S), filter_In, known_In. split; [|tauto]. intros H. split; [|exact H].
      exact (ids_range b s D k H). }
    assert (N : NoDup (get_subsystem_ids d)) by apply to_set_NoDup.
    assert (S' : sorted (filter known [1; 2; 3]) = Ok (filter known [1; 2; 3])).
    { cbn [filter]. destruct (known 1), (known 2), (known 3); reflexivity. }
    refine (sorted_unique _ _ _ _ S S' _). apply NoDup_Permutation; [exact N| |].
    - apply NoDup_filter. repeat constructor; simpl; intuition discriminate.
    - intros k. rewrite <- C3. symmetry. exact (ids_123 b ks k S).
  Qed.
  Lemma work_filter ks : sorted (get_subsystem_ids d) = Ok ks ->
    filter (fun w => known (snd w)) (work_of s [1; 2; 3]) = work_of s ks.
  Proof.
    intros S. rewrite (known_ids ks S). unfold work_of. induction (tuples s) as [|l ls IH]; [reflexivity|].
    cbn [flat_map]. rewrite filter_app, IH. f_equal. cbn [map filter snd].
    destruct (known 1), (known 2), (known 3); reflexivity.
  Qed.
  Lemma loops ks : sorted (get_subsystem_ids d) = Ok ks ->
    match formulate_loop b uc (work_of s ks) ([], [], []), formulate_loop b' uc (work_of s [1; 2; 3]) ([], [], []) with
    | Ok y, Ok y' => acc_rel y y'
    | Err _, Err _ => True
    | _, _ => False
    end.
  Proof.
    intros S. rewrite <- (work_filter ks S). apply loop_rel.
    - intros l k H. apply work_of_In in H. tauto.
    - split; [reflexivity|]. split; [intros y []|]. split; [intros y []|]. split; intros y; left; reflexivity.
  Qed.

  Variables (ref : option Z) (cl : bool).
  Lemma std' : std_decay (b_decay b') s.
  Proof. rewrite (oa_decay _ _ O). exact D. Qed.

  Lemma same_aligned lam r : formulate_aligned_amplitude b' lam r = formulate_aligned_amplitude b lam r.
  Proof. unfold formulate_aligned_amplitude. rewrite (oa_decay _ _ O). reflexivity. Qed.
  Lemma both_succeed : (exists m, formulate b ref cl uc = Ok m) <-> (exists m', formulate b' ref cl uc = Ok m').
  Proof.
    unfold formulate. rewrite (oa_decay _ _ O), (oa_on _ _ O), (oa_off _ _ O).
    destruct (resolve_reference d ref) as [r|]; cbn [bind]; [|split; intros [? H]; discriminate H].
    rewrite !(std_item b s D) by (simpl; auto). cbn [bind].
    destruct (sorted_Z (get_subsystem_ids d)) as (ks & S & _). rewrite S. cbn [bind].
    pose proof (loops ks S) as L. unfold work_of in L. rewrite tuples_product in L.
    unfold spin4 in *. 
    match type of L with match ?a with _ => _ end =>
      match goal with |- (exists m, bind ?a' _ = _) <-> _ => change a' with a end end.
    match type of L with match _ with Ok _ => match ?a with _ => _ end | _ => _ end =>
      match goal with |- _ <-> (exists m, bind ?a' _ = _) => change a' with a end end.
    destruct (formulate_loop b uc _ _) as [[[x1 x2] x3]|], (formulate_loop b' uc _ _) as [[[y1 y2] y3]|]; try contradiction; cbn [bind].
    - rewrite same_aligned. destruct (formulate_aligned_amplitude b _ _) as [[al z]|]; cbn [bind]; [|split; intros [? H]; discriminate H].
      destruct (create_mass_symbol_mapping d) as [ms|]; cbn [bind]; [|split; intros [? H]; discriminate H].
      destruct (formulate_invariants d) as [iv|]; cbn [bind]; [|split; intros [? H]; discriminate H].
      split; intros _; eexists; reflexivity.
    - split; intros [? H]; discriminate H.
  Qed.

  Lemma c119 m m' : formulate b ref cl uc = Ok m -> formulate b' ref cl uc = Ok m' ->
    m_decay m' = m_decay m /\ m_intensity m' = m_intensity m /\ m_params m' = m_params m /\
    m_masses m' = m_masses m /\ m_invariants m' = m_invariants m /\
    extended_by (empty_amplitude d s) (m_amplitudes m) (m_amplitudes m') /\
    extended_by (empty_angle d) (m_variables m) (m_variables m') /\
    forall ev, full_value ev m' = full_value ev m.
  Proof.
    intros F F'.
    destruct (intensity_formula b s D ref cl uc m F) as (r1 & ks1 & Q1 & S1 & V1).
    destruct (intensity_formula b' s std' ref cl uc m' F') as (r2 & ks2 & Q2 & S2 & V2).
    destruct (formulate_inv b s D ref cl uc m F) as (r & ks & terms & zd & amps & vars & params & masses & inv & R & S & AT & L & M & IV & ->).
    destruct (formulate_inv b' s std' ref cl uc m' F') as (r' & ks' & terms' & zd' & amps' & vars' & params' & masses' & inv' & R' & S' & AT' & L' & M' & IV' & ->).
    rewrite (oa_decay _ _ O) in *. rewrite (oa_on _ _ O) in L'. rewrite (oa_off _ _ O) in L.
    assert (r' = r) by congruence. assert (ks' = ks) by congruence. subst r' ks'.
    assert (r1 = r) by congruence. assert (r2 = r) by congruence. assert (ks1 = ks) by congruence. assert (ks2 = ks) by congruence.
    subst r1 r2 ks1 ks2.
    assert (terms' = terms) by congruence. assert (zd' = zd) by congruence. assert (masses' = masses) by congruence.
    assert (inv' = inv) by congruence. subst terms' zd' masses' inv'.
    pose proof (loops ks S) as Rel. rewrite L, L' in Rel. destruct Rel as (X1 & X2 & X3 & X4 & X5).
    cbn [m_decay m_intensity m_params m_masses m_invariants m_amplitudes m_variables].
    assert (EA : extended_by (empty_amplitude d s) amps amps').
    { split; intros y v H.
      - destruct (X4 y) as [E|[E _]]; congruence.
      - destruct (X4 y) as [E|[E (e & G & Z)]]; [left; congruence|]. right. split; [exact E|].
        assert (e = v) by congruence. subst v. exact Z. }
    do 2 (split; [reflexivity|]). split; [rewrite X1; reflexivity|]. do 2 (split; [reflexivity|]). split; [exact EA|]. split.
    - assert (NZ : forall y, dget y (dupdate vars' zd) = dget y (dupdate vars zd) \/
         dget y (dupdate vars zd) = None /\ exists e, dget y (dupdate vars' zd) = Some e /\ empty_angle d y e).
      { intros y. rewrite !dget_dupdate. destruct (dget y (rev zd)); [auto|]. apply X5. }
      split; intros y v H.
      + destruct (NZ y) as [E|[E _]]; congruence.
      + destruct (NZ y) as [E|[E (e & G & Z)]]; [left; congruence|]. right. split; [exact E|].
        assert (e = v) by congruence. subst v. exact Z.
    - intros ev. rewrite V1, V2. f_equal. unfold intensity_value, aligned_amplitude. apply Rsum_ext. intros l _. do 2 f_equal.
      apply Csum_ext. intros l' Hl'. apply Csum_ext. intros k Hk. f_equal. unfold amp_value. cbn [m_amplitudes].
      destruct (dget (amp_name k, amp_index l') amps) as [e|] eqn:G.
      + rewrite (proj1 EA _ _ G : dget (amp_name k, amp_index l') amps' = Some e). reflexivity.
      + destruct (dget (amp_name k, amp_index l') amps') as [e|] eqn:G'; [|reflexivity].
        destruct (proj2 EA _ _ G') as [X|[_ [_ Z]]]; [|apply Z]. exfalso. pose proof (eq_trans (eq_sym G) X). discriminate.
  Qed.
End All.
