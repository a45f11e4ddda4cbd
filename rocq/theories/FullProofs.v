(** The full expression of a model (proofs for C125) *)
From Coq Require Import Ascii String ZArith QArith Qcanon Qreals List Bool Reals Permutation Lia.
From Coquelicot Require Import Complex.
From Verif Require Import Prelude Spin Decay DecayFacts Expr Angles Sums Wigner CG CExpr CExprFacts Builder SpecDPD SpecBuilder BuilderFacts OccFacts
  ModelFacts BuilderProofs UnitFacts SerFormat SerDynamics SpecSerial SerDecay SerAmpFacts SerModel SerProofs SerFormal DoIt DoItFacts FullFacts SpecFull.
Import ListNotations.
Local Open Scope Z_scope.
Local Open Scope list_scope.

(** ** Expansion *)
Lemma mul_expanded a b : expanded a -> expanded b -> expanded (mul a b).
Proof. unfold mul. destruct (_ || _); cbn; auto. Qed.
Lemma expanded_CAddL es : (forall e, In e es -> expanded e) -> expanded (CAddL es).
Proof. induction es as [|e es IH]; cbn [CAddL expanded CNum]; intros H; [exact I|]. split; [apply H; left; reflexivity|apply IH; intros; apply H; right; assumption]. Qed.
Lemma doit_expanded e : forall rho, bound (dkeys rho) e -> expanded (doit rho e).
Proof.
  induction e; intros rho B; cbn [bound] in B; cbn [doit expanded];
    repeat match goal with H : _ /\ _ |- _ => destruct H end; repeat split; auto using mul_expanded; try (apply hdoit_concrete; assumption).
  - intros x I. apply in_map_iff in I. destruct I as (i & E & I). rewrite Forall_forall in B. specialize (B i I).
    destruct i as [t|g]; cbn [idoit ibound] in E, B; [discriminate|]. injection E as <-. apply hdoit_concrete. exact B.
  - destruct (hdoit_concrete rho a H) as (x & ->). destruct (hdoit_concrete rho b H0) as (y & ->). destruct (x =? y); exact I.
  - apply expanded_CAddL. intros e' I. apply in_map_iff in I. destruct I as (r' & <- & I). apply IHe.
    eapply bound_incl; [|exact B]. intros s J. apply (assignments_keys _ _ _ I). exact J.
Qed.
Lemma xreplace_expanded amps e : (forall key e', dget key amps = Some e' -> expanded e') -> expanded e -> expanded (xreplace amps e).
Proof.
  intros A. induction e; cbn [xreplace expanded]; intuition.
  destruct (index_values idx) as [vs|]; [|assumption]. destruct (dget (base, vs) amps) eqn:G; [exact (A _ _ G)|assumption].
Qed.
Lemma full_expanded m : model_bound m -> expanded (full_expression m).
Proof.
  intros [Bi Ba]. apply xreplace_expanded; [|apply doit_expanded; exact Bi].
  intros key e. rewrite dget_map. destruct (dget key (m_amplitudes m)) as [e0|] eqn:G; [|discriminate]. intros X. injection X as <-.
  apply doit_expanded. exact (Ba _ _ G).
Qed.

(** ** The value depends on what occurs. *)
Lemma vanishes_ceval ev h e : vanishes h e = true -> ceval ev h e = RtoC 0.
Proof.
  induction e; cbn [vanishes ceval]; try discriminate.
  - intros V. apply orb_true_iff in V. destruct V as [V|V]; [rewrite (IHe1 V)|rewrite (IHe2 V)]; ring.
  - destruct (_ =? _); [discriminate|reflexivity].
Qed.
Lemma occ_value ev ev' e : expanded e -> forall h,
  (forall y, In (OVar y) (occ h e) \/ In (OAngle y) (occ h e) -> e_sym ev y = e_sym ev' y) ->
  (forall n idx, In (OIdx n idx) (occ h e) -> e_idx ev n idx = e_idx ev' n idx) ->
  ceval ev h e = ceval ev' h e.
Proof.
  induction e; cbn [expanded]; intros X h S J; cbn [ceval]; cbn [occ] in S, J;
    repeat match goal with H : _ /\ _ |- _ => destruct H end; try contradiction; auto;
    try (rewrite (IHe1 H h), (IHe2 H0 h); [reflexivity|..]; intros; first [apply S|apply J]; rewrite ?in_app_iff; tauto);
    try (rewrite (IHe X h); [reflexivity|..]; assumption).
  - apply S. left. left. reflexivity.
  - apply J. left. reflexivity.
  - destruct (vanishes h e1) eqn:V1; [rewrite (vanishes_ceval ev h e1 V1), (vanishes_ceval ev' h e1 V1); ring|].
    destruct (vanishes h e2) eqn:V2; [rewrite (vanishes_ceval ev h e2 V2), (vanishes_ceval ev' h e2 V2); ring|].
    cbn [orb] in S, J.
    rewrite (IHe1 H h), (IHe2 H0 h); [reflexivity|..]; intros; first [apply S|apply J]; rewrite ?in_app_iff; tauto.
  - rewrite (S angle); [reflexivity|]. right. left. reflexivity.
  - rewrite (IHe1 H h), (IHe2 H0 h), (IHe3 H1 h), (IHe4 H2 h); [reflexivity|..]; intros; first [apply S|apply J]; rewrite ?in_app_iff; tauto.
  - rewrite (IHe1 H h), (IHe2 H0 h), (IHe3 H1 h); [reflexivity|..]; intros; first [apply S|apply J]; rewrite ?in_app_iff; tauto.
Qed.
(** The symbols in the definitions of the angles *)
Definition angles_from_invariants (vars : dict symbol rexpr) : Prop :=
  forall y e, dget y vars = Some e -> forall z, In z (rsyms e) -> In z invariant_names.
Lemma full_inputs m base base' cpl cpl' : model_bound m -> all_defined m (full_expression m) ->
  angles_from_invariants (m_variables m) -> (forall n, In n [0; 1; 2; 3] -> exists v, dget (KSym (m_sym n)) (m_params m) = Some v) ->
  same_inputs m base base' cpl cpl' ->
  full_value (at_point (m_variables m) base cpl) m = full_value (at_point (m_variables m) base' cpl') m.
Proof.
  intros B A G Ms (S1 & S2 & S3). rewrite <- !(full_expression_value m B _ (fun _ => 0)).
  assert (INV : forall y, In y invariant_names -> base y = base' y).
  { intros y I. unfold invariant_names in I. apply in_app_or in I. destruct I as [I|I]; apply in_map_iff in I; destruct I as (n & <- & I).
    - destruct (Ms n I) as (v & V). exact (S1 _ _ V).
    - apply S2. cbn in I |- *. repeat (destruct I as [<-|I]; [cbn; auto|]). destruct I. }
  apply occ_value; [apply full_expanded; exact B| |].
  - intros y O. unfold at_point. cbn [e_sym]. destruct (dget y (m_variables m)) as [e|] eqn:E.
    + f_equal. apply reval_on. intros z Hz. rewrite (INV z (G _ _ E z Hz)). reflexivity.
    + destruct O as [O|O]; apply (A (fun _ => 0)) in O; cbn beta iota in O; [|destruct O as (e & X); congruence].
      destruct O as [(v & V)|M]; [exact (S1 _ _ V)|exact (S2 _ M)].
  - intros n idx O. apply (A (fun _ => 0)) in O. cbn beta iota in O. destruct O as [(v & V) _]. exact (S3 _ _ _ V).
Qed.

Lemma update_angles vars zdefs (N : NoDup (dkeys zdefs)) : angles_from_invariants vars -> angles_from_invariants zdefs -> angles_from_invariants (dupdate vars zdefs).
Proof.
  intros A B y e G. rewrite dget_dupdate_nodup in G by exact N. destruct (dget y zdefs) eqn:E; [injection G as <-; exact (B _ _ E)|exact (A _ _ G)].
Qed.
Lemma aligned_angles r j lam lam' ks : forall defs terms defs', angles_from_invariants defs ->
  aligned_terms r j lam lam' ks defs = Ok (terms, defs') -> angles_from_invariants defs'.
Proof.
  assert (W : forall j m m' i k defs e defs', angles_from_invariants defs -> wigner_gen r j m m' i k defs = Ok (e, defs') -> angles_from_invariants defs').
  { intros j0 m m' i k defs e defs' A. unfold wigner_gen. destruct (j0 =? 0); intros E; [|inv_bind E; destruct v]; ok_inj E; injection E as _ <-; [exact A|].
    intros y a. rewrite dget_dset. destruct (eq_dec y s); [|apply A]. intros X. injection X as <-. exact (proj2 angle_syms _ _ _ _ _ E0). }
  induction ks as [|k ks IH]; intros defs terms defs' A E; cbn [aligned_terms] in E.
  - ok_inj E. injection E as _ <-. exact A.
  - inv_bind E. destruct v as [e0 d0]. inv_bind E. destruct v as [es0 d1]. ok_inj E. injection E as _ <-.
    eapply IH; [|exact E1]. unfold aligned_term in E0.
    inv_bind E0. inv_bind E0. destruct v0 as [w0 ?]. inv_bind E0. destruct v0 as [w1 ?]. inv_bind E0. destruct v0 as [w2 ?].
    inv_bind E0. destruct v0 as [w3 ?]. ok_inj E0. injection E0 as _ <-.
    repeat (eapply W; [|eassumption]). exact A.
Qed.
Lemma aligned_NoDup r j lam lam' ks : forall defs terms defs', NoDup (dkeys defs) ->
  aligned_terms r j lam lam' ks defs = Ok (terms, defs') -> NoDup (dkeys defs').
Proof.
  assert (W : forall j m m' i k defs e defs', NoDup (dkeys defs) -> wigner_gen r j m m' i k defs = Ok (e, defs') -> NoDup (dkeys defs')).
  { intros j0 m m' i k defs e defs' A. unfold wigner_gen. destruct (j0 =? 0); intros E; [|inv_bind E; destruct v]; ok_inj E; injection E as _ <-; [exact A|].
    apply dset_NoDup. exact A. }
  induction ks as [|k ks IH]; intros defs terms defs' A E; cbn [aligned_terms] in E.
  - ok_inj E. injection E as _ <-. exact A.
  - inv_bind E. destruct v as [e0 d0]. inv_bind E. destruct v as [es0 d1]. ok_inj E. injection E as _ <-.
    eapply IH; [|exact E1]. unfold aligned_term in E0.
    inv_bind E0. inv_bind E0. destruct v0 as [w0 ?]. inv_bind E0. destruct v0 as [w1 ?]. inv_bind E0. destruct v0 as [w2 ?].
    inv_bind E0. destruct v0 as [w3 ?]. ok_inj E0. injection E0 as _ <-.
    repeat (eapply W; [|eassumption]). exact A.
Qed.

(** ** Built models *)
Section Build.
  Variables (b : builder) (s : Z -> state) (dyn : chain -> defexpr) (ref : option Z) (cl uc : bool) (m : model).
  Hypotheses (D : std_decay (b_decay b) s) (Y : dynamics_of b dyn) (F : Builder.formulate b ref cl uc = Ok m).

  Theorem c125_value ev h : ceval ev h (full_expression m) = full_value ev m.
  Proof. apply full_expression_value. exact (formulate_bound b s dyn D Y ref cl uc m F). Qed.
  Theorem c125_expanded : expanded (full_expression m).
  Proof. apply full_expanded. exact (formulate_bound b s dyn D Y ref cl uc m F). Qed.

  Theorem c125_defined : (forall c y, In c (d_chains (b_decay b)) -> In y (symbols_of (de_expr (dyn c))) ->
      In (KSym y) (dkeys (de_params (dyn c))) \/ mass_symbol y \/ mandelstam y) -> all_defined m (full_expression m).
  Proof.
    intros Cl h o O. destruct (c22 b s ref cl uc m D F) as (A1 & _ & A3). destruct (c23 b s dyn ref cl uc m D Y F) as (B1 & B2 & B3 & B4).
    apply (full_expression_occ m (formulate_bound b s dyn D Y ref cl uc m F)) in O.
    destruct o as [y|y|base idx].
    - destruct O as [[O _]|O]; [destruct (B4 _ O)|apply (B3 Cl _ O)].
    - apply B2. destruct O as [[O _]|O]; auto.
    - destruct O as [[O N]|O].
      + exfalso. destruct (A1 _ _ O) as (e & E). rewrite (N base idx eq_refl) in E. discriminate E.
      + split; [exact (B1 _ _ O)|]. destruct (dget (base, idx) (m_amplitudes m)) as [e|] eqn:E; [exfalso|reflexivity].
        assert (K : In (base, idx) (dkeys (m_amplitudes m))) by (apply dget_In; eauto). apply A3 in K. destruct K as (k & l & X & _).
        apply (amplitudes_occ b s dyn uc D Y ref cl m F) in O.
        destruct O as (l' & i' & j' & k' & c & rr & _ & _ & [(y & _ & E')|[E'|(p & Hp & E')]]); try discriminate.
        assert (Z1 : base = amp_name k) by congruence. assert (Z2 : base = fst p) by (unfold okey_of in E'; congruence).
        unfold scaling_keys in Hp. assert (Q : exists t, fst p = String "\"%char t).
        { destruct uc; cbn [In] in Hp; repeat destruct Hp as [<-|Hp]; try destruct Hp; cbn [fst];
            unfold coefficient_base, production_name, decay_name; destruct (b_prod_helicity b), (b_dec_helicity b); eexists; reflexivity. }
        destruct Q as (t & Q). rewrite Z1, Q in Z2. discriminate Z2.
  Qed.
  Lemma loop_angles work : forall amps vars ps amps' vars' ps', angles_from_invariants vars ->
    Builder.formulate_loop b uc work (amps, vars, ps) = Ok (amps', vars', ps') -> angles_from_invariants vars'.
  Proof.
    induction work as [|[l k] work IH]; intros amps vars ps amps' vars' ps' A E; cbn [Builder.formulate_loop] in E.
    - ok_inj E. injection E as _ <- _. exact A.
    - inv_bind E. eapply IH; [|exact E]. destruct (subsystem_amplitude_inv b s D _ _ _ _ E0) as (i & j & th & ? & ? & _ & Th & _ & _ & -> & _).
      cbn [dupdate]. intros y e. rewrite dget_dset. destruct (eq_dec y (theta_name i j)); [|apply A].
      intros X. injection X as <-. exact (proj1 angle_syms _ _ _ _ Th).
  Qed.
  Theorem c125_inputs base base' cpl cpl' : (forall c y, In c (d_chains (b_decay b)) -> In y (symbols_of (de_expr (dyn c))) ->
      In (KSym y) (dkeys (de_params (dyn c))) \/ mass_symbol y \/ mandelstam y) -> same_inputs m base base' cpl cpl' ->
    full_value (at_point (m_variables m) base cpl) m = full_value (at_point (m_variables m) base' cpl') m.
  Proof.
    intros Cl. pose proof (formulate_bound b s dyn D Y ref cl uc m F) as B. apply (full_inputs m base base' cpl cpl' B (c125_defined Cl)).
    - destruct (formulate_inv b s D ref cl uc m F) as (r & ks & terms & zdefs & amps & vars & ps & masses & inv & E1 & E2 & E3 & E4 & E5 & E6 & ->).
      cbn [m_variables]. apply update_angles; [eapply aligned_NoDup; [|exact E3]; constructor|eapply loop_angles; [|exact E4]; discriminate|].
      eapply aligned_angles; [|exact E3]. discriminate.
    - destruct (formulate_inv b s D ref cl uc m F) as (r & ks & terms & zdefs & amps & vars & ps & masses & inv & E1 & E2 & E3 & E4 & E5 & E6 & ->).
      cbn [m_params]. intros n I. apply dget_In. apply dupdate_keys. right. rewrite (std_masses _ _ D) in E5. ok_inj E5. subst masses.
      cbn in I |- *. repeat (destruct I as [<-|I]; [auto 6|]). destruct I.
  Qed.
End Build.

(** ** Serialised models *)
Lemma sigma_mandelstam k : In k [1; 2; 3] -> mandelstam (SpecSerial.sigma_sym k).
Proof. intros I. cbn in I |- *. repeat (destruct I as [<-|I]; [cbn; auto|]). destruct I. Qed.
Section Serial.
  Variables (md : model_def) (d : distribution) (s : Z -> state) (r : Z)
    (tl : string -> string) (additional : option (dict string prop_builder))
    (x : chain_def -> content) (w : chain_def -> symbol) (dyn : chain_def -> defexpr).
  Hypothesis H : helicity_definition md d s r tl additional x w dyn.
  Variables (cl : bool) (m : model).
  Hypothesis F : SerAmplitude.formulate md cl tl additional = Ok m.

  Theorem c125_serial_value ev h : ceval ev h (full_expression m) = full_value ev m.
  Proof. apply full_expression_value. exact (serial_bound md d s r tl additional x w dyn H cl m F). Qed.
  Theorem c125_serial_expanded : expanded (full_expression m).
  Proof. apply full_expanded. exact (serial_bound md d s r tl additional x w dyn H cl m F). Qed.
  Theorem c125_serial_defined : (forall c, In c (di_chains d) -> closed_expression (dyn c)) ->
    all_defined m (full_expression m) /\ forall h base idx, ~ In (OIdx base idx) (occ h (full_expression m)).
  Proof.
    intros Cl. destruct (serial_closed md d s r tl additional x w dyn H cl m F Cl) as (A1 & A2 & A3 & A4 & A5 & _).
    assert (N : forall h base idx, ~ In (OIdx base idx) (occ h (full_expression m))).
    { intros h base idx O. apply (full_expression_occ m (serial_bound md d s r tl additional x w dyn H cl m F)) in O.
      destruct O as [[O N]|O]; [|exact (A2 _ _ O)]. destruct (A4 _ _ O) as (e & E). rewrite (N base idx eq_refl) in E. discriminate E. }
    split; [|exact N]. intros h o O. destruct o as [y|y|base idx]; [| |destruct (N _ _ _ O)];
      apply (full_expression_occ m (serial_bound md d s r tl additional x w dyn H cl m F)) in O.
    - destruct O as [[O _]|O]; [destruct (A5 _ O)|]. destruct (A1 _ O) as [V|(k & e & I & -> & _)]; [auto|right; apply sigma_mandelstam; exact I].
    - apply A3. destruct O as [[O _]|O]; auto.
  Qed.
  Theorem c125_serial_inputs base base' cpl cpl' : (forall c, In c (di_chains d) -> closed_expression (dyn c)) -> same_inputs m base base' cpl cpl' ->
    full_value (at_point (m_variables m) base cpl) m = full_value (at_point (m_variables m) base' cpl') m.
  Proof.
    intros Cl. pose proof (serial_bound md d s r tl additional x w dyn H cl m F) as B.
    apply (full_inputs m base base' cpl cpl' B (proj1 (c125_serial_defined Cl))).
    - destruct (serial_closed md d s r tl additional x w dyn H cl m F Cl) as (_ & _ & _ & _ & _ & A6). intros y e G.
      destruct (A6 _ _ G) as [(c & _ & E)|(i & k & c & _ & _ & _ & _ & E)]; [exact (proj1 angle_syms _ _ _ _ E)|exact (proj2 angle_syms _ _ _ _ _ E)].
    - destruct (serial_model md d s r tl additional x w dyn H cl) as
        (M' & ks & terms & zdefs & amps & vars & F' & _ & _ & _ & _ & _ & _ & _ & _ & EP & _).
      rewrite F in F'. ok_inj F'. subst M'. rewrite EP. intros n I. apply dget_In. apply dupdate_keys. right.
      cbn in I |- *. repeat (destruct I as [<-|I]; [auto 6|]). destruct I.
  Qed.
End Serial.
