(** The intensity is continuous (proofs for C113) *)
From Coq Require Import String ZArith QArith Qcanon Qreals List Bool Reals Lia Lra Psatz Permutation.
From Coquelicot Require Import Coquelicot.
From Verif Require Import Prelude Spin Decay Expr Angles Sums Wigner CG CExpr SpecKin SpecDPD Builder SpecBuilder Dynamics
  SpecDynamics SpinFacts DecayFacts CExprFacts BuilderFacts ModelFacts RefFacts KinFacts AnglesProofs DynamicsProofs LineshapeFacts
  LineshapeProofs SpecFinite FiniteFacts FiniteShapes SpecContinuity ContinuityFacts.
From Verif Require RelabelExamples RelabelShapeExamples FiniteExamples.
Import ListNotations.
Local Open Scope R_scope.

(** ** Roots in Breit-Wigner lineshapes *)
Section Radicands.
  Variables (ev : env) (h : symbol -> Z).
  Definition real_er (e : cexpr) (x : R) : Prop := ceval ev h e = RtoC x /\ radicands ev h e = [].
  Lemma real_er_sqr e x : real_er e x -> real_er (CSqr e) (x * x).
  Proof. intros [E N]. split; cbn [ceval radicands]; auto. rewrite E, RtoC_mult. reflexivity. Qed.
  Lemma nonneg_cut x : 0 <= x -> ~ on_cut (RtoC x).
  Proof. intros H [_ N]. cbn in N. lra. Qed.
  Lemma rad_mul a b : no_cut ev h a -> no_cut ev h b -> no_cut ev h (CMul a b).
  Proof. intros A B x Hx. apply in_app_or in Hx. destruct Hx; auto. Qed.
  Lemma rad_sub a b : no_cut ev h a -> no_cut ev h b -> no_cut ev h (CSub a b).
  Proof. intros A B x Hx. apply in_app_or in Hx. destruct Hx; auto. Qed.
  Lemma rad_div a b : no_cut ev h a -> no_cut ev h b -> no_cut ev h (CDiv a b).
  Proof. intros A B x Hx. apply in_app_or in Hx. destruct Hx; auto. Qed.
  Lemma rad_real e x : real_er e x -> no_cut ev h e.
  Proof. intros [_ N] y Hy. rewrite N in Hy. destruct Hy. Qed.

  Lemma ff_cut es ea eb er s a b r L : real_er es s -> real_er ea a -> real_er eb b -> real_er er r ->
    0 < s -> L = 0%Z \/ 0 <= rbreakup s a b -> no_cut ev h (CFormFactor es ea eb L er).
  Proof.
    intros [Es Ns] [Ea Na] [Eb Nb] [Er Nr] S0 Q x. cbn [radicands]. rewrite Ns, Na, Nb, Nr. cbn [app In].
    intros [<-|[]]. rewrite Es, Ea, Eb, Er, breakup_real, <- !RtoC_mult. set (z := rbreakup s a b * (r * r)).
    unfold blatt_weisskopf_squared.
    assert (P : exists y, 0 < y /\ bw_poly (Z.to_nat L) (RtoC z) = RtoC y /\ 0 <= z ^ Z.to_nat L).
    { destruct Q as [->|Q].
      - exists (bw_coeff 0 0). split; [apply bw_coeff_pos|]. cbn [Z.to_nat pow]. split; [|lra].
        unfold bw_poly. cbn [seq Csum cpow]. rewrite Cplus_0_r, Cmult_1_r. reflexivity.
      - assert (Z0 : 0 <= z) by (apply Rmult_le_pos; [auto|]; pose proof (Rle_0_sqr r); unfold Rsqr in *; lra).
        destruct (bw_poly_pos (Z.to_nat L) z Z0) as (y & Y & E). exists y. split; auto. split; auto. apply pow_le, Z0. }
    destruct P as (y & Y & -> & Zn). destruct (bw_poly_pos (Z.to_nat L) 1 ltac:(lra)) as (p1 & P1 & ->).
    unfold Cdiv. rewrite cpow_real, Cinv_RtoC, <- !RtoC_mult. apply nonneg_cut.
    pose proof (Rinv_0_lt_compat _ Y). apply Rmult_le_pos; [apply Rmult_le_pos|]; lra.
  Qed.
  Lemma phsp_cut es ea eb s a b : real_er es s -> real_er ea a -> real_er eb b -> 0 < s -> 0 <= rbreakup s a b ->
    no_cut ev h (phase_space_factor es ea eb).
  Proof.
    intros [Es Ns] [Ea Na] [Eb Nb] S0 Q x. unfold phase_space_factor. cbn [radicands]. rewrite Ns, Na, Nb. cbn [app In].
    intros [<-|[<-|[]]].
    - rewrite Es, Ea, Eb, breakup_real. apply nonneg_cut, Q.
    - rewrite Es. apply nonneg_cut. lra.
  Qed.
  Lemma width_cut es em eG ea eb er s m G a b r L : real_er es s -> real_er em m -> real_er eG G ->
    real_er ea a -> real_er eb b -> real_er er r ->
    0 <= a -> 0 <= b -> (a + b) * (a + b) < s -> a + b < m ->
    no_cut ev h (energy_dependent_width es em eG ea eb L er phase_space_factor).
  Proof.
    intros Hs Hm HG Ha Hb Hr A0 B0 S M. unfold energy_dependent_width. pose proof (real_er_sqr _ _ Hm) as Hm2.
    assert (M2 : (a + b) * (a + b) < m * m) by nra.
    assert (S0 : 0 < s) by nra. assert (MM : 0 < m * m) by nra.
    assert (Q1 : 0 <= rbreakup s a b) by (apply rbreakup_sign; lra).
    assert (Q2 : 0 <= rbreakup (m * m) a b) by (apply rbreakup_sign; lra).
    apply rad_mul; [apply rad_mul|]; [eapply rad_real; eauto| |].
    - apply rad_div.
      + exact (ff_cut es ea eb er s a b r L Hs Ha Hb Hr S0 (or_intror Q1)).
      + exact (ff_cut (CSqr em) ea eb er (m * m) a b r L Hm2 Ha Hb Hr MM (or_intror Q2)).
    - apply rad_div.
      + exact (phsp_cut es ea eb s a b Hs Ha Hb S0 Q1).
      + exact (phsp_cut (CSqr em) ea eb (m * m) a b Hm2 Ha Hb MM Q2).
  Qed.
  Lemma relativistic_cut es em eG ea eb er s m G a b r L : real_er es s -> real_er em m -> real_er eG G ->
    real_er ea a -> real_er eb b -> real_er er r ->
    0 <= a -> 0 <= b -> (a + b) * (a + b) < s -> a + b < m ->
    no_cut ev h (relativistic_breit_wigner es em eG ea eb L er phase_space_factor).
  Proof.
    intros Hs Hm HG Ha Hb Hr A0 B0 S M. unfold relativistic_breit_wigner.
    pose proof (width_cut es em eG ea eb er s m G a b r L Hs Hm HG Ha Hb Hr A0 B0 S M) as W.
    pose proof (rad_real _ _ Hm) as Nm. pose proof (rad_real _ _ HG) as NG. pose proof (rad_real _ _ Hs) as Ns.
    pose proof (rad_real _ _ (real_er_sqr _ _ Hm)) as Nm2.
    apply rad_div; [apply rad_mul; auto|]. apply rad_sub; [apply rad_sub; auto|].
    apply rad_mul; [|intros x []]. apply rad_mul; auto.
  Qed.
  Lemma simple_cut es em eG s m G : real_er es s -> real_er em m -> real_er eG G ->
    no_cut ev h (simple_breit_wigner es em eG).
  Proof.
    intros Hs Hm HG x. unfold simple_breit_wigner, CNum.
    cbn [radicands In]. rewrite (proj2 Hs), (proj2 Hm), (proj2 HG). intros [].
  Qed.
End Radicands.

Lemma bw_cut w c p0 r a b k i j e ev base h : bw_phsp_factor w = phase_space_factor ->
  isobar_chain c p0 r a b k i j -> bw_call w c = Ok e ->
  (forall x, sassume x = ANonneg -> e_sym ev x = base x) ->
  real_parameters base p0 r a b k -> between_masses base p0 r a b k ->
  physical (fun x => Re (base x)) -> nonsingular (fun x => Re (base x)) ->
  (bw_decay_form_factor w = true -> orbital j = 0%Z \/
      (Re (base (outer_mass a)) + Re (base (outer_mass b))) * (Re (base (outer_mass a)) + Re (base (outer_mass b)))
       <= Re (base (sigma_of k)) * Re (base (sigma_of k))) ->
  no_cut ev h (de_expr e).
Proof.
  intros Ph Iso E Ev Rp (M0 & G0 & R0 & Bt & Pt) Phy Ns Dff.
  destruct (bw_ok_inv _ _ _ _ _ _ _ _ _ _ Iso E) as [H1 H2]. destruct Iso as (Hc & I0 & P).
  destruct (chain_thresholds base p0 a b k I0 P Phy Ns) as (T0 & Ta & Tb & Tk & Ts).
  destruct (bw_call_spec w p0 r a b k i j I0 P c Hc) as [_ B]. destruct (B H1 H2) as (y & fp & E' & _ & Hp & Ex).
  rewrite E in E'. inversion E'; subst y. cbv zeta in Ex. rewrite Ex. clear Ex E' B.
  assert (V : forall y, In y [sigma_of k; outer_mass p0; outer_mass a; outer_mass b; outer_mass k;
                  resonance_mass r; resonance_width r; resonance_radius; parent_radius p0] -> real_er ev h (CVar y) (Re (base y))).
  { intros y Hy. split; [|reflexivity]. cbn [ceval]. rewrite <- (Rp y Hy). apply Ev.
    cbn [In] in Hy. repeat destruct Hy as [<-|Hy]; try reflexivity. destruct Hy. }
  assert (S0 : 0 < Re (base (sigma_of k))) by nra.
  assert (FP : no_cut ev h fp).
  { destruct Hp as [[_ ->]|[_ ->]].
    - apply (ff_cut ev h _ _ _ _ _ _ _ _ (orbital i) (real_er_sqr ev h _ _ (V (outer_mass p0) ltac:(cbn; tauto)))
        (V (resonance_mass r) ltac:(cbn; tauto)) (V (outer_mass k) ltac:(cbn; tauto)) (V (parent_radius p0) ltac:(cbn; tauto))).
      + nra.
      + right. apply rbreakup_sign; try lra; nra.
    - apply (ff_cut ev h _ _ _ _ _ _ _ _ (orbital i) (real_er_sqr ev h _ _ (V (outer_mass p0) ltac:(cbn; tauto)))
        (V (outer_mass k) ltac:(cbn; tauto)) (V (resonance_mass r) ltac:(cbn; tauto)) (V (parent_radius p0) ltac:(cbn; tauto))).
      + nra.
      + right. apply rbreakup_sign; try lra; nra. }
  assert (BW : no_cut ev h (if bw_energy_dependent_width w then bw_expr r a b (sigma_of k) (orbital j) (bw_phsp_factor w)
       else simple_breit_wigner (CVar (sigma_of k)) (CVar (resonance_mass r)) (CVar (resonance_width r)))).
  { destruct (bw_energy_dependent_width w).
    - rewrite Ph. unfold bw_expr.
      apply (relativistic_cut ev h _ _ _ _ _ _ _ _ _ _ _ _ (orbital j) (V (sigma_of k) ltac:(cbn; tauto)) (V (resonance_mass r) ltac:(cbn; tauto))
        (V (resonance_width r) ltac:(cbn; tauto)) (V (outer_mass a) ltac:(cbn; tauto)) (V (outer_mass b) ltac:(cbn; tauto))
        (V resonance_radius ltac:(cbn; tauto))); auto.
    - apply (simple_cut ev h _ _ _ _ _ _ (V (sigma_of k) ltac:(cbn; tauto)) (V (resonance_mass r) ltac:(cbn; tauto))
        (V (resonance_width r) ltac:(cbn; tauto))); auto. }
  set (e0 := if bw_energy_dependent_width w then _ else _) in *. clearbody e0.
  assert (DF : bw_decay_form_factor w = true -> no_cut ev h (CFormFactor (CSqr (CVar (sigma_of k))) (CVar (outer_mass a))
      (CVar (outer_mass b)) (orbital j) (CVar resonance_radius))).
  { intros W. apply (ff_cut ev h _ _ _ _ _ _ _ _ (orbital j) (real_er_sqr ev h _ _ (V (sigma_of k) ltac:(cbn; tauto)))
        (V (outer_mass a) ltac:(cbn; tauto)) (V (outer_mass b) ltac:(cbn; tauto)) (V resonance_radius ltac:(cbn; tauto))).
    - nra.
    - destruct (Dff W) as [D|D]; [auto|]. right. apply rbreakup_sign; auto. nra. }
  destruct (bw_production_form_factor w); destruct (bw_decay_form_factor w); repeat apply rad_mul; auto.
Qed.

(** ** Models *)
Section Limit.
  Context {T : Type} (F : (T -> Prop) -> Prop) {FF : Filter F}.
  Variables (base : T -> symbol -> C) (base0 : symbol -> C) (cpl : T -> string -> list ival -> C) (cpl0 : string -> list ival -> C).
  Hypothesis (LB : forall x, tends F (fun t => base t x) (base0 x)).

  Lemma point_tends (m : model) : (forall x e, dget x (m_variables m) = Some e -> real_valued (fun y => Re (base0 y)) e) ->
    forall x, tends F (fun t => e_sym (at_point (m_variables m) (base t) (cpl t)) x) (e_sym (at_point (m_variables m) base0 cpl0) x).
  Proof.
    intros R x. unfold at_point. cbn [e_sym]. destruct (dget x (m_variables m)) as [e|] eqn:G; [|apply LB].
    apply (t_real F). apply (rt_reval F e (fun t y => Re (base t y)) (fun y => Re (base0 y))); [intros y; apply LB|eauto].
  Qed.
End Limit.

Section Formulated.
  Context {T : Type} (F : (T -> Prop) -> Prop) {FF : Filter F}.
  Variables (base : T -> symbol -> C) (base0 : symbol -> C) (cpl : T -> string -> list ival -> C) (cpl0 : string -> list ival -> C).
  Hypothesis (LB : forall x, tends F (fun t => base t x) (base0 x)).
  Hypothesis (LC : forall n i, tends F (fun t => cpl t n i) (cpl0 n i)).
  Variables (b : builder) (s : Z -> state) (dyn : chain -> defexpr) (ref : option Z) (cl uc : bool) (m : model).
  Hypothesis (D : std_decay (b_decay b) s).
  Hypothesis (Dyn : dynamics_of b dyn).
  Hypothesis (PR : b_prod_helicity b = false -> plain_resonances (b_decay b)).
  Hypothesis (Fm : formulate b ref cl uc = Ok m).
  Hypothesis (Ph : physical (fun x => Re (base0 x))) (Ns : nonsingular (fun x => Re (base0 x))).

  Lemma variables_real_valued x e : dget x (m_variables m) = Some e -> real_valued (fun y => Re (base0 y)) e.
  Proof.
    intros G. destruct (c17 _ Ph Ns) as (C1 & _ & C3).
    destruct (formulate_inv b s D _ _ _ _ Fm)
      as (r & ks & terms & zdefs & amps & vars & params & masses & inv & Hr & _).
    assert (K : In x (dkeys (m_variables m))) by (apply dget_In; eauto).
    apply (variable_names b s D _ _ _ _ r Fm Hr) in K.
    destruct K as [(i & j & k & Cy & -> & Hk)|(i & k & Hi & Hk & Sp & ->)].
    - destruct (tuples s) as [|l ls] eqn:Et; [destruct (OccFacts.tuples_nonempty _ s D Et)|].
      assert (Hl : helicity_tuple s l) by (apply tuples_In; rewrite Et; left; reflexivity).
      destruct (amplitude_formula b s D dyn ref cl uc m Dyn PR Fm l i j k Hl Cy) as (_ & (th & Fth & Gth) & _).
      { destruct (b_all_subsystems b); auto. }
      rewrite G in Gth. inversion Gth; subst th. exact (C1 _ _ _ _ Fth).
    - destruct (zeta_variable b s D _ _ _ _ r Fm Hr i k Hi Hk Sp) as (z & Fz & Gz).
      rewrite G in Gz. inversion Gz; subst z. exact (C3 _ _ _ _ _ Fz).
  Qed.
  Let ev t := at_point (m_variables m) (base t) (cpl t).
  Let ev0 := at_point (m_variables m) base0 cpl0.
  Hypothesis (LX : forall c, In c (d_chains (b_decay b)) ->
    tends F (fun t => ceval (ev t) (fun _ => 0%Z) (de_expr (dyn c))) (ceval ev0 (fun _ => 0%Z) (de_expr (dyn c)))).

  Lemma sym_tends x : tends F (fun t => e_sym (ev t) x) (e_sym ev0 x).
  Proof. apply point_tends; auto. apply variables_real_valued. Qed.
  Lemma amp_tends k l i j : helicity_tuple s l -> cyclic i j k ->
    (b_all_subsystems b = true \/ In k (get_subsystem_ids (b_decay b))) ->
    tends F (fun t => amp_value (ev t) m k l) (amp_value ev0 m k l).
  Proof.
    intros Hl Cy Hk. destruct (amplitude_formula b s D dyn ref cl uc m Dyn PR Fm l i j k Hl Cy Hk) as (_ & _ & A).
    apply (t_ext F _ _ _ _ (fun t => eq_sym (A (ev t))) (eq_sym (A ev0))). unfold dpd_amplitude.
    apply (t_sum F). intros c Hc. apply filter_In in Hc. apply (t_sum F). intros r _.
    destruct (at4 l 0 =? r - at4 l k)%Z; [|apply (t_const F)].
    assert (X := LX c (proj1 Hc)). assert (Th := rt_wigner F (p_spin (ch_resonance c)) r (at4 l i - at4 l j) _ _ (proj1 (sym_tends (theta_name i j)))).
    assert (S : tends F (fun t => (if uc then coefficient else coupling_product) (ev t) (b_prod_helicity b) (b_dec_helicity b)
                        c r (at4 l k) (at4 l i) (at4 l j)) ((if uc then coefficient else coupling_product) ev0 (b_prod_helicity b) (b_dec_helicity b)
                        c r (at4 l k) (at4 l i) (at4 l j))).
    { destruct uc; [apply LC|]. unfold coupling_product. apply (t_mult F); apply LC. }
    apply (t_mult F); [apply (t_mult F); [apply (t_mult F); [apply (t_mult F); [apply (t_const F)|exact X]|exact (t_real F _ _ Th)]|exact S]|apply (t_const F)].
  Qed.
  Theorem c113_formulated : tends F (fun t => full_value (ev t) m) (full_value ev0 m).
  Proof.
    destruct (intensity_formula b s D _ _ _ _ Fm) as (r & ks & Hr & Hks & I).
    apply (t_ext F _ _ _ _ (fun t => eq_sym (I (ev t))) (eq_sym (I ev0))). apply (t_real F). unfold intensity_value.
    apply (rt_sum F). intros l _. apply (rt_pow F), (t_cmod F). unfold aligned_amplitude. apply (t_sum F). intros l' Hl'. apply (t_sum F). intros k Hk.
    apply (t_mult F).
    - assert (Hk' : In k (get_subsystem_ids (b_decay b))) by (apply (ids_123 b ks k Hks); auto).
      destruct (cyclic_ex k (ids_range b s D k Hk')) as (i & j & Cy). apply (amp_tends k l' i j); auto. apply tuples_In; auto.
    - apply (t_real F). unfold alignment. repeat apply (rt_mult F); apply (rt_wigner F); exact (proj1 (sym_tends _)).
  Qed.
End Formulated.

Section Regular.
  Context {T : Type} (F : (T -> Prop) -> Prop) {FF : Filter F}.
  Variables (b : builder) (s : Z -> state) (dyn : chain -> defexpr) (ref : option Z) (cl uc : bool) (m : model).
  Variables (base : T -> symbol -> C) (base0 : symbol -> C) (cpl : T -> string -> list ival -> C) (cpl0 : string -> list ival -> C).
  Hypothesis (D : std_decay (b_decay b) s).
  Hypothesis (Dyn : dynamics_of b dyn).
  Hypothesis (PR : b_prod_helicity b = false -> plain_resonances (b_decay b)).
  Hypothesis (Fm : formulate b ref cl uc = Ok m).
  Hypothesis (Ph : physical (fun x => Re (base0 x))) (Ns : nonsingular (fun x => Re (base0 x))).
  Hypothesis (LB : forall x, tends F (fun t => base t x) (base0 x)).
  Hypothesis (LC : forall n i, tends F (fun t => cpl t n i) (cpl0 n i)).

  Lemma lineshape_env c : In c (d_chains (b_decay b)) -> forall base cpl,
    ceval (at_point (m_variables m) base cpl) (fun _ => 0%Z) (de_expr (dyn c)) = ceval (Env base cpl) (fun _ => 0%Z) (de_expr (dyn c)).
  Proof.
    intros Hc bs cp. destruct (Dyn c Hc) as [_ Ls]. apply lineshape_eval; auto.
    intros x Hx. unfold at_point. cbn [e_sym]. destruct (dget x (m_variables m)) as [v|] eqn:Gy; [|reflexivity].
    assert (K : In x (dkeys (m_variables m))) by (apply dget_In; eauto).
    apply (variables_real b s D _ _ _ _ Fm) in K. congruence.
  Qed.
  Theorem c113 : (forall c, In c (d_chains (b_decay b)) ->
      tends F (fun t => ceval (Env (base t) (cpl t)) (fun _ => 0%Z) (de_expr (dyn c))) (ceval (Env base0 cpl0) (fun _ => 0%Z) (de_expr (dyn c)))) ->
    tends F (fun t => full_value (at_point (m_variables m) (base t) (cpl t)) m) (full_value (at_point (m_variables m) base0 cpl0) m).
  Proof.
    intros LX. apply (c113_formulated F base base0 cpl cpl0 LB LC b s dyn ref cl uc m D Dyn PR Fm Ph Ns).
    intros c Hc. exact (t_ext F _ _ _ _ (fun t => eq_sym (lineshape_env c Hc _ _)) (eq_sym (lineshape_env c Hc _ _)) (LX c Hc)).
  Qed.
  Theorem c113_bw : regular_dynamics (b_decay b) dyn base0 -> decay_form_factors_regular (b_decay b) dyn base0 ->
    tends F (fun t => full_value (at_point (m_variables m) (base t) (cpl t)) m) (full_value (at_point (m_variables m) base0 cpl0) m).
  Proof.
    intros Rg Df. apply c113. intros c Hc.
    assert (H : (forall x, In x (divisors (Env base0 cpl0) (fun _ => 0%Z) (de_expr (dyn c))) -> x <> RtoC 0) /\
      no_cut (Env base0 cpl0) (fun _ => 0%Z) (de_expr (dyn c))).
    { destruct (Rg c Hc) as [E|(w & Phw & E & (p0 & r & a & b' & k' & i & j & Iso & Rp & Bt))].
      - rewrite E. split; intros x [].
      - split.
        + apply (bw_divisors w c p0 r a b' k' i j _ _ base0 (fun _ => 0%Z) Phw Iso E); eauto.
        + apply (bw_cut w c p0 r a b' k' i j _ _ base0 (fun _ => 0%Z) Phw Iso E); eauto. }
    destruct H as [H1 H2]. exact (ceval_tends F _ (fun t => Env (base t) (cpl t)) (Env base0 cpl0) LB LC (fun _ => 0%Z) H1 H2).
  Qed.
End Regular.

(** A point that moves on the Dalitz plot *)
Lemma moving_point x :
  tends (locally 0) (fun t => RelabelShapeExamples.rb_base (RelabelExamples.id_env (72 + t) (24 - t)) x) (FiniteExamples.fe_base x).
Proof.
  unfold FiniteExamples.fe_base, RelabelShapeExamples.rb_base. destruct (existsb _ _); [|apply t_const; typeclasses eauto].
  assert (I : rtends (locally 0) (fun t => t) 0) by apply filterlim_id.
  apply (t_real (locally 0)). unfold RelabelExamples.id_env.
  destruct (eqb x (Sym "m0" ANonneg)); [apply (rt_const (locally 0))|].
  destruct (eqb x (Sym "sigma1" ANonneg)).
  - apply (rt_ext (locally 0) (fun t => 72 + t) _ (72 + 0)); [auto|lra|]. apply (rt_plus (locally 0)); auto. apply (rt_const (locally 0)).
  - destruct (eqb x (Sym "sigma2" ANonneg)); [|destruct (eqb x (Sym "sigma3" ANonneg)); apply (rt_const (locally 0))].
    apply (rt_ext (locally 0) (fun t => 24 - t) _ (24 - 0)); [auto|lra|]. apply (rt_minus (locally 0)); auto. apply (rt_const (locally 0)).
Qed.
