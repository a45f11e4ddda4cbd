(** The intensity has derivatives (proofs for C139) *)
From Coq Require Import String ZArith QArith Qcanon Qreals List Bool Reals Lia Lra Psatz Permutation.
From Coquelicot Require Import Coquelicot.
From Verif Require Import Prelude Spin Decay Expr Angles Sums Wigner CG CExpr SpecKin SpecDPD Builder SpecBuilder Dynamics
  SpecDynamics SpinFacts DecayFacts CExprFacts BuilderFacts ModelFacts RefFacts KinFacts AnglesProofs DynamicsProofs LineshapeFacts
  LineshapeProofs SpecFinite FiniteFacts FiniteShapes SpecContinuity ContinuityFacts ContinuityProofs SpecWigner MasslessFacts
  SpecSmooth SmoothFacts SmoothAngles.
From Verif Require RelabelExamples RelabelShapeExamples FiniteExamples.
Import ListNotations.
Local Open Scope R_scope.

Local Opaque rsmooth_at.

(** ** Roots in Breit-Wigner lineshapes *)
Section Radicands.
  Variables (ev : env) (h : symbol -> Z).
  Notation real_er := (real_er ev h).
  Notation nb := (no_branch_point ev h).
  Lemma pos_branch x : 0 < x -> ~ on_cut (RtoC x) /\ RtoC x <> RtoC 0.
  Proof. intros H. split; [apply nonneg_cut; lra|]. intros E. apply RtoC_inj in E. lra. Qed.
  Lemma nb_mul a b : nb a -> nb b -> nb (CMul a b).
  Proof. intros A B x Hx. apply in_app_or in Hx. destruct Hx; auto. Qed.
  Lemma nb_sub a b : nb a -> nb b -> nb (CSub a b).
  Proof. intros A B x Hx. apply in_app_or in Hx. destruct Hx; auto. Qed.
  Lemma nb_div a b : nb a -> nb b -> nb (CDiv a b).
  Proof. intros A B x Hx. apply in_app_or in Hx. destruct Hx; auto. Qed.
  Lemma nb_real e x : real_er e x -> nb e.
  Proof. intros [_ N] y Hy. rewrite N in Hy. destruct Hy. Qed.

  Lemma ff_branch es ea eb er s a b r L : real_er es s -> real_er ea a -> real_er eb b -> real_er er r ->
    0 < s -> L = 0%Z \/ (0 < rbreakup s a b /\ r <> 0) -> nb (CFormFactor es ea eb L er).
  Proof.
    intros [Es Ns] [Ea Na] [Eb Nb] [Er Nr] S0 Q x. cbn [radicands]. rewrite Ns, Na, Nb, Nr. cbn [app In].
    intros [<-|[]]. rewrite Es, Ea, Eb, Er, breakup_real, <- !RtoC_mult. set (z := rbreakup s a b * (r * r)).
    unfold blatt_weisskopf_squared.
    assert (P : exists y, 0 < y /\ bw_poly (Z.to_nat L) (RtoC z) = RtoC y /\ 0 < z ^ Z.to_nat L).
    { destruct Q as [->|[Q R0]].
      - exists (bw_coeff 0 0). split; [apply bw_coeff_pos|]. cbn [Z.to_nat pow]. split; [|lra].
        unfold bw_poly. cbn [seq Csum cpow]. rewrite Cplus_0_r, Cmult_1_r. reflexivity.
      - assert (Z0 : 0 < z) by (apply Rmult_lt_0_compat; [auto|]; pose proof (Rsqr_pos_lt r R0); unfold Rsqr in *; lra).
        destruct (bw_poly_pos (Z.to_nat L) z (Rlt_le _ _ Z0)) as (y & Y & E). exists y. split; auto. split; auto. apply pow_lt, Z0. }
    destruct P as (y & Y & -> & Zn). destruct (bw_poly_pos (Z.to_nat L) 1 ltac:(lra)) as (p1 & P1 & ->).
    unfold Cdiv. rewrite cpow_real, Cinv_RtoC, <- !RtoC_mult. apply pos_branch.
    pose proof (Rinv_0_lt_compat _ Y). apply Rmult_lt_0_compat; [apply Rmult_lt_0_compat|]; lra.
  Qed.
  Lemma phsp_branch es ea eb s a b : real_er es s -> real_er ea a -> real_er eb b -> 0 < s -> 0 < rbreakup s a b ->
    nb (phase_space_factor es ea eb).
  Proof.
    intros [Es Ns] [Ea Na] [Eb Nb] S0 Q x. unfold phase_space_factor. cbn [radicands]. rewrite Ns, Na, Nb. cbn [app In].
    intros [<-|[<-|[]]].
    - rewrite Es, Ea, Eb, breakup_real. apply pos_branch, Q.
    - rewrite Es. apply pos_branch. lra.
  Qed.
  Lemma rbreakup_strict s a b : 0 <= a -> 0 <= b -> (a + b) * (a + b) < s -> 0 < rbreakup s a b.
  Proof.
    intros A B S. assert (S0 : 0 < s) by nra. unfold rbreakup. apply Rdiv_lt_0_compat; [|lra].
    apply Rmult_lt_0_compat; [lra|]. nra.
  Qed.
  Lemma width_branch es em eG ea eb er s m G a b r L : real_er es s -> real_er em m -> real_er eG G ->
    real_er ea a -> real_er eb b -> real_er er r -> r <> 0 ->
    0 <= a -> 0 <= b -> (a + b) * (a + b) < s -> a + b < m ->
    nb (energy_dependent_width es em eG ea eb L er phase_space_factor).
  Proof.
    intros Hs Hm HG Ha Hb Hr R0 A0 B0 S M. unfold energy_dependent_width. pose proof (real_er_sqr _ _ _ _ Hm) as Hm2.
    assert (M2 : (a + b) * (a + b) < m * m) by nra.
    assert (S0 : 0 < s) by nra. assert (MM : 0 < m * m) by nra.
    pose proof (rbreakup_strict s a b A0 B0 S) as Q1. pose proof (rbreakup_strict (m * m) a b A0 B0 M2) as Q2.
    apply nb_mul; [apply nb_mul|]; [eapply nb_real; eauto| |].
    - apply nb_div.
      + exact (ff_branch es ea eb er s a b r L Hs Ha Hb Hr S0 (or_intror (conj Q1 R0))).
      + exact (ff_branch (CSqr em) ea eb er (m * m) a b r L Hm2 Ha Hb Hr MM (or_intror (conj Q2 R0))).
    - apply nb_div.
      + exact (phsp_branch es ea eb s a b Hs Ha Hb S0 Q1).
      + exact (phsp_branch (CSqr em) ea eb (m * m) a b Hm2 Ha Hb MM Q2).
  Qed.
  Lemma relativistic_branch es em eG ea eb er s m G a b r L : real_er es s -> real_er em m -> real_er eG G ->
    real_er ea a -> real_er eb b -> real_er er r -> r <> 0 ->
    0 <= a -> 0 <= b -> (a + b) * (a + b) < s -> a + b < m ->
    nb (relativistic_breit_wigner es em eG ea eb L er phase_space_factor).
  Proof.
    intros Hs Hm HG Ha Hb Hr R0 A0 B0 S M. unfold relativistic_breit_wigner.
    pose proof (width_branch es em eG ea eb er s m G a b r L Hs Hm HG Ha Hb Hr R0 A0 B0 S M) as W.
    pose proof (nb_real _ _ Hm) as Nm. pose proof (nb_real _ _ HG) as NG. pose proof (nb_real _ _ Hs) as Ns.
    pose proof (nb_real _ _ (real_er_sqr _ _ _ _ Hm)) as Nm2.
    apply nb_div; [apply nb_mul; auto|]. apply nb_sub; [apply nb_sub; auto|].
    apply nb_mul; [|intros x []]. apply nb_mul; auto.
  Qed.
  Lemma simple_branch es em eG s m G : real_er es s -> real_er em m -> real_er eG G ->
    nb (simple_breit_wigner es em eG).
  Proof.
    intros Hs Hm HG x. unfold simple_breit_wigner, CNum.
    cbn [radicands In]. rewrite (proj2 Hs), (proj2 Hm), (proj2 HG). intros [].
  Qed.
End Radicands.

Lemma bw_branch w c p0 r a b k i j e ev base h : bw_phsp_factor w = phase_space_factor ->
  isobar_chain c p0 r a b k i j -> bw_call w c = Ok e ->
  (forall x, sassume x = ANonneg -> e_sym ev x = base x) ->
  real_parameters base p0 r a b k -> between_masses base p0 r a b k ->
  physical (fun x => Re (base x)) -> nonsingular (fun x => Re (base x)) ->
  (bw_production_form_factor w = true -> orbital i = 0%Z \/
     (Re (base (parent_radius p0)) <> 0 /\
      Re (base (resonance_mass r)) + Re (base (outer_mass k)) < Re (base (outer_mass p0)))) ->
  (bw_decay_form_factor w = true -> orbital j = 0%Z \/
      (Re (base (outer_mass a)) + Re (base (outer_mass b))) * (Re (base (outer_mass a)) + Re (base (outer_mass b)))
       < Re (base (sigma_of k)) * Re (base (sigma_of k))) ->
  no_branch_point ev h (de_expr e).
Proof.
  intros Ph Iso E Ev Rp (M0 & G0 & R0 & Bt & Pt) Phy Ns Pff Dff.
  destruct (bw_ok_inv _ _ _ _ _ _ _ _ _ _ Iso E) as [H1 H2]. destruct Iso as (Hc & I0 & P).
  destruct (chain_thresholds base p0 a b k I0 P Phy Ns) as (T0 & Ta & Tb & Tk & Ts).
  destruct (bw_call_spec w p0 r a b k i j I0 P c Hc) as [_ B]. destruct (B H1 H2) as (y & fp & E' & _ & Hp & Ex).
  rewrite E in E'. inversion E'; subst y. cbv zeta in Ex. rewrite Ex. clear Ex E' B.
  assert (V : forall y, In y [sigma_of k; outer_mass p0; outer_mass a; outer_mass b; outer_mass k;
                  resonance_mass r; resonance_width r; resonance_radius; parent_radius p0] -> real_er ev h (CVar y) (Re (base y))).
  { intros y Hy. split; [|reflexivity]. cbn [ceval]. rewrite <- (Rp y Hy). apply Ev.
    cbn [In] in Hy. repeat destruct Hy as [<-|Hy]; try reflexivity. destruct Hy. }
  assert (S0 : 0 < Re (base (sigma_of k))) by nra.
  assert (Pm : orbital i = 0%Z \/ (Re (base (parent_radius p0)) <> 0 /\
      Re (base (resonance_mass r)) + Re (base (outer_mass k)) < Re (base (outer_mass p0))) ->
      orbital i = 0%Z \/ (Re (base (parent_radius p0)) <> 0 /\
      (Re (base (resonance_mass r)) + Re (base (outer_mass k))) * (Re (base (resonance_mass r)) + Re (base (outer_mass k)))
       < Re (base (outer_mass p0)) * Re (base (outer_mass p0)))).
  { intros [X|[X Y]]; [left; exact X|right; split; [exact X|]]. clear -M0 Tk Y. nra. }
  assert (FP : bw_production_form_factor w = true -> no_branch_point ev h fp).
  { intros W. specialize (Pm (Pff W)). destruct Hp as [[_ ->]|[_ ->]].
    - apply (ff_branch ev h _ _ _ _ _ _ _ _ (orbital i) (real_er_sqr ev h _ _ (V (outer_mass p0) ltac:(cbn; tauto)))
        (V (resonance_mass r) ltac:(cbn; tauto)) (V (outer_mass k) ltac:(cbn; tauto)) (V (parent_radius p0) ltac:(cbn; tauto))).
      + nra.
      + destruct Pm as [X|[X Y]]; [left; exact X|right; split; [|exact X]]. apply rbreakup_strict; auto; lra.
    - apply (ff_branch ev h _ _ _ _ _ _ _ _ (orbital i) (real_er_sqr ev h _ _ (V (outer_mass p0) ltac:(cbn; tauto)))
        (V (outer_mass k) ltac:(cbn; tauto)) (V (resonance_mass r) ltac:(cbn; tauto)) (V (parent_radius p0) ltac:(cbn; tauto))).
      + nra.
      + destruct Pm as [X|[X Y]]; [left; exact X|right; split; [|exact X]]. apply rbreakup_strict; auto; [lra|].
        rewrite (Rplus_comm (Re (base (outer_mass k)))). exact Y. }
  assert (BW : no_branch_point ev h (if bw_energy_dependent_width w then bw_expr r a b (sigma_of k) (orbital j) (bw_phsp_factor w)
       else simple_breit_wigner (CVar (sigma_of k)) (CVar (resonance_mass r)) (CVar (resonance_width r)))).
  { destruct (bw_energy_dependent_width w).
    - rewrite Ph. unfold bw_expr.
      apply (relativistic_branch ev h _ _ _ _ _ _ _ _ _ _ _ _ (orbital j) (V (sigma_of k) ltac:(cbn; tauto)) (V (resonance_mass r) ltac:(cbn; tauto))
        (V (resonance_width r) ltac:(cbn; tauto)) (V (outer_mass a) ltac:(cbn; tauto)) (V (outer_mass b) ltac:(cbn; tauto))
        (V resonance_radius ltac:(cbn; tauto))); auto. lra.
    - apply (simple_branch ev h _ _ _ _ _ _ (V (sigma_of k) ltac:(cbn; tauto)) (V (resonance_mass r) ltac:(cbn; tauto))
        (V (resonance_width r) ltac:(cbn; tauto))); auto. }
  set (e0 := if bw_energy_dependent_width w then _ else _) in *. clearbody e0.
  assert (DF : bw_decay_form_factor w = true -> no_branch_point ev h (CFormFactor (CSqr (CVar (sigma_of k))) (CVar (outer_mass a))
      (CVar (outer_mass b)) (orbital j) (CVar resonance_radius))).
  { intros W. apply (ff_branch ev h _ _ _ _ _ _ _ _ (orbital j) (real_er_sqr ev h _ _ (V (sigma_of k) ltac:(cbn; tauto)))
        (V (outer_mass a) ltac:(cbn; tauto)) (V (outer_mass b) ltac:(cbn; tauto)) (V resonance_radius ltac:(cbn; tauto))).
    - nra.
    - destruct (Dff W) as [D|D]; [left; exact D|]. right. split; [apply rbreakup_strict; auto|lra]. }
  destruct (bw_production_form_factor w); destruct (bw_decay_form_factor w); repeat apply nb_mul; auto.
Qed.

(** ** Models *)
Section Formulated.
  Variable t0 : R.
  Variables (base : R -> symbol -> C) (cpl : R -> string -> list ival -> C).
  Hypothesis (LB : forall x, smooth_at t0 (fun t => base t x)).
  Hypothesis (LC : forall n i, smooth_at t0 (fun t => cpl t n i)).
  Variables (b : builder) (s : Z -> state) (dyn : chain -> defexpr) (ref : option Z) (cl uc : bool) (m : model).
  Hypothesis (D : std_decay (b_decay b) s).
  Hypothesis (Dyn : dynamics_of b dyn).
  Hypothesis (PR : b_prod_helicity b = false -> plain_resonances (b_decay b)).
  Hypothesis (Fm : formulate b ref cl uc = Ok m).
  Hypothesis (Ins : inside (fun x => Re (base t0 x))) (Ns : nonsingular (fun x => Re (base t0 x))).
  Hypothesis (MK : masses_kept s t0 (fun t x => Re (base t x))).

  Lemma variables_smooth x e : dget x (m_variables m) = Some e -> rsmooth_at t0 (fun t => reval (fun y => Re (base t y)) e).
  Proof.
    intros G. destruct (angles_smooth _ Ins Ns) as (C1 & C3).
    assert (RV : smooth_valued (fun y => Re (base t0 y)) e -> rsmooth_at t0 (fun t => reval (fun y => Re (base t y)) e)).
    { intros V. apply (rd_reval t0 e (fun t y => Re (base t y))); [exact (fun y => proj1 (LB y))|exact V]. }
    destruct (formulate_inv b s D _ _ _ _ Fm)
      as (r & ks & terms & zdefs & amps & vars & params & masses & inv & Hr & _).
    assert (K : In x (dkeys (m_variables m))) by (apply dget_In; eauto).
    apply (variable_names b s D _ _ _ _ r Fm Hr) in K.
    destruct K as [(i & j & k & Cy & -> & Hk)|(i & k & Hi & Hk & Sp & ->)].
    - destruct (tuples s) as [|l ls] eqn:Et; [destruct (OccFacts.tuples_nonempty _ s D Et)|].
      assert (Hl : helicity_tuple s l) by (apply tuples_In; rewrite Et; left; reflexivity).
      destruct (amplitude_formula b s D dyn ref cl uc m Dyn PR Fm l i j k Hl Cy) as (_ & (th & Fth & Gth) & _).
      { destruct (b_all_subsystems b); auto. }
      rewrite G in Gth. inversion Gth; subst th. exact (RV (C1 _ _ _ _ Fth)).
    - destruct (zeta_variable b s D _ _ _ _ r Fm Hr i k Hi Hk Sp) as (z & Fz & Gz).
      rewrite G in Gz. inversion Gz; subst z.
      assert (Hi' : i = 0%Z \/ (1 <= i <= 3)%Z) by (cbn [In] in Hi; lia).
      destruct Hi' as [I0|Hi']; [exact (RV (C3 _ _ _ _ _ (or_introl I0) Fz))|].
      destruct (MK i Hi' Sp) as [M|M]; [exact (RV (C3 _ _ _ _ _ (or_intror M) Fz))|].
      apply (rd_ext_loc t0 (fun _ => 0)); [|apply rd_const].
      revert M. apply filter_imp. intros t (M & P & N). symmetry.
      destruct (ok_zeta_ids _ _ _ _ _ Fz) as [[(E & _)|(_ & Hj & Hk')]|E]; [lia| |subst e; cbn; reflexivity || (rewrite Q2R_0; reflexivity)].
      exact (c135_angles _ i k r _ _ P N Hi' Hj Hk' M Fz).
  Qed.
  Let ev t := at_point (m_variables m) (base t) (cpl t).
  Lemma sym_smooth x : smooth_at t0 (fun t => e_sym (ev t) x).
  Proof.
    unfold ev, at_point. cbn [e_sym]. destruct (dget x (m_variables m)) as [e|] eqn:G; [|apply LB].
    exact (cd_real t0 _ (variables_smooth x e G)).
  Qed.
  Hypothesis (LX : forall c, In c (d_chains (b_decay b)) -> smooth_at t0 (fun t => ceval (ev t) (fun _ => 0%Z) (de_expr (dyn c)))).

  Lemma amp_smooth k l i j : helicity_tuple s l -> cyclic i j k ->
    (b_all_subsystems b = true \/ In k (get_subsystem_ids (b_decay b))) ->
    smooth_at t0 (fun t => amp_value (ev t) m k l).
  Proof.
    intros Hl Cy Hk. destruct (amplitude_formula b s D dyn ref cl uc m Dyn PR Fm l i j k Hl Cy Hk) as (_ & _ & A).
    apply (cd_ext t0 _ _ (fun t => eq_sym (A (ev t)))). unfold dpd_amplitude.
    apply (cd_sum t0). intros c Hc. apply filter_In in Hc. apply (cd_sum t0). intros r _.
    destruct (at4 l 0 =? r - at4 l k)%Z; [|apply (cd_const t0)].
    assert (X := LX c (proj1 Hc)). assert (Th := rd_wigner t0 (p_spin (ch_resonance c)) r (at4 l i - at4 l j) _ (proj1 (sym_smooth (theta_name i j)))).
    assert (S : smooth_at t0 (fun t => (if uc then coefficient else coupling_product) (ev t) (b_prod_helicity b) (b_dec_helicity b)
                        c r (at4 l k) (at4 l i) (at4 l j))).
    { destruct uc; [apply LC|]. unfold coupling_product. apply (cd_mult t0); apply LC. }
    apply (cd_mult t0); [apply (cd_mult t0); [apply (cd_mult t0); [apply (cd_mult t0); [apply (cd_const t0)|exact X]|exact (cd_real t0 _ Th)]|exact S]|apply (cd_const t0)].
  Qed.
  Theorem c139_formulated : smooth_at t0 (fun t => full_value (ev t) m).
  Proof.
    destruct (intensity_formula b s D _ _ _ _ Fm) as (r & ks & Hr & Hks & I).
    apply (cd_ext t0 _ _ (fun t => eq_sym (I (ev t)))). apply (cd_real t0). unfold intensity_value.
    apply (rd_sum t0). intros l _. apply (cd_abs2 t0). unfold aligned_amplitude. apply (cd_sum t0). intros l' Hl'. apply (cd_sum t0). intros k Hk.
    apply (cd_mult t0).
    - assert (Hk' : In k (get_subsystem_ids (b_decay b))) by (apply (ids_123 b ks k Hks); auto).
      destruct (cyclic_ex k (ids_range b s D k Hk')) as (i & j & Cy). apply (amp_smooth k l' i j); auto. apply tuples_In; auto.
    - apply (cd_real t0). unfold alignment. repeat apply (rd_mult t0); apply (rd_wigner t0); exact (proj1 (sym_smooth _)).
  Qed.
End Formulated.

Section Regular.
  Variable t0 : R.
  Variables (b : builder) (s : Z -> state) (dyn : chain -> defexpr) (ref : option Z) (cl uc : bool) (m : model).
  Variables (base : R -> symbol -> C) (cpl : R -> string -> list ival -> C).
  Hypothesis (D : std_decay (b_decay b) s).
  Hypothesis (Dyn : dynamics_of b dyn).
  Hypothesis (PR : b_prod_helicity b = false -> plain_resonances (b_decay b)).
  Hypothesis (Fm : formulate b ref cl uc = Ok m).
  Hypothesis (Ins : inside (fun x => Re (base t0 x))) (Ns : nonsingular (fun x => Re (base t0 x))).
  Hypothesis (MK : masses_kept s t0 (fun t x => Re (base t x))).
  Hypothesis (LB : forall x, smooth_at t0 (fun t => base t x)).
  Hypothesis (LC : forall n i, smooth_at t0 (fun t => cpl t n i)).

  Theorem c139 : (forall c, In c (d_chains (b_decay b)) ->
      smooth_at t0 (fun t => ceval (Env (base t) (cpl t)) (fun _ => 0%Z) (de_expr (dyn c)))) ->
    smooth_at t0 (fun t => full_value (at_point (m_variables m) (base t) (cpl t)) m).
  Proof.
    intros LX. apply (c139_formulated t0 base cpl LB LC b s dyn ref cl uc m D Dyn PR Fm Ins Ns MK).
    intros c Hc. exact (cd_ext t0 _ _ (fun t => eq_sym (lineshape_env b s dyn ref cl uc m D Dyn Fm c Hc _ _)) (LX c Hc)).
  Qed.
  Theorem c139_bw : smooth_dynamics (b_decay b) dyn (base t0) ->
    smooth_at t0 (fun t => full_value (at_point (m_variables m) (base t) (cpl t)) m).
  Proof.
    intros Rg. apply c139. intros c Hc. pose proof (inside_physical _ Ins) as Ph.
    assert (H : (forall x, In x (divisors (Env (base t0) (cpl t0)) (fun _ => 0%Z) (de_expr (dyn c))) -> x <> RtoC 0) /\
      no_branch_point (Env (base t0) (cpl t0)) (fun _ => 0%Z) (de_expr (dyn c))).
    { destruct (Rg c Hc) as [E|(w & p0 & r & a & b' & k' & i & j & Phw & E & Iso & Rp & Bt & Pf & Df)].
      - rewrite E. split; intros x [].
      - split.
        + apply (bw_divisors w c p0 r a b' k' i j _ _ (base t0) (fun _ => 0%Z) Phw Iso E); auto.
          intros W. destruct (Df W) as [X|X]; [left; exact X|right; lra].
        + apply (bw_branch w c p0 r a b' k' i j _ _ (base t0) (fun _ => 0%Z) Phw Iso E); auto. }
    destruct H as [H1 H2]. exact (ceval_smooth t0 _ (fun t => Env (base t) (cpl t)) LB LC (fun _ => 0%Z) H1 H2).
  Qed.
End Regular.
