(** The intensity is bounded on the Dalitz plot (proofs for C141) *)
From Coq Require Import String ZArith QArith Qcanon Qreals List Bool Reals Lia Lra Psatz Permutation.
From Coquelicot Require Import Coquelicot.
From Verif Require Import Prelude Spin Decay Expr Angles Sums Wigner CG CExpr SpecKin SpecDPD Builder SpecBuilder Dynamics
  SpecDynamics SpinFacts DecayFacts CExprFacts BuilderFacts ModelFacts RefFacts KinFacts AnglesProofs DynamicsProofs LineshapeFacts
  LineshapeProofs SpecFinite FiniteFacts FiniteShapes SpecContinuity ContinuityFacts ContinuityProofs SpecBounded BoundedFacts
  SpecEnvelope EnvelopeFacts.
Import ListNotations.
Local Open Scope R_scope.

Lemma square_bounded {T} (P : T -> Prop) (f g : T -> R) (N : R) : 0 <= N -> (forall t, 0 <= g t) -> (forall t, f t <= N * g t ^ 2) ->
  (exists B, forall t, P t -> g t <= B) -> exists B, forall t, P t -> f t <= B.
Proof.
  intros N0 G Fg (B & HB). exists (N * B ^ 2). intros t Pt. eapply Rle_trans; [apply Fg|].
  apply Rmult_le_compat_l; auto. apply pow_incr. split; auto.
Qed.

Section General.
  Variables (b : builder) (s : Z -> state) (dyn : chain -> defexpr) (ref : option Z) (cl uc : bool) (m : model).
  Hypothesis (D : std_decay (b_decay b) s).
  Hypothesis (Dyn : dynamics_of b dyn).
  Hypothesis (PR : b_prod_helicity b = false -> plain_resonances (b_decay b)).
  Hypothesis (Fm : Builder.formulate b ref cl uc = Ok m).
  Variables (base : symbol -> C) (cpl : string -> list ival -> C).
  Let ev (t : R * R * R) := at_point (m_variables m) (at_sigmas base (fst (fst t)) (snd (fst t)) (snd t)) cpl.
  Lemma c141_sizes : (forall c, In c (d_chains (b_decay b)) -> exists B, 0 <= B /\ forall s1 s2 s3, on_dalitz_plot base s1 s2 s3 ->
      Cmod (ceval (Env (at_sigmas base s1 s2 s3) cpl) (fun _ => 0%Z) (de_expr (dyn c))) <= B) ->
    exists B, forall s1 s2 s3, on_dalitz_plot base s1 s2 s3 ->
      Re (full_value (at_point (m_variables m) (at_sigmas base s1 s2 s3) cpl) m) <= B.
  Proof.
    intros H. set (P := fun t : R * R * R => on_dalitz_plot base (fst (fst t)) (snd (fst t)) (snd t)).
    assert (E : exists B, forall t, P t -> Re (full_value (ev t) m) <= B).
    { apply (square_bounded P _ (fun t => Rsum (d_chains (b_decay b)) (chain_size (b_prod_helicity b) (b_dec_helicity b) s
        ((if uc then coefficient else coupling_product) (ev t) (b_prod_helicity b) (b_dec_helicity b))
        (fun c => ceval (ev t) (fun _ => 0%Z) (de_expr (dyn c))))) 1); [lra| | |].
      - intros t. apply sum_nonneg. intros c. unfold chain_size. apply Rmult_le_pos; [apply Cmod_ge_0|apply sqrt_pos].
      - intros t. rewrite Rmult_1_l. exact (c137_envelope b s D dyn ref cl uc m Dyn PR Fm (ev t)).
      - apply (sum_bounded P (fun c t => chain_size (b_prod_helicity b) (b_dec_helicity b) s
          ((if uc then coefficient else coupling_product) (ev t) (b_prod_helicity b) (b_dec_helicity b))
          (fun c => ceval (ev t) (fun _ => 0%Z) (de_expr (dyn c))) c)).
        intros c Hc. destruct (H c Hc) as (B & B0 & HB). eexists. intros [[s1 s2] s3] Pt. unfold chain_size.
        apply Rmult_le_compat; [apply Cmod_ge_0|apply sqrt_pos| |].
        + unfold ev. rewrite (lineshape_env b s dyn ref cl uc m D Dyn Fm c Hc). exact (HB s1 s2 s3 Pt).
        + apply Req_le. instantiate (1 := sqrt (Rsum (helicities (p_spin (ch_resonance c))) (fun r => Rsum (final_tuples s) (fun l =>
            Cmod (helicity_coupling (b_prod_helicity b) (b_dec_helicity b)
              ((if uc then coefficient else coupling_product) (ev (0, 0, 0)) (b_prod_helicity b) (b_dec_helicity b)) c r l) ^ 2)))).
          destruct uc; reflexivity. }
    destruct E as (B & HB). exists B. intros s1 s2 s3 Hs. exact (HB (s1, s2, s3) Hs).
  Qed.
  Theorem c141_general : (forall c, In c (d_chains (b_decay b)) -> own_sigma_only base cpl (st_index (ch_spectator c)) (de_expr (dyn c))) ->
    (forall c, In c (d_chains (b_decay b)) -> continuous_on_range base cpl (st_index (ch_spectator c)) (de_expr (dyn c))) ->
    exists B, forall s1 s2 s3, on_dalitz_plot base s1 s2 s3 ->
      Re (full_value (at_point (m_variables m) (at_sigmas base s1 s2 s3) cpl) m) <= B.
  Proof.
    intros O Ct. apply c141_sizes. intros c Hc. apply (shape_bounded base cpl (st_index (ch_spectator c))); auto.
    apply (ids_range b s D). apply get_subsystem_ids_In. eauto.
  Qed.
End General.

(** ** Breit-Wigners up to the threshold *)
Section Closed.
  Variables (ev : env) (h : symbol -> Z).
  Lemma width_divisors_le es em eG ea eb er s m G a b r L : real_ev ev h es s -> real_ev ev h em m -> real_ev ev h eG G ->
    real_ev ev h ea a -> real_ev ev h eb b -> real_ev ev h er r ->
    0 <= a -> 0 <= b -> 0 < s -> (a + b) * (a + b) <= s -> 0 < r -> a + b < m ->
    forall x, In x (divisors ev h (energy_dependent_width es em eG ea eb L er phase_space_factor)) -> x <> RtoC 0.
  Proof.
    intros Hs Hm HG Ha Hb Hr A0 B0 S0 S R0 M x. unfold energy_dependent_width. pose proof (real_sqr ev h _ _ Hm) as Hm2.
    assert (M2 : (a + b) * (a + b) < m * m) by nra. assert (MM : 0 < m * m) by nra.
    intros H. apply div_mul in H. destruct H as [H|H]; [apply div_mul in H; destruct H as [H|H]; [|apply div_div in H]|apply div_div in H].
    - rewrite (proj2 HG) in H. destruct H.
    - destruct H as [->|[H|H]].
      + cbn [ceval]. change (csqrt _) with (form_factor L (ceval ev h (CSqr em)) (ceval ev h ea) (ceval ev h eb) (ceval ev h er)).
        destruct Hm2 as [-> _], Ha as [-> _], Hb as [-> _], Hr as [-> _].
        destruct (form_factor_pos L (m * m) a b r) as (y & Y & ->); auto. rewrite <- RtoC_mult. apply RtoC_pos_neq. nra.
      + change (In x (divisors ev h (CFormFactor es ea eb L er))) in H.
        eapply (ff_divisors ev h es ea eb er s a b r L); eauto. right. apply rbreakup_sign; lra.
      + change (In x (divisors ev h (CFormFactor (CSqr em) ea eb L er))) in H.
        eapply (ff_divisors ev h (CSqr em) ea eb er (m * m) a b r L); eauto. right. apply rbreakup_sign; lra.
    - destruct H as [->|[H|H]].
      + rewrite (phase_space_factor_value ev h).
        destruct Hm2 as [-> _], Ha as [-> _], Hb as [-> _].
        destruct (phsp_pos (m * m) a b) as (y & Y & ->); auto. apply RtoC_pos_neq; auto.
      + eapply (phsp_divisors ev h es ea eb s a b); eauto.
      + eapply (phsp_divisors ev h (CSqr em) ea eb (m * m) a b); eauto.
  Qed.
  Lemma width_cut_le es em eG ea eb er s m G a b r L : real_er ev h es s -> real_er ev h em m -> real_er ev h eG G ->
    real_er ev h ea a -> real_er ev h eb b -> real_er ev h er r ->
    0 <= a -> 0 <= b -> 0 < s -> (a + b) * (a + b) <= s -> a + b < m ->
    no_cut ev h (energy_dependent_width es em eG ea eb L er phase_space_factor).
  Proof.
    intros Hs Hm HG Ha Hb Hr A0 B0 S0 S M. unfold energy_dependent_width. pose proof (real_er_sqr ev h _ _ Hm) as Hm2.
    assert (M2 : (a + b) * (a + b) < m * m) by nra. assert (MM : 0 < m * m) by nra.
    assert (Q1 : 0 <= rbreakup s a b) by (apply rbreakup_sign; lra).
    assert (Q2 : 0 <= rbreakup (m * m) a b) by (apply rbreakup_sign; lra).
    apply rad_mul; [apply rad_mul|]; [eapply rad_real; eauto| |].
    - apply rad_div.
      + exact (ff_cut ev h es ea eb er s a b r L Hs Ha Hb Hr S0 (or_intror Q1)).
      + exact (ff_cut ev h (CSqr em) ea eb er (m * m) a b r L Hm2 Ha Hb Hr MM (or_intror Q2)).
    - apply rad_div.
      + exact (phsp_cut ev h es ea eb s a b Hs Ha Hb S0 Q1).
      + exact (phsp_cut ev h (CSqr em) ea eb (m * m) a b Hm2 Ha Hb MM Q2).
  Qed.
End Closed.
(** At the threshold the width vanishes. *)
Lemma phsp_zero s a b : 0 < s -> s = (a + b) * (a + b) -> two_body_phsp (RtoC s) (RtoC a) (RtoC b) = RtoC 0.
Proof.
  intros S0 E. unfold two_body_phsp. rewrite breakup_real.
  replace (rbreakup s a b) with 0 by (unfold rbreakup, Rdiv; rewrite E at 1; ring).
  rewrite !csqrt_nonneg by lra. rewrite sqrt_0. unfold Cdiv. rewrite Cinv_RtoC, <- !RtoC_mult. f_equal. ring.
Qed.
Lemma running_width_zero L s m G a b r : 0 < s -> s = (a + b) * (a + b) ->
  running_width two_body_phsp L (RtoC s) (RtoC m) (RtoC G) (RtoC a) (RtoC b) (RtoC r) = RtoC 0.
Proof.
  intros S0 E. unfold running_width. rewrite (phsp_zero s a b S0 E). unfold Cdiv. ring.
Qed.
(** So the denominator m^2 - s - i m Gamma never vanishes. *)
Lemma breit_wigner_denominator L s m G a b r : 0 <= a -> 0 <= b -> 0 < s -> (a + b) * (a + b) <= s -> 0 < r -> 0 < G -> a + b < m ->
  (RtoC m * RtoC m - RtoC s - running_width two_body_phsp L (RtoC s) (RtoC m) (RtoC G) (RtoC a) (RtoC b) (RtoC r) * RtoC m * Ci)%C <> RtoC 0.
Proof.
  intros A0 B0 S0 S R0 G0 M. destruct (Rle_lt_or_eq_dec _ _ S) as [Lt|Eq].
  - destruct (running_width_pos L s m G a b r) as (y & Y & ->); auto.
    rewrite <- !RtoC_mult, <- RtoC_minus. apply im_neq. assert (0 < y * m) by (apply Rmult_lt_0_compat; lra). lra.
  - rewrite (running_width_zero L s m G a b r S0 (eq_sym Eq)). intros E. apply (f_equal fst) in E.
    unfold Cminus, Cplus, Copp, Cmult, Ci, RtoC in E. cbn [fst snd] in E. nra.
Qed.
Lemma relativistic_divisors_le ev h es em eG ea eb er s m G a b r L : real_ev ev h es s -> real_ev ev h em m -> real_ev ev h eG G ->
  real_ev ev h ea a -> real_ev ev h eb b -> real_ev ev h er r ->
  0 <= a -> 0 <= b -> 0 < s -> (a + b) * (a + b) <= s -> 0 < r -> 0 < G -> a + b < m ->
  forall x, In x (divisors ev h (relativistic_breit_wigner es em eG ea eb L er phase_space_factor)) -> x <> RtoC 0.
Proof.
  intros Hs Hm HG Ha Hb Hr A0 B0 S0 S R0 G0 M x. unfold relativistic_breit_wigner.
  intros H. apply div_div in H. destruct H as [->|[H|H]].
  - cbn [ceval]. fold (ceval ev h). rewrite (eval_width ev h es em eG ea eb L er phase_space_factor two_body_phsp phase_space_factor_value).
    destruct Hs as [-> _], Hm as [-> _], HG as [-> _], Ha as [-> _], Hb as [-> _], Hr as [-> _].
    apply breit_wigner_denominator; auto.
  - apply div_mul in H. destruct H as [H|H]; [rewrite (proj2 Hm) in H|rewrite (proj2 HG) in H]; destruct H.
  - apply div_sub in H. destruct H as [H|H].
    + apply div_sub in H. destruct H as [H|H]; [rewrite (proj2 (real_sqr ev h _ _ Hm)) in H|rewrite (proj2 Hs) in H]; destruct H.
    + apply div_mul in H. destruct H as [H|[]]. apply div_mul in H. destruct H as [H|H]; [|rewrite (proj2 Hm) in H; destruct H].
      exact (width_divisors_le ev h es em eG ea eb er s m G a b r L Hs Hm HG Ha Hb Hr A0 B0 S0 S R0 M x H).
Qed.

(** ** The lineshape of a chain *)
Lemma bw_closed w c p0 r a b k i j e ev base h : bw_phsp_factor w = phase_space_factor ->
  isobar_chain c p0 r a b k i j -> bw_call w c = Ok e ->
  (forall x, sassume x = ANonneg -> e_sym ev x = base x) ->
  real_parameters base p0 r a b k -> between_masses base p0 r a b k ->
  0 < Re (base (outer_mass p0)) -> 0 <= Re (base (outer_mass a)) -> 0 <= Re (base (outer_mass b)) -> 0 <= Re (base (outer_mass k)) ->
  0 < Re (base (outer_mass a)) + Re (base (outer_mass b)) ->
  (Re (base (outer_mass a)) + Re (base (outer_mass b))) * (Re (base (outer_mass a)) + Re (base (outer_mass b))) <= Re (base (sigma_of k)) ->
  (bw_decay_form_factor w = true -> orbital j = 0%Z \/ 1 <= Re (base (outer_mass a)) + Re (base (outer_mass b))) ->
  (forall x, In x (divisors ev h (de_expr e)) -> x <> RtoC 0) /\ no_cut ev h (de_expr e).
Proof.
  intros Ph Iso E Ev Rp (M0 & G0 & R0 & Bt & Pt) T0 Ta Tb Tk Tp Ts Dff.
  destruct (bw_ok_inv _ _ _ _ _ _ _ _ _ _ Iso E) as [H1 H2]. destruct Iso as (Hc & I0 & P).
  destruct (bw_call_spec w p0 r a b k i j I0 P c Hc) as [_ B]. destruct (B H1 H2) as (y & fp & E' & _ & Hp & Ex).
  rewrite E in E'. inversion E'; subst y. cbv zeta in Ex. rewrite Ex. clear Ex E' B.
  assert (V : forall y, In y [sigma_of k; outer_mass p0; outer_mass a; outer_mass b; outer_mass k;
                  resonance_mass r; resonance_width r; resonance_radius; parent_radius p0] -> real_ev ev h (CVar y) (Re (base y))).
  { intros y Hy. split; [|reflexivity]. cbn [ceval]. rewrite <- (Rp y Hy). apply Ev.
    cbn [In] in Hy. repeat destruct Hy as [<-|Hy]; try reflexivity. destruct Hy. }
  assert (er : forall y x, real_ev ev h (CVar y) x -> real_er ev h (CVar y) x) by (intros y x [A _]; split; [exact A|reflexivity]).
  pose proof (V (sigma_of k) ltac:(cbn; tauto)) as Vs. pose proof (V (outer_mass p0) ltac:(cbn; tauto)) as Vp.
  pose proof (V (outer_mass a) ltac:(cbn; tauto)) as Va. pose proof (V (outer_mass b) ltac:(cbn; tauto)) as Vb.
  pose proof (V (outer_mass k) ltac:(cbn; tauto)) as Vk. pose proof (V (resonance_mass r) ltac:(cbn; tauto)) as Vm.
  pose proof (V (resonance_width r) ltac:(cbn; tauto)) as VG. pose proof (V resonance_radius ltac:(cbn; tauto)) as VR.
  pose proof (V (parent_radius p0) ltac:(cbn; tauto)) as VP. clear V.
  set (sg := Re (base (sigma_of k))) in *. set (m0 := Re (base (outer_mass p0))) in *. set (ma := Re (base (outer_mass a))) in *.
  set (mb := Re (base (outer_mass b))) in *. set (mk := Re (base (outer_mass k))) in *. set (mr := Re (base (resonance_mass r))) in *.
  set (G := Re (base (resonance_width r))) in *. set (R := Re (base resonance_radius)) in *. set (Rp0 := Re (base (parent_radius p0))) in *.
  assert (S0 : 0 < sg) by (clear - Ts Tp; nra). assert (M02 : 0 < m0 * m0) by (clear - T0; nra).
  assert (QP : 0 <= rbreakup (m0 * m0) mr mk) by (apply rbreakup_sign; try lra; nra).
  assert (QP' : 0 <= rbreakup (m0 * m0) mk mr) by (apply rbreakup_sign; try lra; nra).
  assert (FP : (forall x, In x (divisors ev h fp) -> x <> RtoC 0) /\ no_cut ev h fp).
  { destruct Hp as [[_ ->]|[_ ->]]; split.
    - exact (ff_divisors ev h _ _ _ _ _ _ _ _ (orbital i) (real_sqr ev h _ _ Vp) Vm Vk VP M02 (or_intror QP)).
    - exact (ff_cut ev h _ _ _ _ _ _ _ _ (orbital i) (real_er_sqr ev h _ _ (er _ _ Vp)) (er _ _ Vm) (er _ _ Vk) (er _ _ VP) M02 (or_intror QP)).
    - exact (ff_divisors ev h _ _ _ _ _ _ _ _ (orbital i) (real_sqr ev h _ _ Vp) Vk Vm VP M02 (or_intror QP')).
    - exact (ff_cut ev h _ _ _ _ _ _ _ _ (orbital i) (real_er_sqr ev h _ _ (er _ _ Vp)) (er _ _ Vk) (er _ _ Vm) (er _ _ VP) M02 (or_intror QP')). }
  set (e0 := if bw_energy_dependent_width w then _ else _).
  assert (BW : (forall x, In x (divisors ev h e0) -> x <> RtoC 0) /\ no_cut ev h e0).
  { subst e0. destruct (bw_energy_dependent_width w).
    - rewrite Ph. unfold bw_expr.
      pose proof (width_cut_le ev h _ _ _ _ _ _ _ _ _ _ _ _ (orbital j) (er _ _ Vs) (er _ _ Vm) (er _ _ VG) (er _ _ Va) (er _ _ Vb) (er _ _ VR) Ta Tb S0 Ts Bt) as W2.
      split.
      + exact (relativistic_divisors_le ev h _ _ _ _ _ _ _ _ _ _ _ _ (orbital j) Vs Vm VG Va Vb VR Ta Tb S0 Ts R0 G0 Bt).
      + unfold relativistic_breit_wigner. apply rad_div; [apply rad_mul; intros x []|]. apply rad_sub; [apply rad_sub; intros x []|].
        apply rad_mul; [|intros x []]. apply rad_mul; [exact W2|intros x []].
    - split.
      + exact (simple_divisors ev h _ _ _ _ _ _ Vs Vm VG M0 G0).
      + exact (simple_cut ev h _ _ _ _ _ _ (er _ _ Vs) (er _ _ Vm) (er _ _ VG)). }
  clearbody e0.
  assert (DF : bw_decay_form_factor w = true -> let f := CFormFactor (CSqr (CVar (sigma_of k))) (CVar (outer_mass a))
      (CVar (outer_mass b)) (orbital j) (CVar resonance_radius) in (forall x, In x (divisors ev h f) -> x <> RtoC 0) /\ no_cut ev h f).
  { intros W. assert (SS : 0 < sg * sg) by (clear - S0; nra).
    assert (Q : orbital j = 0%Z \/ 0 <= rbreakup (sg * sg) ma mb).
    { destruct (Dff W) as [D|D]; [auto|right]. apply rbreakup_sign; auto. clear - D Ts S0.
      assert (1 <= (ma + mb) * (ma + mb)) by nra. assert (1 <= sg) by lra. nra. }
    split.
    - exact (ff_divisors ev h _ _ _ _ _ _ _ _ (orbital j) (real_sqr ev h _ _ Vs) Va Vb VR SS Q).
    - exact (ff_cut ev h _ _ _ _ _ _ _ _ (orbital j) (real_er_sqr ev h _ _ (er _ _ Vs)) (er _ _ Va) (er _ _ Vb) (er _ _ VR) SS Q). }
  cbv zeta in DF. split.
  - intros x Hx. destruct (bw_production_form_factor w).
    + apply div_mul in Hx. destruct Hx as [Hx|Hx]; [|apply FP; auto].
      destruct (bw_decay_form_factor w); [apply div_mul in Hx; destruct Hx; [apply BW|apply (proj1 (DF eq_refl))]; auto|apply BW; auto].
    + destruct (bw_decay_form_factor w); [apply div_mul in Hx; destruct Hx; [apply BW|apply (proj1 (DF eq_refl))]; auto|apply BW; auto].
  - destruct (bw_production_form_factor w); destruct (bw_decay_form_factor w); repeat apply rad_mul; first [apply BW|apply FP|apply (proj2 (DF eq_refl))].
Qed.
Lemma bw_symbols w c p0 r a b k i j e : bw_phsp_factor w = phase_space_factor ->
  isobar_chain c p0 r a b k i j -> bw_call w c = Ok e -> forall x, In x (symbols_of (de_expr e)) ->
  In x [sigma_of k; outer_mass p0; outer_mass a; outer_mass b; outer_mass k; resonance_mass r; resonance_width r; resonance_radius; parent_radius p0].
Proof.
  intros Ph Iso E x. destruct (bw_ok_inv _ _ _ _ _ _ _ _ _ _ Iso E) as [H1 H2]. destruct Iso as (Hc & I0 & P).
  destruct (bw_call_spec w p0 r a b k i j I0 P c Hc) as [_ B]. destruct (B H1 H2) as (y & fp & E' & _ & Hp & Ex).
  rewrite E in E'. inversion E'; subst y. cbv zeta in Ex. rewrite Ex, Ph. clear - Hp.
  assert (FP : forall x, In x (symbols_of fp) -> In x [outer_mass p0; outer_mass k; resonance_mass r; parent_radius p0]).
  { destruct Hp as [[_ ->]|[_ ->]]; intros y; cbn [symbols_of app In]; tauto. }
  assert (BW : forall x, In x (symbols_of (if bw_energy_dependent_width w then bw_expr r a b (sigma_of k) (orbital j) phase_space_factor
      else simple_breit_wigner (CVar (sigma_of k)) (CVar (resonance_mass r)) (CVar (resonance_width r)))) ->
      In x [sigma_of k; outer_mass a; outer_mass b; resonance_mass r; resonance_width r; resonance_radius]).
  { intros y. destruct (bw_energy_dependent_width w); cbn [bw_expr relativistic_breit_wigner energy_dependent_width simple_breit_wigner phase_space_factor
      CNum symbols_of app In]; tauto. }
  set (e0 := if bw_energy_dependent_width w then _ else _) in *. clearbody e0.
  intros H. destruct (bw_production_form_factor w), (bw_decay_form_factor w); cbn [symbols_of] in H;
    repeat (apply in_app_or in H; destruct H as [H|H]); try (apply FP in H); try (apply BW in H); cbn [In app] in H |- *; tauto.
Qed.
Lemma spectator_isobar c p0 r a b k i j : isobar_chain c p0 r a b k i j -> ch_spectator c = k.
Proof. intros ([-> | ->] & _ & _); reflexivity. Qed.

Lemma sigma_at base s1 s2 s3 (k : state) : In (st_index k) [1; 2; 3]%Z ->
  at_sigmas base s1 s2 s3 (sigma_of k) = RtoC (sigma_value s1 s2 s3 (st_index k)).
Proof. intros [H|[H|[H|[]]]]; unfold sigma_of, sigma_value; rewrite <- H; reflexivity. Qed.
Lemma bw_own w c p0 r a b k i j e base cpl : bw_phsp_factor w = phase_space_factor -> isobar_chain c p0 r a b k i j -> bw_call w c = Ok e ->
  lineshape (de_expr e) = true -> own_sigma_only base cpl (st_index k) (de_expr e).
Proof.
  intros Ph Iso E Ls s1 s2 s3 t. assert (K : In (st_index k) [1; 2; 3]%Z).
  { destruct Iso as (_ & _ & P). apply (Permutation_in _ P). cbn; auto. }
  apply lineshape_eval; auto. intros x _ Hx. apply (bw_symbols w c p0 r a b k i j e Ph Iso E) in Hx. cbn [e_sym].
  destruct Hx as [<-|Hx].
  - rewrite !sigma_at by auto. f_equal. unfold t, sigma_value. destruct (st_index k =? 1)%Z; auto. destruct (st_index k =? 2)%Z; auto.
  - repeat destruct Hx as [<-|Hx]; try destruct Hx; reflexivity.
Qed.
Lemma at_sigmas_tends base cpl t0 : (forall x, tends (locally t0) (fun t => e_sym (Env (at_sigmas base t t t) cpl) x) (e_sym (Env (at_sigmas base t0 t0 t0) cpl) x)) /\
  (forall n i, tends (locally t0) (fun t => e_idx (Env (at_sigmas base t t t) cpl) n i) (e_idx (Env (at_sigmas base t0 t0 t0) cpl) n i)).
Proof.
  split; [|intros; apply (t_const (locally t0))]. intros x. cbn [e_sym]. unfold at_sigmas.
  assert (I : tends (locally t0) (fun t => RtoC t) (RtoC t0)) by (apply (t_real (locally t0)); apply filterlim_id).
  destruct (eqb x (Sym "sigma1" ANonneg)); auto. destruct (eqb x (Sym "sigma2" ANonneg)); auto.
  destruct (eqb x (Sym "sigma3" ANonneg)); auto. apply (t_const (locally t0)).
Qed.
Lemma lower_of base (a b k : state) : Permutation [st_index a; st_index b; st_index k] [1; 2; 3]%Z ->
  lower_limit base (st_index k) = (Re (base (outer_mass a)) + Re (base (outer_mass b))) * (Re (base (outer_mass a)) + Re (base (outer_mass b))).
Proof.
  intros P. unfold lower_limit, particle_mass, outer_mass.
  destruct (index_cases a b k P) as [(E1 & E2 & E3)|[(E1 & E2 & E3)|[(E1 & E2 & E3)|[(E1 & E2 & E3)|[(E1 & E2 & E3)|(E1 & E2 & E3)]]]]];
    rewrite E1, E2, E3; unfold next_label; cbn [Z.eqb Pos.eqb Z.add Pos.add Pos.succ]; ring.
Qed.
Lemma bw_continuous w c p0 r a b k i j e base cpl : bw_phsp_factor w = phase_space_factor -> isobar_chain c p0 r a b k i j -> bw_call w c = Ok e ->
  physical (fun x => Re (base x)) -> nonsingular (fun x => Re (base x)) ->
  real_parameters base p0 r a b k -> between_masses base p0 r a b k ->
  0 < Re (base (outer_mass a)) + Re (base (outer_mass b)) ->
  (bw_decay_form_factor w = true -> orbital j = 0%Z \/ 1 <= Re (base (outer_mass a)) + Re (base (outer_mass b))) ->
  continuous_on_range base cpl (st_index k) (de_expr e).
Proof.
  intros Ph Iso E Phy Ns Rp Bt Tp Dff t0 [Lo Hi]. pose proof Iso as (_ & I0 & P).
  assert (K : In (st_index k) [1; 2; 3]%Z) by (apply (Permutation_in _ P); cbn; auto).
  destruct (chain_thresholds base p0 a b k I0 P Phy Ns) as (T0 & Ta & Tb & Tk & _).
  rewrite (lower_of base a b k P) in Lo. destruct (at_sigmas_tends base cpl t0) as [L1 L2].
  destruct (bw_closed w c p0 r a b k i j e (Env (at_sigmas base t0 t0 t0) cpl) (at_sigmas base t0 t0 t0) (fun _ => 0%Z) Ph Iso E) as [D N]; auto.
  - intros x Hx. destruct Hx as [<-|Hx].
    + unfold real_at. rewrite (sigma_at base t0 t0 t0 k K). reflexivity.
    + assert (real_at base x) as A by (apply Rp; right; exact Hx). repeat destruct Hx as [<-|Hx]; try destruct Hx; exact A.
  - rewrite (sigma_at base t0 t0 t0 k K). cbn [Re RtoC fst].
    replace (sigma_value t0 t0 t0 (st_index k)) with t0 by (unfold sigma_value; destruct (st_index k =? 1)%Z; auto; destruct (st_index k =? 2)%Z; auto).
    exact Lo.
  - exact (ceval_tends (locally t0) (de_expr e) (fun t => Env (at_sigmas base t t t) cpl) (Env (at_sigmas base t0 t0 t0) cpl) L1 L2 (fun _ => 0%Z) D N).
Qed.
Lemma bw_shapes b dyn base cpl : dynamics_of b dyn -> physical (fun x => Re (base x)) -> nonsingular (fun x => Re (base x)) ->
  regular_dynamics (b_decay b) dyn base -> threshold_regular (b_decay b) dyn base ->
  forall c, In c (d_chains (b_decay b)) -> own_sigma_only base cpl (st_index (ch_spectator c)) (de_expr (dyn c)) /\
    continuous_on_range base cpl (st_index (ch_spectator c)) (de_expr (dyn c)).
Proof.
  intros Dyn Ph Ns Rg Tr c Hc. destruct (Rg c Hc) as [E|(w & Phw & E & (p0 & r & a & b' & k & i & j & Iso & Rp & Bt))].
  - rewrite E. split; [intros s1 s2 s3; reflexivity|intros t0 _; apply (t_const (locally t0))].
  - rewrite (spectator_isobar _ _ _ _ _ _ _ _ Iso). destruct (Tr c w Hc E _ _ _ _ _ _ _ Iso) as [Tp Dff]. split.
    + apply (bw_own w c p0 r a b' k i j); auto. apply Dyn. exact Hc.
    + apply (bw_continuous w c p0 r a b' k i j); auto.
Qed.
Theorem c141_bw b s dyn ref cl uc m base cpl : std_decay (b_decay b) s -> dynamics_of b dyn ->
  (b_prod_helicity b = false -> plain_resonances (b_decay b)) -> Builder.formulate b ref cl uc = Ok m ->
  physical (fun x => Re (base x)) -> nonsingular (fun x => Re (base x)) ->
  regular_dynamics (b_decay b) dyn base -> threshold_regular (b_decay b) dyn base ->
  exists B, forall s1 s2 s3, on_dalitz_plot base s1 s2 s3 ->
    Re (full_value (at_point (m_variables m) (at_sigmas base s1 s2 s3) cpl) m) <= B.
Proof.
  intros D Dyn PR F Ph Ns Rg Tr. pose proof (bw_shapes b dyn base cpl Dyn Ph Ns Rg Tr) as H.
  apply (c141_general b s dyn ref cl uc m D Dyn PR F base cpl); intros c Hc; apply H; exact Hc.
Qed.

(** ** An example: D -> pi (pi K) with masses 1, where all other parameters are 3 *)
From Verif Require Import BuilderExamples ChainExamples RelabelExamples RelabelShapeExamples SpecObs ObsExamples FiniteExamples.
Definition bo_env (x : symbol) : R :=
  if eqb x (Sym "m0" ANonneg) then 6
  else if eqb x (Sym "m1" ANonneg) then 1 else if eqb x (Sym "m2" ANonneg) then 1 else if eqb x (Sym "m3" ANonneg) then 1
  else if eqb x (Sym "sigma1" ANonneg) then 13 else if eqb x (Sym "sigma2" ANonneg) then 13
  else if eqb x (Sym "sigma3" ANonneg) then 13 else 3.
Definition bo_base (x : symbol) : C := RtoC (bo_env x).
Lemma bo_vals : at_m0 bo_env = 6 /\ at_m1 bo_env = 1 /\ at_m2 bo_env = 1 /\ at_m3 bo_env = 1 /\ at_s1 bo_env = 13 /\ at_s2 bo_env = 13 /\ at_s3 bo_env = 13.
Proof. repeat split. Qed.
Lemma bo_physical : physical (fun x => Re (bo_base x)) /\ nonsingular (fun x => Re (bo_base x)).
Proof.
  change (fun x => Re (bo_base x)) with bo_env. split.
  - assert (Q : sqrt 3 * sqrt 3 = 3) by (apply sqrt_sqrt; lra).
    exists (V4 2 (V3 (sqrt 3) 0 0)), (V4 2 (V3 (- (sqrt 3 / 2)) (3 / 2) 0)), (V4 2 (V3 (- (sqrt 3 / 2)) (- (3 / 2)) 0)).
    unfold momenta_of, on_shell. destruct bo_vals as (-> & -> & -> & -> & -> & -> & ->).
    unfold msq, add4, add3, dot; cbn [vE vp vx vy vz]. repeat split; nra.
  - unfold nonsingular. destruct bo_vals as (-> & -> & -> & -> & -> & -> & ->). unfold kallen. repeat split; lra.
Qed.
Lemma bo_regular : regular_dynamics ob_decay rb_dyn bo_base.
Proof.
  intros c Hc. right. exists rb_w. split; [reflexivity|]. split; [exact (ob_call c Hc)|].
  destruct (ob_chain c Hc) as (i & j & Iso). do 7 eexists. split; [exact Iso|].
  split; [intros x _; reflexivity|]. unfold between_masses.
  assert (M : bo_base (resonance_mass (ch_resonance c)) = RtoC 3) by (destruct Hc as [<-|[<-|[]]]; reflexivity).
  assert (G : bo_base (resonance_width (ch_resonance c)) = RtoC 3) by (destruct Hc as [<-|[<-|[]]]; reflexivity).
  rewrite M, G. change (bo_base resonance_radius) with (RtoC 3).
  change (bo_base (outer_mass (id_st 0))) with (RtoC 6). change (bo_base (outer_mass (id_st 1))) with (RtoC 1).
  change (bo_base (outer_mass (id_st 2))) with (RtoC 1). change (bo_base (outer_mass (id_st 3))) with (RtoC 1).
  cbn [Re RtoC fst]. lra.
Qed.
Lemma bo_threshold : threshold_regular ob_decay rb_dyn bo_base.
Proof.
  intros c w Hc _ p0 r a b k i j (_ & _ & P).
  assert (Z0 : forall s : state, In (st_index s) [1; 2; 3]%Z -> Re (bo_base (outer_mass s)) = 1).
  { intros s Hs. unfold outer_mass. destruct Hs as [<-|[<-|[<-|[]]]]; reflexivity. }
  rewrite !Z0 by (apply (Permutation_in _ P); cbn; tauto). split; [lra|]. intros _. right. lra.
Qed.
(** The centre of this Dalitz plot *)
Lemma bo_points : on_dalitz_plot bo_base 13 13 13.
Proof. exact bo_physical. Qed.
