(** A decay with regular lineshapes, and a pole of the decay form factor in the physical region (C96) *)
From Coq Require Import String ZArith QArith Qcanon List Bool Reals Lia Lra Psatz Permutation.
From Coquelicot Require Import Complex.
From Verif Require Import Prelude Spin Decay Expr Sums CExpr SpecKin SpecDPD Builder SpecBuilder Dynamics SpecDynamics SpecRelabel
  BuilderProofs DynamicsProofs LineshapeProofs LineshapeFacts BuilderExamples RelabelExamples RelabelShapeExamples SpecObs ObsExamples
  CExprFacts SpecFinite FiniteFacts FiniteShapes.
Import ListNotations.
Local Open Scope string_scope.
Local Open Scope Z_scope.
Local Open Scope list_scope.

Lemma ob_chain c : In c (d_chains ob_decay) -> exists i j,
  isobar_chain c (id_st 0) (ch_resonance c) (id_st 2) (id_st 3) (id_st 1) i j.
Proof.
  intros [<-|[<-|[]]]; do 2 eexists;
    (split; [cbn; first [left; reflexivity|right; reflexivity]|split; [reflexivity|]]);
    apply NoDup_Permutation; try (cbn; repeat constructor; cbn; intuition discriminate); cbn; tauto.
Qed.
Definition fe_base : symbol -> C := rb_base (id_env 72 24).
Lemma fe_regular : regular_dynamics ob_decay rb_dyn fe_base.
Proof.
  intros c Hc. right. exists rb_w. split; [reflexivity|]. split; [exact (ob_call c Hc)|].
  destruct (ob_chain c Hc) as (i & j & Iso). do 7 eexists. split; [exact Iso|].
  split.
  - intros x _. unfold real_at, fe_base, rb_base. destruct (existsb _ _); reflexivity.
  - assert (M : forall r, fe_base (resonance_mass r) = RtoC 2) by reflexivity.
    assert (G : forall r, fe_base (resonance_width r) = RtoC 2) by reflexivity.
    unfold between_masses. rewrite M, G. change (fe_base resonance_radius) with (RtoC 2).
    change (fe_base (outer_mass (id_st 0))) with (RtoC 12). change (fe_base (outer_mass (id_st 1))) with (RtoC 0).
    change (fe_base (outer_mass (id_st 2))) with (RtoC 0). change (fe_base (outer_mass (id_st 3))) with (RtoC 0).
    cbn [Re RtoC fst]. lra.
Qed.
Lemma fe_decay_ff : decay_form_factors_regular ob_decay rb_dyn fe_base.
Proof.
  intros c w Hc _ _ p0 r a b k i j (_ & _ & P). right.
  assert (Z0 : forall s : state, In (st_index s) [1; 2; 3] -> Re (fe_base (outer_mass s)) = 0%R).
  { intros s Hs. unfold outer_mass. destruct Hs as [<-|[<-|[<-|[]]]]; reflexivity. }
  rewrite !Z0 by (apply (Permutation_in _ P); cbn; tauto).
  pose proof (Rle_0_sqr (Re (fe_base (sigma_of k)))) as Q. unfold Rsqr in Q. lra.
Qed.

(** D -> pi (pi K) in a P wave at a point with sigma^2 below the squared threshold *)
Definition fx_env (x : symbol) : R :=
  if eqb x (Sym "m0" ANonneg) then 1
  else if eqb x (Sym "m1" ANonneg) then 0
  else if eqb x (Sym "m2" ANonneg) then 9 / 40
  else if eqb x (Sym "m3" ANonneg) then 9 / 40
  else if eqb x (Sym "sigma1" ANonneg) then 9 / 25
  else if eqb x (Sym "sigma2" ANonneg) then 593 / 1600
  else if eqb x (Sym "sigma3" ANonneg) then 593 / 1600
  else if eqb x resonance_radius then 200 / 27 else 1 / 2.
Definition fx_base (x : symbol) : C := RtoC (fx_env x).
Lemma fx_vals : at_m0 fx_env = 1%R /\ at_m1 fx_env = 0%R /\ at_m2 fx_env = (9 / 40)%R /\
  at_m3 fx_env = (9 / 40)%R /\ at_s1 fx_env = (9 / 25)%R /\ at_s2 fx_env = (593 / 1600)%R /\ at_s3 fx_env = (593 / 1600)%R.
Proof. repeat split. Qed.
Lemma fx_physical : physical fx_env /\ nonsingular fx_env.
Proof.
  split.
  - assert (Q : (sqrt 63 * sqrt 63 = 63)%R) by (apply sqrt_sqrt; lra).
    exists (V4 (8 / 15) (V3 (8 / 15) 0 0)), (V4 (3 / 10) (V3 0 0 (sqrt 63 / 40))), (V4 (3 / 10) (V3 0 0 (- (sqrt 63 / 40)))).
    unfold momenta_of, on_shell. destruct fx_vals as (-> & -> & -> & -> & -> & -> & ->).
    unfold msq, add4, add3, dot; cbn [vE vp vx vy vz]. repeat split; lra.
  - unfold nonsingular. destruct fx_vals as (-> & -> & -> & -> & -> & -> & ->). unfold kallen. repeat split; lra.
Qed.
Lemma fx_regular : regular_dynamics ob_decay rb_dyn fx_base.
Proof.
  intros c Hc. right. exists rb_w. split; [reflexivity|]. split; [exact (ob_call c Hc)|].
  destruct (ob_chain c Hc) as (i & j & Iso). do 7 eexists. split; [exact Iso|].
  split.
  - intros x _. reflexivity.
  - assert (M : fx_base (resonance_mass (ch_resonance c)) = RtoC (1 / 2)) by (destruct Hc as [<-|[<-|[]]]; reflexivity).
    assert (G : fx_base (resonance_width (ch_resonance c)) = RtoC (1 / 2)) by (destruct Hc as [<-|[<-|[]]]; reflexivity).
    unfold between_masses. rewrite M, G. change (fx_base resonance_radius) with (RtoC (200 / 27)).
    change (fx_base (outer_mass (id_st 0))) with (RtoC 1). change (fx_base (outer_mass (id_st 1))) with (RtoC 0).
    change (fx_base (outer_mass (id_st 2))) with (RtoC (9 / 40)). change (fx_base (outer_mass (id_st 3))) with (RtoC (9 / 40)).
    cbn [Re RtoC fst]. lra.
Qed.
Lemma fx_zero ev : (forall x, sassume x = ANonneg -> e_sym ev x = fx_base x) ->
  In (RtoC 0) (divisors ev (fun _ => 0) (de_expr (rb_dyn (id_chain "K*" 2)))).
Proof.
  intros Ev. assert (Hc : In (id_chain "K*" 2) (d_chains ob_decay)) by (left; reflexivity).
  destruct (ob_chain _ Hc) as (i & j & Iso). pose proof (ob_call _ Hc) as E.
  assert (Ej : orbital j = 1).
  { destruct Iso as ([X|X] & _); [|discriminate X]. injection X as <- <-. reflexivity. }
  destruct (bw_ok_inv _ _ _ _ _ _ _ _ _ _ Iso E) as [H1 H2]. destruct Iso as (Hc' & I0 & P).
  destruct (bw_call_spec rb_w _ _ _ _ _ i j I0 P _ Hc') as [_ B]. destruct (B H1 H2) as (y & fp & E' & _ & Hp & Ex).
  rewrite E in E'. inversion E' as [E0]. rewrite E0. cbv zeta in Ex. rewrite Ex. clear - Ev Ej.
  cbn [bw_decay_form_factor bw_production_form_factor rb_w].
  apply in_or_app. left. apply in_or_app. right. right. left.
  cbn [ceval]. rewrite !Ev by reflexivity. rewrite Ej.
  change (fx_base (sigma_of (id_st 1))) with (RtoC (9 / 25)). change (fx_base resonance_radius) with (RtoC (200 / 27)).
  change (fx_base (outer_mass (id_st 2))) with (RtoC (9 / 40)). change (fx_base (outer_mass (id_st 3))) with (RtoC (9 / 40)).
  rewrite <- !RtoC_mult, breakup_real, <- RtoC_mult, bw_poly_real. f_equal.
  change (Z.to_nat 1) with 1%nat. cbn [seq Rsum pow]. unfold bw_coeff, rbreakup. cbn [fact Nat.mul Nat.add Nat.sub INR pow]. field.
Qed.
Theorem fx_refuted : exists b s dyn m base,
  std_decay (b_decay b) s /\ dynamics_of b dyn /\ plain_resonances (b_decay b) /\ formulate b None false false = Ok m /\
  physical (fun x => Re (base x)) /\ nonsingular (fun x => Re (base x)) /\
  regular_dynamics (b_decay b) dyn base /\
  forall cpl, ~ well_defined m base cpl.
Proof.
  destruct ob_formulate as [m F]. exists ob_b, id_st, rb_dyn, m, fx_base.
  split; [exact ob_std|]. split; [exact ob_dynamics|]. split; [exact ob_plain|]. split; [exact F|].
  split; [exact (proj1 fx_physical)|]. split; [exact (proj2 fx_physical)|]. split; [exact fx_regular|].
  intros cpl (_ & A & _).
  assert (Hc : In (id_chain "K*" 2) (d_chains ob_decay)) by (left; reflexivity).
  assert (Hl : helicity_tuple id_st (0, 0, 0, 0)) by (repeat split; left; reflexivity).
  destruct (lineshape_in_amplitude ob_b id_st rb_dyn false ob_std ob_dynamics None false m F
    (at_point (m_variables m) fx_base cpl) _ (RtoC 0) (0, 0, 0, 0) Hc ltac:(cbn; lia) Hl) as (e & G & I).
  { apply fx_zero. intros y Hy. unfold at_point. cbn [e_sym]. destruct (dget y (m_variables m)) as [v|] eqn:Gy; [|reflexivity].
    assert (K : In y (dkeys (m_variables m))) by (apply dget_In; eauto).
    apply (RefFacts.variables_real ob_b id_st ob_std _ _ _ _ F) in K. congruence. }
  exact (A _ e G _ I eq_refl).
Qed.
