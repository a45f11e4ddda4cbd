(** Phases of the lineshape expressions (proofs for C145) *)
From Coq Require Import String ZArith QArith Qcanon Qreals List Bool Reals Lia Lra Psatz.
From Coquelicot Require Import Coquelicot.
From Verif Require Import Prelude Decay Expr Sums CExpr Builder SpecDPD Dynamics SpecDynamics CExprFacts LineshapeFacts LineshapeProofs FiniteShapes
  SpecHankel HankelFacts SpecUnitary UnitaryProofs ChannelProofs SpecPhase PhaseProofs.
Import ListNotations.
Local Open Scope R_scope.

Lemma phase_scale x z d : 0 < x -> has_phase z d -> has_phase (RtoC x * z)%C d.
Proof. intros Hx [B (r & Hr & ->)]. split; [exact B|]. exists (x * r). split; [apply Rmult_lt_0_compat; auto|]. rewrite RtoC_mult. ring. Qed.
Theorem c145_phase (ev : R -> env) h s m G m1 m2 L d xm xG a b :
  (forall x, ceval (ev x) h s = RtoC x) -> (forall x, ceval (ev x) h d = ceval (ev 0) h d) ->
  (forall x, real_resonance (ev x) h m G m1 m2 d xm xG a b) ->
  let thr := (a + b) * (a + b) in
  exists phase : R -> R,
    (forall x, thr < x -> has_phase (ceval (ev x) h (breit_wigner s m G m1 m2 L d phase_space_factor)) (phase x) /\
      has_phase (ceval (ev x) h (relativistic_breit_wigner s m G m1 m2 L d phase_space_factor)) (phase x)) /\
    phase (xm * xm) = PI / 2 /\
    (forall x y, thr < x -> x < y -> y <= xm * xm -> phase x < phase y) /\
    (forall x, xm * xm < x -> PI / 2 < phase x) /\
    ((L <= 0)%Z -> forall x y, thr < x -> x < y -> phase x < phase y) /\
    (forall e, 0 < e -> exists t, thr < t /\ forall x, thr < x < t -> phase x < e) /\
    (forall e, 0 < e -> exists t, forall x, t < x -> PI - e < phase x).
Proof.
  intros Es Ed H thr. destruct (H 0) as (r & _ & _ & _ & _ & Er & Hr & HG & Ha & Hb & Hab & Hm).
  exists (bw_phase L xm xG a b r). split; [|split; [|split; [|split; [|split; [|split]]]]].
  - intros x Hx. destruct (H x) as (r' & Em & EG & Ea & Eb & Er' & _). rewrite Ed, Er in Er'. injection Er' as <-.
    pose proof (eval_bw_width (ev x) h s m G m1 m2 L d x xm xG a b r (Es x) Em EG Ea Eb (eq_trans (Ed x) Er) Hab) as V.
    rewrite (width_value L xm xG a b r) in V by (auto; unfold thr in Hx; lra).
    destruct (bw_phase_value L xm xG a b r Ha Hb Hab Hr HG Hm x Hx) as [B E].
    pose proof (width_pos L xm xG a b r Ha Hb Hab Hr HG Hm x Hx) as Wp. set (w := width_at L xm xG a b r x) in *.
    assert (Mw : 0 < xm * w) by (apply Rmult_lt_0_compat; lra).
    assert (P : has_phase (bw_simple (RtoC x) (RtoC xm) (RtoC w)) (bw_phase L xm xG a b r x)).
    { split; [exact B|]. exists (sin (bw_phase L xm xG a b r x) / (xm * w)). split; [apply Rdiv_lt_0_compat; [apply sin_gt_0; lra|exact Mw]|].
      unfold Rdiv. rewrite RtoC_mult. rewrite (Cmult_comm (RtoC (sin _))), <- Cmult_assoc, <- E, Cmult_assoc, <- RtoC_mult, Rinv_l by lra. ring. }
    split.
    + unfold breit_wigner. rewrite eval_simple, V, (Es x), Em. exact P.
    + destruct (breit_wigner_elastic (ev x) h s m G m1 m2 L d x xm xG a b (Es x) (H x) Hx) as (_ & _ & _ & _ & ->).
      apply phase_scale; [apply Rmult_lt_0_compat; lra|]. unfold breit_wigner. rewrite eval_simple, V, (Es x), Em. exact P.
  - apply bw_phase_mass.
  - intros x y. apply below_mass; auto.
  - intros x. apply above_mass; auto.
  - intros HL x y Hx Hy. destruct (Rle_or_lt y (xm * xm)) as [Y|Y]; [apply below_mass; auto|].
    destruct (Rle_or_lt (xm * xm) x) as [X|X]; [apply s_wave_mono; auto|].
    apply Rlt_trans with (bw_phase L xm xG a b r (xm * xm)).
    + apply below_mass; auto; lra.
    + rewrite bw_phase_mass. apply above_mass; auto.
  - intros e. apply phase_threshold; auto.
  - intros e. apply phase_infinity; auto.
Qed.
Theorem c145_threshold (ev : R -> env) h s m G m1 m2 L d xm xG a b :
  (forall x, ceval (ev x) h s = RtoC x) -> (forall x, ceval (ev x) h d = ceval (ev 0) h d) ->
  (forall x, real_resonance (ev x) h m G m1 m2 d xm xG a b) ->
  exists c, 0 < c /\
    filterlim (fun x => Re (ceval (ev x) h (breit_wigner_width s m G m1 m2 L d phase_space_factor)) / decay_momentum x a b ^ (2 * Z.to_nat L + 1))
      (at_right ((a + b) * (a + b))) (locally c).
Proof.
  intros Es Ed H. destruct (H 0) as (r & _ & _ & _ & _ & Er & Hr & HG & Ha & Hb & Hab & Hm).
  eexists. split; [exact (lead_pos L xm xG a b r Ha Hb Hab Hr HG Hm)|].
  refine (filterlim_ext_loc _ _ _ (threshold_law L xm xG a b r Ha Hb Hab Hr Hm)).
  exists (mkposreal 1 Rlt_0_1). intros x _ Hx. destruct (H x) as (r' & Em & EG & Ea & Eb & Er' & _). rewrite Ed, Er in Er'. injection Er' as <-.
  rewrite (eval_bw_width (ev x) h s m G m1 m2 L d x xm xG a b r (Es x) Em EG Ea Eb (eq_trans (Ed x) Er) Hab), (width_value L xm xG a b r) by (auto; lra). reflexivity.
Qed.

(** ** The phase of a D wave that falls above the mass of the resonance *)
Lemma phase_of z d : has_phase z d -> d = PI / 2 - atan (Re z / Im z).
Proof.
  intros [B (r & Hr & ->)]. assert (S0 : 0 < sin d) by (apply sin_gt_0; lra).
  unfold Cmult, RtoC, Re, Im. cbn [fst snd].
  replace ((r * cos d - 0 * sin d) / (r * sin d + 0 * cos d)) with (cos d / sin d) by (field; split; lra).
  replace (cos d / sin d) with (tan (PI / 2 - d)) by (unfold tan; rewrite sin_shift, cos_shift; reflexivity).
  rewrite atan_tan by lra. ring.
Qed.
Definition ph_shape : cexpr := breit_wigner (CVar cx_s) (CNum 11) (CNum 1) (CNum 10) (CNum 0) 2 (CDiv (CNum 1) (CNum 10)) phase_space_factor.
Lemma ph_resonance x : real_resonance (cx_at x) (fun _ => 0%Z) (CNum 11) (CNum 1) (CNum 10) (CNum 0) (CDiv (CNum 1) (CNum 10)) 11 1 10 0.
Proof.
  exists (1 / 10). cbn [ceval]. rewrite !CNum_value. unfold Cdiv. rewrite Cinv_RtoC, <- RtoC_mult. repeat split; try lra.
Qed.
Lemma ph_pa z : pa z 2 3 = 9 + 3 * z + z * z.
Proof. rewrite pa_bw. cbn [seq Rsum]. unfold bw_coeff. cbn [fact Nat.sub Nat.mul Nat.add pow]. rewrite !INR_IZR_INZ. cbn [Z.of_nat]. simpl Z.of_nat. cbn. lra. Qed.
Lemma ph_d_wave d2 d3 : has_phase (ceval (cx_at 200) (fun _ => 0%Z) ph_shape) d2 -> has_phase (ceval (cx_at 300) (fun _ => 0%Z) ph_shape) d3 -> PI / 2 < d3 < d2.
Proof.
  intros H2 H3. apply phase_of in H2, H3.
  assert (V : forall x, 100 < x -> ceval (cx_at x) (fun _ => 0%Z) ph_shape = bw_simple (RtoC x) (RtoC 11) (RtoC (width_at 2 11 1 10 0 (1 / 10) x))).
  { intros x Hx. unfold ph_shape, breit_wigner. rewrite eval_simple. destruct (ph_resonance x) as (r & Em & EG & Ea & Eb & Er & Hr & _).
    rewrite (eval_bw_width (cx_at x) (fun _ => 0%Z) (CVar cx_s) (CNum 11) (CNum 1) (CNum 10) (CNum 0) 2 _ x 11 1 10 0 (1 / 10)); auto.
    - rewrite Em. f_equal. apply width_value; lra.
    - cbn [ceval]. rewrite !CNum_value. unfold Cdiv. rewrite Cinv_RtoC, <- RtoC_mult. reflexivity.
    - lra. }
  rewrite (V 200) in H2 by lra. rewrite (V 300) in H3 by lra. clear V. rewrite bw_real in H2, H3. cbn [Re Im fst snd] in H2, H3.
  assert (Wv : exists c, 0 < c /\ forall x, 100 < x -> width_at 2 11 1 10 0 (1 / 10) x = c * (let z := (x - 100) * (x - 100) / (400 * x) in z * z * 13 / (9 + 3 * z + z * z) * (1 - 100 / x))).
  { exists (1 / (ff2 2 (11 * 11) 10 0 (1 / 10) * (2 * sqrt (rbreakup (11 * 11) 10 0) / sqrt (11 * 11)))). 
    assert (F : 0 < ff2 2 (11 * 11) 10 0 (1 / 10)) by (apply ff2_pos; lra). assert (Q : 0 < 2 * sqrt (rbreakup (11 * 11) 10 0) / sqrt (11 * 11)) by (apply rho_pos; lra).
    split; [apply Rdiv_lt_0_compat; [lra|apply Rmult_lt_0_compat; auto]|]. intros x Hx. unfold width_at.
    set (f := ff2 2 (11 * 11) 10 0 (1 / 10)) in *. set (q := 2 * sqrt (rbreakup (11 * 11) 10 0) / sqrt (11 * 11)) in *.
    rewrite (rho_sq 10 0) by lra.
    replace ((1 - (10 + 0) * (10 + 0) / x) * (1 - (10 - 0) * (10 - 0) / x)) with ((1 - 100 / x) * (1 - 100 / x)) by (unfold Rdiv; ring).
    assert (X1 : 0 <= 1 - 100 / x). { assert (100 / x <= 1); [|lra]. apply (Rmult_le_reg_r x); [lra|]. unfold Rdiv. rewrite Rmult_assoc, Rinv_l by lra. lra. }
    rewrite sqrt_square by exact X1. unfold ff2. cbn [Z.leb Z.compare]. change (Z.to_nat 2) with 2%nat. unfold bsq. rewrite !ph_pa.
    replace (rbreakup x 10 0 * (1 / 10 * (1 / 10))) with ((x - 100) * (x - 100) / (400 * x)) by (unfold rbreakup; field; lra). cbv zeta.
    set (z := (x - 100) * (x - 100) / (400 * x)). assert (Z0 : 0 <= z) by (unfold z; apply Rle_mult_inv_pos; [apply Rle_0_sqr|lra]).
    assert (Dz : 0 < 9 + 3 * z + z * z) by (assert (0 <= z * z) by (apply Rmult_le_pos; auto); lra).
    replace (z ^ 2 * (9 + 3 * 1 + 1 * 1)) with (z * z * 13) by ring. set (y := z * z * 13 / (9 + 3 * z + z * z)). field. split; lra. }
  destruct Wv as (c & Hc & Wv). rewrite (Wv 200) in H2 by lra. rewrite (Wv 300) in H3 by lra. clear Wv. cbv zeta in H2, H3.
  set (w2 := c * _) in H2. set (w3 := c * _) in H3.
  assert (E2 : w2 = c * (13 / 1202)) by (unfold w2; field). assert (E3 : w3 = c * (2 / 21)) by (unfold w3; field).
  clearbody w2 w3.
  assert (K : forall w s, 0 < w -> (11 * 11 - s) / ((11 * 11 - s) * (11 * 11 - s) + 11 * w * (11 * w)) / (11 * w / ((11 * 11 - s) * (11 * 11 - s) + 11 * w * (11 * w))) = (121 - s) / (11 * w)).
  { intros w s Hw. field. assert (0 < 11 * w * (11 * w)) by (apply Rmult_lt_0_compat; lra). pose proof (Rle_0_sqr (11 * 11 - s)) as Q. unfold Rsqr in Q. split; [lra|]. nra. }
  rewrite (K w2 200) in H2 by lra. rewrite (K w3 300) in H3 by lra. rewrite H2, H3, E2, E3.
  assert (A1 : (121 - 200) / (11 * (c * (13 / 1202))) < (121 - 300) / (11 * (c * (2 / 21)))).
  { apply (Rmult_lt_reg_r (11 * c)); [lra|]. replace ((121 - 200) / (11 * (c * (13 / 1202))) * (11 * c)) with (- 79 * 1202 / 13) by (field; lra).
    replace ((121 - 300) / (11 * (c * (2 / 21))) * (11 * c)) with (- 179 * 21 / 2) by (field; lra). lra. }
  assert (A2 : (121 - 300) / (11 * (c * (2 / 21))) < 0).
  { apply (Rmult_lt_reg_r (11 * c)); [lra|]. replace ((121 - 300) / (11 * (c * (2 / 21))) * (11 * c)) with (- 179 * 21 / 2) by (field; lra). lra. }
  apply atan_increasing in A1, A2. rewrite atan_0 in A2. lra.
Qed.

(** ** Constant width *)
Theorem c145_simple (ev : R -> env) h s m G xm xG : (forall x, ceval (ev x) h s = RtoC x) -> (forall x, ceval (ev x) h m = RtoC xm) ->
  (forall x, ceval (ev x) h G = RtoC xG) -> 0 < xm -> 0 < xG ->
  exists phase : R -> R, (forall x, has_phase (ceval (ev x) h (simple_breit_wigner s m G)) (phase x)) /\
    phase (xm * xm) = PI / 2 /\ forall x y, x < y -> phase x < phase y.
Proof.
  intros Es Em EG Hm HG. assert (W : 0 < xm * xG) by (apply Rmult_lt_0_compat; auto).
  exists (fun x => PI / 2 - atan ((xm * xm - x) / (xm * xG))). split; [|split].
  - intros x. destruct (phase_value ((xm * xm - x) / (xm * xG))) as [B E]. set (d := PI / 2 - atan _) in *. split; [exact B|].
    exists (sin d / (xm * xG)). split; [apply Rdiv_lt_0_compat; [apply sin_gt_0; lra|exact W]|].
    unfold Rdiv at 1. rewrite RtoC_mult, (Cmult_comm (RtoC (sin _))), <- Cmult_assoc, <- E. rewrite eval_simple, Es, Em, EG, bw_real.
    set (w := xm * xG) in *. set (g := xm * xm - x). assert (D : 0 < g * g + w * w) by (pose proof (Rle_0_sqr g) as Q; unfold Rsqr in Q; assert (0 < w * w) by (apply Rmult_lt_0_compat; auto); lra).
    apply injective_projections; unfold Cdiv, Cinv, Cmult, RtoC; cbn [fst snd]; field; repeat split; try lra; try (apply Rgt_not_eq; nra).
  - replace (xm * xm - xm * xm) with 0 by ring. unfold Rdiv at 2. rewrite Rmult_0_l, atan_0. ring.
  - intros x y H. assert (A : (xm * xm - y) / (xm * xG) < (xm * xm - x) / (xm * xG)) by (apply Rmult_lt_compat_r; [apply Rinv_0_lt_compat; exact W|lra]).
    apply atan_increasing in A. lra.
Qed.
