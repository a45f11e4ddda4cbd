(** Closed channels (proofs for C149) *)
From Coq Require Import String ZArith QArith Qcanon Qreals List Bool Reals Lia Lra Psatz.
From Coquelicot Require Import Coquelicot.
From Verif Require Import Prelude Decay Expr Sums CExpr Builder SpecDPD Dynamics SpecDynamics CExprFacts LineshapeFacts LineshapeProofs SpecFinite FiniteShapes
  SpecHankel HankelFacts SpecUnitary UnitaryProofs ChannelProofs SpecClosed.
Import ListNotations.
Local Open Scope R_scope.

Lemma csqrt_parts x : csqrt (RtoC x) = (sqrt x, sqrt (- x)).
Proof.
  unfold csqrt. rewrite Cmod_R. unfold RtoC, Re, Im. cbn [fst snd]. destruct (Rlt_dec 0 0) as [H|_]; [lra|].
  destruct (Rle_dec 0 x) as [H|H].
  - rewrite Rabs_pos_eq by exact H. f_equal; [f_equal; lra|]. rewrite (sqrt_neg_0 (- x)) by lra. replace ((x - x) / 2) with 0 by lra. apply sqrt_0.
  - rewrite Rabs_left by lra. f_equal; [|f_equal; lra]. rewrite (sqrt_neg_0 x) by lra. replace ((- x + x) / 2) with 0 by lra. apply sqrt_0.
Qed.
Lemma momentum_parts s a b : csqrt (breakup_squared (RtoC s) (RtoC a) (RtoC b)) = (decay_momentum s a b, bound_momentum s a b).
Proof. rewrite breakup_real, csqrt_parts. reflexivity. Qed.
Lemma bound_pos s a b : 0 <= bound_momentum s a b.
Proof. apply sqrt_pos. Qed.
Lemma open_bound s a b : 0 <= a -> 0 <= b -> 0 < s -> channel_open s a b -> bound_momentum s a b = 0.
Proof. intros Ha Hb Hs H. apply sqrt_neg_0. pose proof (proj1 (rbreakup_sign s a b Ha Hb Hs) H) as X. unfold rbreakup in X. lra. Qed.
Lemma closed_sign s a b : 0 < s -> channel_closed s a b -> rbreakup s a b < 0.
Proof.
  intros Hs [H1 H2]. unfold rbreakup, Rdiv. assert (X : 0 < / (4 * s)) by (apply Rinv_0_lt_compat; lra).
  assert (Y : (s - (a + b) * (a + b)) * (s - (a - b) * (a - b)) < 0) by (clear -H1 H2; nra). clear -X Y. nra.
Qed.
Lemma closed_momenta s a b : 0 < s -> channel_closed s a b -> decay_momentum s a b = 0 /\ 0 < bound_momentum s a b.
Proof.
  intros Hs H. pose proof (closed_sign s a b Hs H) as X. unfold rbreakup in X. split; [apply sqrt_neg_0; lra|apply sqrt_lt_R0; lra].
Qed.

Section Flatte.
  Context (ev : env) (h : symbol -> Z) (s m w1 w2 a1 b1 a2 b2 : cexpr) (xs xm y1 y2 xa1 xb1 xa2 xb2 : R).
  Hypothesis Es : ceval ev h s = RtoC xs.
  Hypothesis Fr : flatte_real ev h m w1 w2 a1 b1 a2 b2 xm y1 y2 xa1 xb1 xa2 xb2.
  Hypothesis Hs : 0 < xs.
  Let t := ceval ev h (flatte_s_wave s m w1 w2 a1 b1 a2 b2).
  Let g := flatte_widths xs xm y1 y2 xa1 xb1 xa2 xb2.
  Let d := flatte_shift xs xm y1 y2 xa1 xb1 xa2 xb2.
  Lemma flatte_m : 0 < xm /\ 0 < decay_momentum (xm * xm) xa2 xb2.
  Proof using Fr.
    destruct Fr as (_ & _ & _ & _ & _ & _ & _ & Y1 & Y2 & A1 & B1 & A2 & B2 & Hm). split; [lra|]. apply momentum_pos; auto. clear -A2 B2 Hm. nra.
  Qed.
  Lemma flatte_pos : (forall i, 0 <= g i) /\ 0 <= d.
  Proof using Fr Hs.
    destruct flatte_m as [M P0]. destruct Fr as (_ & _ & _ & _ & _ & _ & _ & Y1 & Y2 & A1 & B1 & A2 & B2 & Hm).
    pose proof (Rinv_0_lt_compat _ P0) as X. pose proof (Rinv_0_lt_compat _ (sqrt_lt_R0 xs Hs)) as Z.
    assert (Q1 : 0 <= decay_momentum xs xa1 xb1) by apply sqrt_pos. assert (Q2 : 0 <= decay_momentum xs xa2 xb2) by apply sqrt_pos.
    pose proof (bound_pos xs xa1 xb1) as K1. pose proof (bound_pos xs xa2 xb2) as K2. split.
    - intros [|i]; unfold g, flatte_widths, Rdiv; repeat apply Rmult_le_pos; lra.
    - unfold d, flatte_shift, Rdiv. assert (0 <= y1 * bound_momentum xs xa1 xb1) by (apply Rmult_le_pos; lra).
      assert (0 <= y2 * bound_momentum xs xa2 xb2) by (apply Rmult_le_pos; lra). repeat apply Rmult_le_pos; lra.
  Qed.
  Lemma flatte_parts : t = bw_simple (RtoC (xs - d)) (RtoC xm) (RtoC (Rsum (seq 0 2) g)).
  Proof using Es Fr Hs.
    destruct flatte_m as [M P0]. destruct Fr as (Em & E1 & E2 & Ea1 & Eb1 & Ea2 & Eb2 & Y1 & Y2 & A1 & B1 & A2 & B2 & Hm).
    unfold t. rewrite (proj1 (c38_flatte ev h s m w1 w2 a1 b1 a2 b2)), Es, Em, E1, E2, Ea1, Eb1, Ea2, Eb2, <- RtoC_mult, !momentum_parts.
    rewrite (open_bound (xm * xm) xa2 xb2 A2 B2 ltac:(clear -M; nra) ltac:(unfold channel_open; clear -A2 B2 Hm; nra)), csqrt_nonneg by lra.
    fold (RtoC (decay_momentum (xm * xm) xa2 xb2)). pose proof (sqrt_lt_R0 xs Hs) as S0. unfold d, g, flatte_shift, flatte_widths, bw_simple. cbn [seq Rsum].
    generalize dependent (decay_momentum (xm * xm) xa2 xb2). intros P P0. generalize (decay_momentum xs xa1 xb1) (decay_momentum xs xa2 xb2) (bound_momentum xs xa1 xb1) (bound_momentum xs xa2 xb2).
    generalize dependent (sqrt xs). intros S S0 q1 q2 k1 k2. f_equal. unfold Cdiv. rewrite !Cinv_RtoC.
    apply injective_projections; cbn [fst snd RtoC Cplus Cminus Cmult Copp Ci]; unfold Rdiv; ring.
  Qed.
  Theorem flatte_amplitude : xs <> xm * xm + d \/ 0 < g 0 + g 1 ->
    t = (RtoC 1 / (RtoC (xm * xm + d) - RtoC xs - Ci * RtoC (xm * (g 0%nat + g 1%nat))))%C /\
    Im t = xm * (g 0%nat + g 1%nat) * Cmod t ^ 2 /\ unitary 2 (s_matrix xm g t).
  Proof using Es Fr Hs.
    intros H. destruct flatte_m as [M _]. destruct flatte_pos as [G D]. rewrite flatte_parts.
    assert (N : xs - d <> xm * xm \/ xm * Rsum (seq 0 2) g <> 0).
    { cbn [seq Rsum]. destruct H as [H|H]; [left; lra|right]. apply Rgt_not_eq. apply Rmult_lt_0_compat; lra. }
    split; [|split].
    - unfold bw_simple. f_equal. cbn [seq Rsum]. apply injective_projections; cbn [fst snd RtoC Cplus Cminus Cmult Copp Ci]; ring.
    - replace (g 0%nat + g 1%nat) with (Rsum (seq 0 2) g) by (cbn [seq Rsum]; ring). apply bw_elastic. exact N.
    - apply bw_unitary; auto.
  Qed.
  Theorem flatte_closed :
    (channel_closed xs xa1 xb1 -> g 0 = 0 /\ (0 < y1 -> 0 < d)) /\ (channel_closed xs xa2 xb2 -> g 1 = 0 /\ (0 < y2 -> 0 < d)) /\
    (channel_open xs xa1 xb1 -> channel_open xs xa2 xb2 -> d = 0) /\
    (channel_closed xs xa1 xb1 -> channel_closed xs xa2 xb2 -> Im t = 0).
  Proof using Es Fr Hs.
    destruct flatte_m as [M P0]. pose proof flatte_parts as Ft. destruct Fr as (_ & _ & _ & _ & _ & _ & _ & Y1 & Y2 & A1 & B1 & A2 & B2 & Hm).
    pose proof (Rinv_0_lt_compat _ P0) as X. pose proof (Rinv_0_lt_compat _ (sqrt_lt_R0 xs Hs)) as Z.
    pose proof (bound_pos xs xa1 xb1) as K1. pose proof (bound_pos xs xa2 xb2) as K2.
    assert (D : 0 < y1 * bound_momentum xs xa1 xb1 + y2 * bound_momentum xs xa2 xb2 -> 0 < d).
    { intros U. unfold d, flatte_shift, Rdiv. repeat apply Rmult_lt_0_compat; lra. }
    assert (C1 : channel_closed xs xa1 xb1 -> g 0 = 0) by (intros H; unfold g, flatte_widths; rewrite (proj1 (closed_momenta _ _ _ Hs H)); unfold Rdiv; ring).
    assert (C2 : channel_closed xs xa2 xb2 -> g 1 = 0) by (intros H; unfold g, flatte_widths; rewrite (proj1 (closed_momenta _ _ _ Hs H)); unfold Rdiv; ring).
    split; [|split; [|split]].
    - intros H. split; [auto|]. intros Y. apply D. pose proof (proj2 (closed_momenta _ _ _ Hs H)) as K. pose proof (Rmult_lt_0_compat _ _ Y K).
      pose proof (Rmult_le_pos _ _ Y2 K2). lra.
    - intros H. split; [auto|]. intros Y. apply D. pose proof (proj2 (closed_momenta _ _ _ Hs H)) as K. pose proof (Rmult_lt_0_compat _ _ Y K).
      pose proof (Rmult_le_pos _ _ Y1 K1). lra.
    - intros H1 H2. unfold d, flatte_shift. rewrite !open_bound by auto. unfold Rdiv. ring.
    - intros H1 H2. rewrite Ft. cbn [seq Rsum]. rewrite (C1 H1), (C2 H2), bw_real. cbn [Im snd]. unfold Rdiv. ring.
  Qed.
End Flatte.

(** ** Continuity *)
Lemma rbreakup_continuous a b s : 0 < s -> continuous (fun s => rbreakup s a b) s.
Proof. intros H. apply (ex_derive_continuous (fun s => rbreakup s a b)). unfold rbreakup. auto_derive. lra. Qed.
Lemma decay_momentum_continuous a b s : 0 < s -> continuous (fun s => decay_momentum s a b) s.
Proof. intros H. apply (continuous_comp (fun s => rbreakup s a b) sqrt); [apply rbreakup_continuous; exact H|apply continuous_sqrt]. Qed.
Lemma bound_momentum_continuous a b s : 0 < s -> continuous (fun s => bound_momentum s a b) s.
Proof.
  intros H. apply (continuous_comp (fun s => - rbreakup s a b) sqrt); [|apply continuous_sqrt].
  apply (continuous_opp (fun s => rbreakup s a b)). apply rbreakup_continuous. exact H.
Qed.
Lemma inv_sqrt_continuous s : 0 < s -> continuous (fun s => / sqrt s) s.
Proof. intros H. apply (ex_derive_continuous (fun s => / sqrt s)). auto_derive. split; [exact H|]. split; [|trivial]. apply Rgt_not_eq, sqrt_lt_R0, H. Qed.
Lemma cmul (f g : R -> R) x : continuous f x -> continuous g x -> continuous (fun x => f x * g x) x.
Proof. intros. apply (continuous_mult f g); auto. Qed.
Lemma cadd (f g : R -> R) x : continuous f x -> continuous g x -> continuous (fun x => f x + g x) x.
Proof. intros. apply (continuous_plus f g); auto. Qed.
Lemma ccst (c x : R) : continuous (fun _ => c) x.
Proof. apply continuous_const. Qed.
Lemma cinv (f : R -> R) x : continuous f x -> f x <> 0 -> continuous (fun x => / f x) x.
Proof. intros Hf N. apply (continuous_comp f Rinv); [exact Hf|]. apply continuity_pt_filterlim. apply continuity_pt_inv; [|exact N]. apply continuity_pt_id. Qed.
Lemma ext_at (f g : R -> R) x : 0 < x -> (forall y, 0 < y -> f y = g y) -> continuous f x -> continuous g x.
Proof.
  intros Hx E Hf. apply (continuous_ext_loc _ f); [|exact Hf]. exists (mkposreal x Hx). intros y Hy.
  apply E. apply Rabs_def2 in Hy. cbn in Hy. unfold minus, plus, opp in Hy. cbn in Hy. lra.
Qed.

Section Across.
  Context (ev : R -> env) (h : symbol -> Z) (s m w1 w2 a1 b1 a2 b2 : cexpr) (xm y1 y2 xa1 xb1 xa2 xb2 x : R).
  Hypothesis Es : forall x, ceval (ev x) h s = RtoC x.
  Hypothesis Fr : forall x, flatte_real (ev x) h m w1 w2 a1 b1 a2 b2 xm y1 y2 xa1 xb1 xa2 xb2.
  Hypothesis Hx : 0 < x.
  Let g x := flatte_widths x xm y1 y2 xa1 xb1 xa2 xb2.
  Let d x := flatte_shift x xm y1 y2 xa1 xb1 xa2 xb2.
  Theorem flatte_continuous : x <> xm * xm + d x \/ 0 < g x 0%nat + g x 1%nat ->
    continuous (fun x => Re (ceval (ev x) h (flatte_s_wave s m w1 w2 a1 b1 a2 b2))) x /\
    continuous (fun x => Im (ceval (ev x) h (flatte_s_wave s m w1 w2 a1 b1 a2 b2))) x.
  Proof using Es Fr Hx.
    intros N. assert (M : 0 < xm) by exact (proj1 (flatte_m _ _ _ _ _ _ _ _ _ _ _ _ _ _ _ _ (Fr 0))).
    set (W := fun x => Rsum (seq 0 2) (g x)). set (D := fun x => (xm * xm + (-1) * x + d x) * (xm * xm + (-1) * x + d x) + (xm * W x) * (xm * W x)).
    assert (V : forall y, 0 < y -> ceval (ev y) h (flatte_s_wave s m w1 w2 a1 b1 a2 b2) = ((xm * xm + (-1) * y + d y) * / D y, (xm * W y) * / D y)).
    { intros y Hy. rewrite (flatte_parts (ev y) h s m w1 w2 a1 b1 a2 b2 y xm y1 y2 xa1 xb1 xa2 xb2 (Es y) (Fr y) Hy), bw_real.
      unfold D, W, d, g, Rdiv. apply injective_projections; cbn [fst snd]; f_equal; try ring; f_equal; ring. }
    assert (dc : continuous d x).
    { unfold d, flatte_shift, Rdiv. apply cmul; [apply ccst|]. apply cmul; [apply cmul; [apply cadd; (apply cmul; [apply ccst|apply bound_momentum_continuous; exact Hx])|apply ccst]|].
      apply cmul; [apply ccst|]. apply inv_sqrt_continuous. exact Hx. }
    assert (gc : forall i, continuous (fun x => g x i) x).
    { intros [|i]; unfold g, flatte_widths, Rdiv; (apply cmul; [apply cmul; [apply ccst|apply cmul; [apply decay_momentum_continuous; exact Hx|apply ccst]]|apply cmul; [apply ccst|apply inv_sqrt_continuous; exact Hx]]). }
    assert (Wc : continuous W x) by (unfold W; cbn [seq Rsum]; apply cadd; [apply gc|apply cadd; [apply gc|apply ccst]]).
    assert (Uc : continuous (fun y => xm * xm + (-1) * y + d y) x) by (apply cadd; [apply cadd; [apply ccst|apply cmul; [apply ccst|apply continuous_id]]|exact dc]).
    assert (mWc : continuous (fun y => xm * W y) x) by (apply cmul; [apply ccst|exact Wc]).
    assert (Dc : continuous D x) by (unfold D; apply cadd; apply cmul; assumption).
    assert (D0 : D x <> 0).
    { unfold D. assert (WE : W x = g x 0%nat + g x 1%nat) by (unfold W; cbn [seq Rsum]; ring). rewrite WE. destruct N as [N|N].
      - assert (A : 0 < (xm * xm + -1 * x + d x) * (xm * xm + -1 * x + d x)) by (apply Rsqr_pos_lt; lra).
        pose proof (Rle_0_sqr (xm * (g x 0%nat + g x 1%nat))) as B. unfold Rsqr in B. lra.
      - assert (A : 0 < xm * (g x 0%nat + g x 1%nat)) by (apply Rmult_lt_0_compat; lra). pose proof (Rmult_lt_0_compat _ _ A A) as B.
        pose proof (Rle_0_sqr (xm * xm + -1 * x + d x)) as C. unfold Rsqr in C. lra. }
    pose proof (cinv D x Dc D0) as Ic. split.
    - apply (ext_at (fun y => (xm * xm + (-1) * y + d y) * / D y)); [exact Hx|intros y Hy; rewrite V by exact Hy; reflexivity|]. apply (cmul (fun y => xm * xm + -1 * y + d y)); assumption.
    - apply (ext_at (fun y => (xm * W y) * / D y)); [exact Hx|intros y Hy; rewrite V by exact Hy; reflexivity|]. apply (cmul (fun y => xm * W y)); assumption.
  Qed.
End Across.

(** ** The Breit-Wigner with an energy-dependent width *)
Lemma ff_sq_real L s a b r : (form_factor L (RtoC s) (RtoC a) (RtoC b) (RtoC r) * form_factor L (RtoC s) (RtoC a) (RtoC b) (RtoC r))%C =
  RtoC (bsq (Z.to_nat L) (rbreakup s a b * (r * r))).
Proof.
  unfold form_factor. rewrite csqrt_square, breakup_real, <- !RtoC_mult. unfold blatt_weisskopf_squared, bsq, Cdiv, Rdiv.
  rewrite !bw_poly_real, <- !pa_bw, cpow_real, Cinv_RtoC, <- !RtoC_mult. reflexivity.
Qed.
Theorem breit_wigner_closed ev h s m G m1 m2 L d xs xm xG a b :
  ceval ev h s = RtoC xs -> real_resonance ev h m G m1 m2 d xm xG a b -> channel_closed xs a b -> 
  Im (ceval ev h (breit_wigner s m G m1 m2 L d phase_space_factor)) = 0 /\
  Im (ceval ev h (relativistic_breit_wigner s m G m1 m2 L d phase_space_factor)) = 0.
Proof.
  intros Es (r & Em & EG & Ea & Eb & Er & R0 & G0 & A & B & Hab & Hm) H.
  assert (Hs : 0 < xs) by (destruct H as [H _]; pose proof (Rle_0_sqr (a - b)) as X; unfold Rsqr in X; lra).
  assert (Wv : exists y, running_width two_body_phsp L (RtoC xs) (RtoC xm) (RtoC xG) (RtoC a) (RtoC b) (RtoC r) = (Ci * RtoC y)%C).
  { unfold running_width. rewrite <- !RtoC_mult, !ff_sq_real. unfold two_body_phsp. rewrite !momentum_parts.
    destruct (closed_momenta xs a b Hs H) as [-> K].
    rewrite (open_bound (xm * xm) a b A B ltac:(clear -Hm Hab; nra) ltac:(unfold channel_open; clear -Hm Hab; nra)), !csqrt_nonneg by nra.
    fold (RtoC (decay_momentum (xm * xm) a b)).
    replace ((0, bound_momentum xs a b) : C) with (Ci * RtoC (bound_momentum xs a b))%C by (apply injective_projections; cbn [fst snd RtoC Cmult Ci]; ring).
    unfold Cdiv. rewrite !Cinv_RtoC, <- !RtoC_mult, Cinv_RtoC.
    match goal with |- exists y, (RtoC ?u * (RtoC 2 * (Ci * RtoC ?k) * RtoC ?z * RtoC ?w))%C = _ => exists (u * (2 * k * z * w)) | |- ?G => idtac G end.
    apply injective_projections; cbn [fst snd RtoC Cmult Ci]; ring. }
  destruct Wv as [y W].
  assert (T : Im (bw_simple (RtoC xs) (RtoC xm) (Ci * RtoC y)%C) = 0).
  { unfold bw_simple. replace (RtoC xm * RtoC xm - RtoC xs - Ci * RtoC xm * (Ci * RtoC y))%C with (RtoC (xm * xm - xs + xm * y)).
    - unfold Cdiv. rewrite Cinv_RtoC, <- RtoC_mult. reflexivity.
    - apply injective_projections; cbn [fst snd RtoC Cplus Cminus Cmult Copp Ci]; ring. }
  split.
  - unfold breit_wigner. rewrite eval_simple, (eval_bw_width ev h s m G m1 m2 L d xs xm xG a b r) by assumption. rewrite Es, Em, W. exact T.
  - rewrite (eval_relativistic _ _ _ _ _ _ _ _ _ _ _ phase_space_factor_value), Es, Em, EG, Ea, Eb, Er, W.
    rewrite <- RtoC_mult. unfold Im in *. cbn [Cmult RtoC fst snd]. rewrite T. ring.
Qed.

(** ** The multichannel Breit-Wigner: closed channels do absorb *)
(** An S wave of two particles of mass 20 at the mass 10 of the resonance, alone *)
Lemma mc_s_wave : channel_closed 100 20 20 /\
  ceval cx_env (fun _ => 0%Z) (multichannel_breit_wigner (CNum 100) (CNum 10) [Channel (CNum 100) (CNum 10) (CNum 5) (CNum 20) (CNum 20) 0 (CNum 1)]) =
  (Ci / RtoC 50)%C.
Proof.
  split; [unfold channel_closed; lra|]. rewrite c38_multichannel, !cx_num. cbn [Csum]. rewrite <- channel_eval, channel_s_wave by reflexivity. cbn [cn_width cn_m0 cn_s].
  rewrite !cx_num, csqrt_nonneg by lra. replace (sqrt (IZR 100)) with 10 by (replace (IZR 100) with (10 * 10) by lra; symmetry; apply sqrt_square; lra).
  unfold bw_simple, Cdiv. rewrite !Cinv_RtoC. apply injective_projections; unfold Cinv; cbn [fst snd RtoC Cplus Cminus Cmult Copp Ci]; field.
Qed.
(** A P wave of two particles of mass 2 at s = 4, with R = 1/2 *)
Definition mc_p_wave : channel := Channel (CNum 4) (CNum 2) (CNum 1) (CNum 2) (CNum 2) 1 (CRat (Q2Qc (1 # 2))).
Definition mc_open : channel := Channel (CNum 4) (CNum 2) (CNum 6) (CNum 0) (CNum 0) 0 (CNum 1).
Lemma mc_radius : ceval cx_env (fun _ => 0%Z) (CRat (Q2Qc (1 # 2))) = RtoC (/ 2).
Proof. cbn [ceval]. f_equal. unfold Q2R. cbn. lra. Qed.
Lemma sqrt4 : sqrt (IZR 4) = 2.
Proof. replace (IZR 4) with (2 * 2) by lra. apply sqrt_square. lra. Qed.
Lemma pa_1 y : pa y 1 2 = 1 + y.
Proof. unfold pa, ac, bw_coeff. cbn [seq Rsum Nat.leb Nat.mul Nat.add Nat.sub fact pow INR]. field. Qed.
Lemma bsq_1 z : bsq 1 z = 2 * z / (1 + z).
Proof. unfold bsq. rewrite !pa_1. unfold Rdiv. ring. Qed.
Lemma mc_negative : channel_closed 4 2 2 /\ ceval cx_env (fun _ => 0%Z) (channel_width mc_p_wave) = RtoC (-6).
Proof.
  split; [unfold channel_closed; lra|]. rewrite channel_eval. unfold channel_value, mc_p_wave. cbn [cn_s cn_m0 cn_width cn_m1 cn_m2 cn_L cn_radius].
  rewrite mc_radius, !cx_num, ff_sq_real, csqrt_nonneg, sqrt4 by lra. change (Z.to_nat 1) with 1%nat. rewrite bsq_1.
  unfold Cdiv. rewrite Cinv_RtoC, <- !RtoC_mult. f_equal. unfold rbreakup. field.
Qed.
Lemma mc_pole : ~ no_pole cx_env (multichannel_breit_wigner (CNum 4) (CNum 2) [mc_open; mc_p_wave]).
Proof.
  intros H. unfold multichannel_breit_wigner, breit_wigner, simple_breit_wigner in H. unfold no_pole in H. cbn [divisors] in H.
  eapply H; [left; reflexivity|]. clear H. unfold breit_wigner_width.
  assert (Z : is_zero (CNum 0) = true) by reflexivity. rewrite Z. cbn [Z.eqb andb ceval]. rewrite !cx_num.
  rewrite ceval_CAddL. cbn [map Csum]. rewrite (proj2 mc_negative), channel_s_wave by reflexivity. unfold mc_open. cbn [cn_width cn_m0 cn_s].
  rewrite !cx_num, csqrt_nonneg, sqrt4 by lra. unfold Cdiv. rewrite Cinv_RtoC.
  apply injective_projections; cbn [fst snd RtoC Cplus Cminus Cmult Copp Ci]; field.
Qed.

(** ** Examples *)
Lemma cx_closed_flatte : (forall x, ceval (cx_at x) (fun _ => 0%Z) (CVar cx_s) = RtoC x) /\
  (forall x, flatte_real (cx_at x) (fun _ => 0%Z) (CNum 10) (CNum 5) (CNum 3) (CNum 6) (CNum 6) (CNum 1) (CNum 1) 10 5 3 6 6 1 1) /\
  channel_closed 100 6 6 /\ channel_open 100 1 1 /\ 0 < flatte_widths 100 10 5 3 6 6 1 1 0 + flatte_widths 100 10 5 3 6 6 1 1 1.
Proof.
  split; [reflexivity|]. split.
  { intros x. unfold flatte_real. rewrite !CNum_value. repeat split; lra. }
  split; [unfold channel_closed; lra|]. split; [unfold channel_open; lra|].
  destruct (closed_momenta 100 6 6 ltac:(lra) ltac:(unfold channel_closed; lra)) as [E _]. unfold flatte_widths. rewrite E.
  pose proof (momentum_pos 100 1 1 ltac:(lra) ltac:(lra) ltac:(lra)) as P. pose proof (momentum_pos (10 * 10) 1 1 ltac:(lra) ltac:(lra) ltac:(lra)) as P0.
  pose proof (sqrt_lt_R0 100 ltac:(lra)) as S0. pose proof (Rinv_0_lt_compat _ P0). pose proof (Rinv_0_lt_compat _ S0).
  assert (0 < 3 * (decay_momentum 100 1 1 / decay_momentum (10 * 10) 1 1) * (10 / sqrt 100)) by (unfold Rdiv; repeat apply Rmult_lt_0_compat; lra).
  unfold Rdiv in *. lra.
Qed.
Lemma cx_below : ceval (cx_at 4) (fun _ => 0%Z) (CVar cx_s) = RtoC 4 /\
  real_resonance (cx_at 4) (fun _ => 0%Z) (CNum 10) (CNum 5) (CNum 1) (CNum 2) (CNum 3) 10 5 1 2 /\ channel_closed 4 1 2.
Proof. split; [reflexivity|]. split; [apply cx_resonance|]. unfold channel_closed. lra. Qed.
