(** Resonances below the threshold of their decay products (proofs for C150) *)
From Coq Require Import String ZArith QArith Qcanon Qreals List Bool Reals Lia Lra Psatz.
From Coquelicot Require Import Coquelicot.
From Verif Require Import Prelude Decay Expr Sums CExpr Builder SpecDPD Dynamics SpecDynamics CExprFacts LineshapeFacts LineshapeProofs SpecFinite FiniteShapes
  SpecHankel HankelFacts SpecUnitary UnitaryProofs ChannelProofs SpecClosed ClosedProofs.
Import ListNotations.
Local Open Scope R_scope.

(** ** Lineshapes that absorb *)
Theorem constant_absorbs ev h s m G xs xm xG : ceval ev h s = RtoC xs -> ceval ev h m = RtoC xm -> ceval ev h G = RtoC xG -> 0 < xm -> 0 < xG ->
  0 < Im (ceval ev h (simple_breit_wigner s m G)).
Proof.
  intros Es Em EG Hm HG. rewrite eval_simple, Es, Em, EG, bw_real. cbn [Im snd]. destruct (bw_d_pos xs xm xG Hm HG) as [A B].
  apply Rdiv_lt_0_compat; assumption.
Qed.
Theorem flatte_absorbs ev h s m w1 w2 a1 b1 a2 b2 xs xm y1 y2 xa1 xb1 xa2 xb2 :
  ceval ev h s = RtoC xs -> flatte_real ev h m w1 w2 a1 b1 a2 b2 xm y1 y2 xa1 xb1 xa2 xb2 ->
  (xa1 + xb1) * (xa1 + xb1) < xs -> 0 < y1 -> 0 < Im (ceval ev h (flatte_s_wave s m w1 w2 a1 b1 a2 b2)).
Proof.
  intros Es F T Y. assert (Hs : 0 < xs) by (pose proof (Rle_0_sqr (xa1 + xb1)) as X; unfold Rsqr in X; lra).
  destruct (flatte_m _ _ _ _ _ _ _ _ _ _ _ _ _ _ _ _ F) as [M P0]. pose proof (flatte_parts _ _ _ _ _ _ _ _ _ _ _ _ _ _ _ _ _ _ Es F Hs) as E.
  destruct (flatte_pos _ _ _ _ _ _ _ _ _ xs _ _ _ _ _ _ _ F Hs) as [G _]. destruct F as (_ & _ & _ & _ & _ & _ & _ & Y1 & Y2 & A1 & B1 & A2 & B2 & Hm).
  rewrite E, bw_real. cbn [Im snd]. set (g := flatte_widths xs xm y1 y2 xa1 xb1 xa2 xb2) in *.
  assert (G0 : 0 < g 0%nat).
  { unfold g, flatte_widths. pose proof (momentum_pos xs xa1 xb1 A1 B1 T) as Q. pose proof (Rinv_0_lt_compat _ P0). pose proof (Rinv_0_lt_compat _ (sqrt_lt_R0 xs Hs)).
    unfold Rdiv. repeat apply Rmult_lt_0_compat; lra. }
  pose proof (G 1%nat) as G1. assert (W : 0 < Rsum (seq 0 2) g) by (cbn [seq Rsum]; lra).
  destruct (bw_d_pos (xs - flatte_shift xs xm y1 y2 xa1 xb1 xa2 xb2) xm (Rsum (seq 0 2) g) M W) as [A B]. apply Rdiv_lt_0_compat; assumption.
Qed.

(** ** The energy-dependent width *)
Definition below_width (L : Z) (s m G a b r : R) : R :=
  G * (bsq (Z.to_nat L) (rbreakup s a b * (r * r)) / bsq (Z.to_nat L) (rbreakup (m * m) a b * (r * r)))
  * (decay_momentum s a b / bound_momentum (m * m) a b * (m / sqrt s)).
Section Below.
  Context (ev : env) (h : symbol -> Z) (s m G m1 m2 d : cexpr) (xs xm xG a b r : R) (L : Z).
  Hypothesis Es : ceval ev h s = RtoC xs.
  Hypothesis B : below_threshold ev h m G m1 m2 d xm xG a b r.
  Hypothesis Ts : (a + b) * (a + b) < xs.
  Lemma below_basic : 0 < xs /\ 0 < a + b /\ 0 < decay_momentum xs a b /\ 0 < bound_momentum (xm * xm) a b /\ decay_momentum (xm * xm) a b = 0.
  Proof using B Ts.
    destruct B as (_ & _ & _ & _ & _ & R0 & G0 & M & A & Bb & Cl). assert (X := Rle_0_sqr (a + b)). unfold Rsqr in X.
    assert (0 < xm * xm) by (apply Rmult_lt_0_compat; exact M). destruct (closed_momenta (xm * xm) a b H Cl) as [E K].
    split; [lra|]. split; [|split; [apply momentum_pos; assumption|split; assumption]].
    destruct Cl as [_ Cl]. destruct (Rle_lt_or_eq_dec 0 (a + b) ltac:(lra)) as [Y|Y]; [exact Y|]. rewrite <- Y in Cl. lra.
  Qed.
  Lemma below_running : running_width two_body_phsp L (RtoC xs) (RtoC xm) (RtoC xG) (RtoC a) (RtoC b) (RtoC r) = (- Ci * RtoC (below_width L xs xm xG a b r))%C.
  Proof using B Ts.
    destruct below_basic as (Hs & Hab & Q & K & E). destruct B as (_ & _ & _ & _ & _ & R0 & G0 & M & A & Bb & Cl).
    unfold running_width. rewrite <- !RtoC_mult, !ff_sq_real. unfold two_body_phsp. rewrite !momentum_parts, E.
    rewrite (open_bound xs a b A Bb Hs ltac:(unfold channel_open; lra)), !csqrt_nonneg by nra. rewrite sqrt_square by lra.
    fold (RtoC (decay_momentum xs a b)). pose proof (sqrt_lt_R0 xs Hs) as S0. unfold below_width.
    generalize dependent (decay_momentum xs a b). intros q Q. generalize dependent (bound_momentum (xm * xm) a b). intros k K.
    generalize dependent (sqrt xs). intros t T.
    generalize (bsq (Z.to_nat L) (rbreakup xs a b * (r * r))) (bsq (Z.to_nat L) (rbreakup (xm * xm) a b * (r * r))). intros u v.
    replace ((0, k) : C) with (Ci * RtoC k)%C by (apply injective_projections; cbn [fst snd RtoC Cmult Ci]; ring).
    unfold Cdiv. rewrite !Cinv_RtoC.
    replace (/ (RtoC 2 * (Ci * RtoC k) * RtoC (/ xm)))%C with (- Ci * RtoC (xm / (2 * k)))%C.
    - apply injective_projections; cbn [fst snd RtoC Cmult Copp Ci]; unfold Rdiv; generalize (/ v); intros v0; field; lra.
    - apply injective_projections; unfold Cinv; cbn [fst snd RtoC Cmult Copp Ci]; field; lra.
  Qed.
  Lemma below_value : bw_simple (RtoC xs) (RtoC xm) (- Ci * RtoC (below_width L xs xm xG a b r))%C = RtoC (/ (xm * xm - xs - xm * below_width L xs xm xG a b r)).
  Proof using.
    unfold bw_simple. rewrite one_Cmult, <- Cinv_RtoC. f_equal. apply injective_projections; cbn [fst snd RtoC Cplus Cminus Cmult Copp Ci]; ring.
  Qed.
  Theorem below_lineshape : ceval ev h (breit_wigner s m G m1 m2 L d phase_space_factor) = RtoC (/ (xm * xm - xs - xm * below_width L xs xm xG a b r)) /\
    ceval ev h (relativistic_breit_wigner s m G m1 m2 L d phase_space_factor) = RtoC (xm * xG / (xm * xm - xs - xm * below_width L xs xm xG a b r)).
  Proof using Es B Ts.
    pose proof below_running as W. destruct below_basic as (Hs & Hab & _). destruct B as (Em & EG & Ea & Eb & Er & R0 & G0 & M & A & Bb & Cl). split.
    - unfold breit_wigner. rewrite eval_simple, (eval_bw_width ev h s m G m1 m2 L d xs xm xG a b r) by assumption. rewrite Es, Em, W. apply below_value.
    - rewrite (eval_relativistic _ _ _ _ _ _ _ _ _ _ _ phase_space_factor_value), Es, Em, EG, Ea, Eb, Er, W, below_value.
      unfold Rdiv. rewrite !RtoC_mult. reflexivity.
  Qed.
  Theorem below_real : Im (ceval ev h (breit_wigner s m G m1 m2 L d phase_space_factor)) = 0 /\
    Im (ceval ev h (relativistic_breit_wigner s m G m1 m2 L d phase_space_factor)) = 0.
  Proof using Es B Ts. destruct below_lineshape as [-> ->]. split; reflexivity. Qed.
  Theorem below_s_wave : L = 0%Z ->
    exists w, 0 < w /\ ceval ev h (breit_wigner s m G m1 m2 L d phase_space_factor) = RtoC (- / (xs - xm * xm + w)) /\ - / (xs - xm * xm + w) < 0.
  Proof using Es B Ts.
    intros L0. destruct below_lineshape as [E _]. destruct below_basic as (Hs & Hab & Q & K & _). pose proof B as (_ & _ & _ & _ & _ & R0 & G0 & M & A & Bb & Cl).
    exists (xm * below_width L xs xm xG a b r).
    assert (W : 0 < xm * below_width L xs xm xG a b r).
    { unfold below_width. rewrite L0. change (Z.to_nat 0) with 0%nat. rewrite !bsq_0. pose proof (Rinv_0_lt_compat _ K). pose proof (Rinv_0_lt_compat _ (sqrt_lt_R0 xs Hs)).
      unfold Rdiv. rewrite Rinv_1. repeat apply Rmult_lt_0_compat; lra. }
    destruct Cl as [_ Cl]. assert (P : 0 < xs - xm * xm + xm * below_width L xs xm xG a b r) by lra. split; [exact W|]. split.
    - rewrite E. f_equal. field. lra.
    - pose proof (Rinv_0_lt_compat _ P). lra.
  Qed.
End Below.

(** ** A pole of a P wave *)
Lemma below_scale L s m G a b r : below_width L s m G a b r = G * below_width L s m 1 a b r.
Proof. unfold below_width. ring. Qed.
Lemma below_p_wave s m a b r : 0 < m -> 0 <= a -> 0 <= b -> 0 < r -> channel_closed (m * m) a b -> bound_momentum (m * m) a b * r < 1 -> (a + b) * (a + b) < s ->
  below_width 1 s m 1 a b r < 0.
Proof.
  intros M A B R0 Cl Kr T. assert (X := Rle_0_sqr (a + b)). unfold Rsqr in X. assert (Hs : 0 < s) by lra. assert (M2 : 0 < m * m) by (apply Rmult_lt_0_compat; exact M).
  destruct (closed_momenta (m * m) a b M2 Cl) as [_ K]. pose proof (closed_sign _ _ _ M2 Cl) as Z0.
  assert (Kz : rbreakup (m * m) a b = - (bound_momentum (m * m) a b * bound_momentum (m * m) a b)).
  { unfold bound_momentum. fold (rbreakup (m * m) a b). rewrite sqrt_sqrt; lra. }
  pose proof (momentum_pos s a b A B T) as Q. pose proof (proj2 (rbreakup_sign s a b A B Hs) T) as Zs.
  unfold below_width. change (Z.to_nat 1) with 1%nat. rewrite !bsq_1.
  set (z := rbreakup s a b * (r * r)). set (z0 := rbreakup (m * m) a b * (r * r)).
  assert (Hz : 0 < z) by (unfold z; apply Rmult_lt_0_compat; [exact Zs|apply Rmult_lt_0_compat; exact R0]).
  assert (Hz0 : -1 < z0 < 0).
  { unfold z0. rewrite Kz. set (k := bound_momentum (m * m) a b) in *. assert (0 < k * r) by (apply Rmult_lt_0_compat; assumption). clear -H Kr. nra. }
  assert (U : 0 < 2 * z / (1 + z)) by (apply Rdiv_lt_0_compat; lra).
  assert (V : 2 * z0 / (1 + z0) < 0).
  { assert (0 < (- (2 * z0)) / (1 + z0)) by (apply Rdiv_lt_0_compat; lra). unfold Rdiv in *. lra. }
  assert (F : 0 < decay_momentum s a b / bound_momentum (m * m) a b * (m / sqrt s)).
  { pose proof (Rinv_0_lt_compat _ K). pose proof (Rinv_0_lt_compat _ (sqrt_lt_R0 s Hs)). unfold Rdiv. repeat apply Rmult_lt_0_compat; lra. }
  assert (W : 2 * z / (1 + z) / (2 * z0 / (1 + z0)) < 0).
  { pose proof (Rinv_lt_0_compat _ V) as I. unfold Rdiv at 1. generalize dependent (/ (2 * z0 / (1 + z0))). intros i I. clear -U I. nra. }
  generalize dependent (2 * z / (1 + z) / (2 * z0 / (1 + z0))). intros w W. generalize dependent (decay_momentum s a b / bound_momentum (m * m) a b * (m / sqrt s)). intros f F.
  clear -W F. nra.
Qed.

(** Symbols for the mass, the width, the masses of the decay products and the radius *)
Definition bt (x : string) : symbol := Sym x ANonneg.
Definition bt_env (s m G a b r : R) : env := Env (fun x =>
  if eqb x (bt "s") then RtoC s else if eqb x (bt "m") then RtoC m else if eqb x (bt "G") then RtoC G
  else if eqb x (bt "a") then RtoC a else if eqb x (bt "b") then RtoC b else RtoC r) (fun _ _ => RtoC 0).
Definition bt_shape (L : Z) : cexpr :=
  relativistic_breit_wigner (CVar (bt "s")) (CVar (bt "m")) (CVar (bt "G")) (CVar (bt "a")) (CVar (bt "b")) L (CVar (bt "r")) phase_space_factor.
Lemma bt_below s m G a b r : 0 < r -> 0 < G -> 0 < m -> 0 <= a -> 0 <= b -> channel_closed (m * m) a b ->
  below_threshold (bt_env s m G a b r) (fun _ => 0%Z) (CVar (bt "m")) (CVar (bt "G")) (CVar (bt "a")) (CVar (bt "b")) (CVar (bt "r")) m G a b r.
Proof. intros. unfold below_threshold. repeat (split; [first [reflexivity|assumption]|]). assumption. Qed.
Theorem below_pole s m a b r : 0 < m -> 0 <= a -> 0 <= b -> 0 < r -> channel_closed (m * m) a b -> bound_momentum (m * m) a b * r < 1 ->
  (a + b) * (a + b) < s -> exists G, 0 < G /\ ~ no_pole (bt_env s m G a b r) (bt_shape 1).
Proof.
  intros M A B R0 Cl Kr T. pose proof (below_p_wave s m a b r M A B R0 Cl Kr T) as W. set (w := below_width 1 s m 1 a b r) in *.
  assert (D : 0 < s - m * m) by (destruct Cl; lra). exists ((s - m * m) / (m * (- w))).
  assert (Mw : 0 < m * (- w)) by (apply Rmult_lt_0_compat; lra). assert (Gp : 0 < (s - m * m) / (m * - w)) by (apply Rdiv_lt_0_compat; assumption).
  set (G := (s - m * m) / (m * - w)) in *. split; [exact Gp|]. intros H.
  pose proof (bt_below s m G a b r R0 Gp M A B Cl) as Bt.
  unfold no_pole, bt_shape, relativistic_breit_wigner in H. cbn [divisors] in H. eapply H; [left; reflexivity|]. clear H.
  cbn [ceval]. rewrite (eval_width _ _ _ _ _ _ _ _ _ _ _ phase_space_factor_value).
  pose proof (below_running (bt_env s m G a b r) (fun _ => 0%Z) _ _ _ _ _ s m G a b r 1 Bt T) as E.
  destruct Bt as (Em & EG & Ea & Eb & Er & _). rewrite EG, Ea, Eb, Er, Em. change (ceval (bt_env s m G a b r) (fun _ => 0%Z) (CVar (bt "s"))) with (RtoC s).
  cbn [ceval] in Em. rewrite ?Em. change (e_sym (bt_env s m G a b r) (bt "s")) with (RtoC s). rewrite E, below_scale. fold w.
  apply injective_projections; cbn [fst snd RtoC Cplus Cminus Cmult Copp Ci]; unfold G; field; split; lra.
Qed.

(** The decay products have masses 1, 1, the resonance has mass 1 and width 5 *)
Lemma bt_example : below_threshold (bt_env 9 1 5 1 1 1) (fun _ => 0%Z) (CVar (bt "m")) (CVar (bt "G")) (CVar (bt "a")) (CVar (bt "b")) (CVar (bt "r")) 1 5 1 1 1 /\
  (1 + 1) * (1 + 1) < 9 /\ bound_momentum (1 * 1) 1 1 * 1 < 1.
Proof.
  split; [|split; [lra|]].
  - apply bt_below; try lra. unfold channel_closed. lra.
  - rewrite Rmult_1_r. unfold bound_momentum. replace (- ((1 * 1 - (1 + 1) * (1 + 1)) * (1 * 1 - (1 - 1) * (1 - 1)) / (4 * (1 * 1)))) with (3 / 4) by field.
    apply Rlt_le_trans with (sqrt 1); [apply sqrt_lt_1; lra|rewrite sqrt_1; lra].
Qed.
