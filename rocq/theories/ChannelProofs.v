(** The partial widths of the channels of a lineshape at the mass of the resonance and at the threshold (proofs for C129) *)
From Coq Require Import String ZArith QArith Qcanon Qreals List Bool Reals Lia Lra Psatz.
From Coquelicot Require Import Complex.
From Verif Require Import Prelude Decay Expr Sums CExpr Builder SpecDPD Dynamics SpecDynamics CExprFacts LineshapeFacts LineshapeProofs FiniteShapes
  SpecHankel HankelFacts SpecUnitary UnitaryProofs.
Import ListNotations.
Local Open Scope R_scope.

Lemma bsq_unit n z : (0 < n)%nat -> 0 <= z -> bsq n z = 1 -> z = 1.
Proof.
  intros Hn Hz E. destruct (Rtotal_order z 1) as [H|[H|H]]; [|exact H|].
  - destruct (bsq_mono n z 1 Hz H Hn) as [_ X]. rewrite bsq_one in X. lra.
  - destruct (bsq_mono n 1 z ltac:(lra) H Hn) as [_ X]. rewrite bsq_one in X. lra.
Qed.
Lemma channel_eval ev h c : ceval ev h (channel_width c) = channel_value ev h c.
Proof. reflexivity. Qed.
Theorem channel_nominal ev h c xm w a b r : ceval ev h (cn_s c) = RtoC (xm * xm) -> ceval ev h (cn_m0 c) = RtoC xm ->
  ceval ev h (cn_width c) = RtoC w -> ceval ev h (cn_m1 c) = RtoC a -> ceval ev h (cn_m2 c) = RtoC b -> ceval ev h (cn_radius c) = RtoC r ->
  0 < w -> 0 <= a -> 0 <= b -> 0 < r -> a + b < xm ->
  (ceval ev h (channel_width c) = RtoC w <-> (cn_L c <= 0)%Z \/ decay_momentum (xm * xm) a b * r = 1).
Proof.
  intros Es Em Ew Ea Eb Er Hw Ha Hb Hr Hm. assert (M : (a + b) * (a + b) < xm * xm) by (clear -Ha Hb Hm; nra).
  assert (S0 : 0 < xm * xm) by (pose proof (Rle_0_sqr (a + b)) as X; unfold Rsqr in X; lra).
  rewrite channel_eval. unfold channel_value. rewrite Es, Em, Ew, Ea, Eb, Er.
  rewrite (proj1 (ff2_value (cn_L c) (xm * xm) a b r Ha Hb S0 (or_intror (Rlt_le _ _ M)))).
  rewrite csqrt_nonneg by lra. rewrite sqrt_square by lra. unfold Cdiv. rewrite Cinv_RtoC, <- !RtoC_mult.
  replace (w * xm * / xm * ff2 (cn_L c) (xm * xm) a b r) with (w * ff2 (cn_L c) (xm * xm) a b r) by (field; lra).
  unfold ff2. destruct (Z.leb_spec (cn_L c) 0) as [HL|HL].
  - rewrite Rmult_1_r. split; [intros _; left; exact HL|reflexivity].
  - pose proof (proj2 (rbreakup_sign (xm * xm) a b Ha Hb S0) M) as Q.
    assert (E : rbreakup (xm * xm) a b * (r * r) = (decay_momentum (xm * xm) a b * r) * (decay_momentum (xm * xm) a b * r)).
    { change (decay_momentum (xm * xm) a b) with (sqrt (rbreakup (xm * xm) a b)).
      transitivity (sqrt (rbreakup (xm * xm) a b) * sqrt (rbreakup (xm * xm) a b) * (r * r)); [rewrite sqrt_sqrt by lra; reflexivity|ring]. }
    pose proof (momentum_pos (xm * xm) a b Ha Hb M) as P. assert (Y : 0 < decay_momentum (xm * xm) a b * r) by (apply Rmult_lt_0_compat; auto).
    rewrite E. set (y := decay_momentum (xm * xm) a b * r) in *. split.
    + intros X. injection X as X. right. assert (B : bsq (Z.to_nat (cn_L c)) (y * y) = 1) by (apply Rmult_eq_reg_l with w; lra).
      apply bsq_unit in B; [|lia|apply Rlt_le, Rmult_lt_0_compat; auto]. clear -B Y. nra.
    + intros [X|X]; [lia|]. rewrite X, Rmult_1_l, bsq_one, Rmult_1_r. reflexivity.
Qed.
Theorem channel_s_wave ev h c : cn_L c = 0%Z ->
  ceval ev h (channel_width c) = (ceval ev h (cn_width c) * ceval ev h (cn_m0 c) / csqrt (ceval ev h (cn_s c)))%C.
Proof. intros E. rewrite channel_eval. unfold channel_value. rewrite E, form_factor_zero. ring. Qed.
Theorem channel_threshold ev h c a b r : (0 < cn_L c)%Z -> ceval ev h (cn_s c) = RtoC ((a + b) * (a + b)) ->
  ceval ev h (cn_m1 c) = RtoC a -> ceval ev h (cn_m2 c) = RtoC b -> ceval ev h (cn_radius c) = RtoC r ->
  ceval ev h (channel_width c) = RtoC 0.
Proof. intros HL Es Ea Eb Er. rewrite channel_eval. unfold channel_value. rewrite Es, Ea, Eb, Er, c97_threshold by auto. ring. Qed.

(** The lineshape of Flatté with one channel *)
Lemma bw_nominal m w : 0 < m -> 0 < w -> bw_simple (RtoC (m * m)) (RtoC m) (RtoC w) = (Ci / RtoC (m * w))%C.
Proof. intros Hm Hw. rewrite RtoC_mult, bw_peak by (apply RtoC_pos_neq; auto). rewrite RtoC_mult. reflexivity. Qed.
Theorem flatte_second ev h s m w1 w2 a1 b1 a2 b2 xm y2 xa1 xb1 xa2 xb2 :
  ceval ev h s = RtoC (xm * xm) -> flatte_real ev h m w1 w2 a1 b1 a2 b2 xm 0 y2 xa1 xb1 xa2 xb2 -> xa1 + xb1 < xm -> 0 < y2 ->
  ceval ev h (flatte_s_wave s m w1 w2 a1 b1 a2 b2) = (Ci / RtoC (xm * y2))%C.
Proof.
  intros Es H T Y. pose proof H as (_ & _ & _ & _ & _ & _ & _ & _ & _ & A1 & B1 & A2 & B2 & Hm). assert (M0 : 0 < xm) by lra.
  assert (T1 : (xa1 + xb1) * (xa1 + xb1) <= xm * xm) by (clear -A1 B1 T; nra).
  assert (T2 : (xa2 + xb2) * (xa2 + xb2) < xm * xm) by (clear -A2 B2 Hm; nra).
  assert (S0 : 0 < xm * xm) by (apply Rmult_lt_0_compat; auto).
  destruct (flatte_value ev h s m w1 w2 a1 b1 a2 b2 _ xm 0 y2 xa1 xb1 xa2 xb2 Es H S0 T1 ltac:(lra)) as [_ ->].
  pose proof (momentum_pos (xm * xm) xa2 xb2 A2 B2 T2) as P. cbn [seq Rsum flatte_widths]. rewrite sqrt_square by lra.
  replace (0 * _ * _ + _) with y2 by (field; lra). apply bw_nominal; auto.
Qed.
Theorem flatte_first ev h s m w1 w2 a1 b1 a2 b2 xm y1 xa1 xb1 xa2 xb2 :
  ceval ev h s = RtoC (xm * xm) -> flatte_real ev h m w1 w2 a1 b1 a2 b2 xm y1 0 xa1 xb1 xa2 xb2 -> xa1 + xb1 < xm -> 0 < y1 ->
  (ceval ev h (flatte_s_wave s m w1 w2 a1 b1 a2 b2) = (Ci / RtoC (xm * y1))%C <->
   decay_momentum (xm * xm) xa1 xb1 = decay_momentum (xm * xm) xa2 xb2).
Proof.
  intros Es H T Y. pose proof H as (_ & _ & _ & _ & _ & _ & _ & _ & _ & A1 & B1 & A2 & B2 & Hm). assert (M0 : 0 < xm) by lra.
  assert (T1 : (xa1 + xb1) * (xa1 + xb1) < xm * xm) by (clear -A1 B1 T; nra).
  assert (T2 : (xa2 + xb2) * (xa2 + xb2) < xm * xm) by (clear -A2 B2 Hm; nra).
  assert (S0 : 0 < xm * xm) by (apply Rmult_lt_0_compat; auto).
  destruct (flatte_value ev h s m w1 w2 a1 b1 a2 b2 _ xm y1 0 xa1 xb1 xa2 xb2 Es H S0 ltac:(lra) ltac:(lra)) as [_ ->].
  pose proof (momentum_pos (xm * xm) xa2 xb2 A2 B2 T2) as P. pose proof (momentum_pos (xm * xm) xa1 xb1 A1 B1 T1) as P1.
  cbn [seq Rsum flatte_widths]. rewrite sqrt_square by lra.
  set (q1 := decay_momentum (xm * xm) xa1 xb1) in *. set (q2 := decay_momentum (xm * xm) xa2 xb2) in *.
  replace (y1 * (q1 / q2) * (xm / xm) + (0 * (q2 / q2) * (xm / xm) + 0)) with (y1 * (q1 / q2)) by (field; lra).
  assert (W : 0 < y1 * (q1 / q2)) by (apply Rmult_lt_0_compat; [auto|apply Rdiv_lt_0_compat; auto]).
  rewrite bw_nominal by auto. split.
  - intros E. unfold Cdiv in E. rewrite !Cinv_RtoC in E. apply (f_equal snd) in E. cbn [snd Cmult RtoC Ci] in E.
    rewrite !Rmult_0_l, !Rplus_0_l, !Rmult_1_l in E. assert (E' : / (xm * (y1 * (q1 / q2))) = / (xm * y1)) by exact E. apply (f_equal Rinv) in E'. rewrite !Rinv_inv in E'.
    assert (X : xm * y1 * (q1 / q2) = xm * y1 * 1) by lra. apply Rmult_eq_reg_l in X; [|assert (0 < xm * y1) by (apply Rmult_lt_0_compat; auto); lra].
    apply Rmult_eq_reg_r with (/ q2); [|apply Rinv_neq_0_compat; lra]. rewrite Rinv_r by lra. exact X.
  - intros E. replace (y1 * (q1 / q2)) with y1 by (rewrite E; field; lra). reflexivity.
Qed.

(** Examples: a P wave of two particles of mass 1, and the channels of masses 1, 1 and 3, 3, at the mass 10 *)
Definition cx_env : env := Env (fun _ => RtoC 0) (fun _ _ => RtoC 0).
Definition cx_channel (L s : Z) : channel := Channel (CNum s) (CNum 10) (CNum 5) (CNum 1) (CNum 1) L (CNum 1).
Lemma cx_num z : ceval cx_env (fun _ => 0%Z) (CNum z) = RtoC (IZR z).
Proof. apply CNum_value. Qed.
Lemma cx_momentum : decay_momentum 100 1 1 = sqrt 24.
Proof. unfold decay_momentum. f_equal. field. Qed.
Lemma cx_momentum3 : decay_momentum 100 3 3 = 4.
Proof. unfold decay_momentum. replace ((100 - (3 + 3) * (3 + 3)) * (100 - (3 - 3) * (3 - 3)) / (4 * 100)) with (4 * 4) by field. apply sqrt_square. lra. Qed.
Lemma cx_p_wave : ceval cx_env (fun _ => 0%Z) (channel_width (cx_channel 1 100)) <> RtoC 5.
Proof.
  intros E. assert (X := proj1 (channel_nominal cx_env (fun _ => 0%Z) (cx_channel 1 100) 10 5 1 1 1
    ltac:(cbn [cx_channel cn_s]; rewrite cx_num; f_equal; lra) (cx_num 10) (cx_num 5) (cx_num 1) (cx_num 1) (cx_num 1)
    ltac:(lra) ltac:(lra) ltac:(lra) ltac:(lra) ltac:(lra)) E). destruct X as [X|X]; [cbn in X; lia|].
  replace (10 * 10) with 100 in X by lra. rewrite cx_momentum, Rmult_1_r in X. assert (S := sqrt_lt_1 1 24 ltac:(lra) ltac:(lra) ltac:(lra)). rewrite sqrt_1 in S. lra.
Qed.
Lemma cx_s_wave : ceval cx_env (fun _ => 0%Z) (channel_width (cx_channel 0 4)) = RtoC 25.
Proof.
  rewrite channel_s_wave by reflexivity. cbn [cx_channel cn_width cn_m0 cn_s]. rewrite !cx_num, csqrt_nonneg by lra.
  replace (IZR 4) with (2 * 2) by lra. rewrite sqrt_square by lra. unfold Cdiv. rewrite Cinv_RtoC, <- !RtoC_mult. f_equal. field.
Qed.
Lemma cx_flatte y1 y2 (a1 a2 : Z) : (0 <= a1 < 5)%Z -> (0 <= a2 < 5)%Z -> (0 <= y1)%Z -> (0 <= y2)%Z ->
  flatte_real cx_env (fun _ => 0%Z) (CNum 10) (CNum y1) (CNum y2) (CNum a1) (CNum a1) (CNum a2) (CNum a2) 10 (IZR y1) (IZR y2) (IZR a1) (IZR a1) (IZR a2) (IZR a2).
Proof.
  intros A1 A2 Y1 Y2. assert (P : forall z, (0 <= z)%Z -> 0 <= IZR z) by (intros z Hz; apply (IZR_le 0); exact Hz).
  assert (A : IZR a2 <= 4) by (apply (IZR_le a2 4); lia).
  unfold flatte_real. rewrite !cx_num. repeat split; try (apply P; lia). lra.
Qed.
Lemma cx_first : ceval cx_env (fun _ => 0%Z) (flatte_s_wave (CNum 100) (CNum 10) (CNum 5) (CNum 0) (CNum 1) (CNum 1) (CNum 3) (CNum 3)) <> (Ci / RtoC (10 * 5))%C.
Proof.
  intros E. assert (Es : ceval cx_env (fun _ => 0%Z) (CNum 100) = RtoC (10 * 10)) by (rewrite cx_num; f_equal; lra).
  assert (F := cx_flatte 5 0 1 3 ltac:(lia) ltac:(lia) ltac:(lia) ltac:(lia)).
  apply (proj1 (flatte_first cx_env (fun _ => 0%Z) _ _ _ _ _ _ _ _ 10 5 1 1 3 3 Es F ltac:(lra) ltac:(lra))) in E.
  replace (10 * 10) with 100 in E by lra. rewrite cx_momentum, cx_momentum3 in E.
  assert (X : 24 = 4 * 4) by (rewrite <- (sqrt_sqrt 24) by lra; rewrite E; reflexivity). lra.
Qed.
(** A closed S wave: two particles of mass 20 *)
Definition cx_closed : channel := Channel (CNum 100) (CNum 10) (CNum 5) (CNum 20) (CNum 20) 0 (CNum 1).
Lemma cx_channels c : In c [cx_channel 1 100; cx_channel 2 100; cx_closed] -> real_channel cx_env (fun _ => 0%Z) 100 10 c.
Proof.
  intros [<-|[<-|[<-|[]]]].
  - exists 5, 1, 1, 1. cbn [cx_channel cn_s cn_m0 cn_width cn_m1 cn_m2 cn_radius cn_L]. rewrite !cx_num. split; [reflexivity|]. repeat (split; [first [reflexivity|lra]|]). right. lra.
  - exists 5, 1, 1, 1. cbn [cx_channel cn_s cn_m0 cn_width cn_m1 cn_m2 cn_radius cn_L]. rewrite !cx_num. split; [reflexivity|]. repeat (split; [first [reflexivity|lra]|]). right. lra.
  - exists 5, 20, 20, 1. cbn [cx_closed cn_s cn_m0 cn_width cn_m1 cn_m2 cn_radius cn_L]. rewrite !cx_num. repeat (split; [first [reflexivity|lra]|]). left. reflexivity.
Qed.
Lemma cx_nonzero : channel_value cx_env (fun _ => 0%Z) cx_closed <> RtoC 0.
Proof.
  rewrite <- channel_eval, channel_s_wave by reflexivity. cbn [cx_closed cn_width cn_m0 cn_s]. rewrite !cx_num, csqrt_nonneg by lra.
  replace (IZR 100) with (10 * 10) by lra. rewrite sqrt_square by lra. unfold Cdiv. rewrite Cinv_RtoC, <- !RtoC_mult. apply RtoC_neq. lra.
Qed.
(** An energy-dependent width *)
Definition cx_s : symbol := Sym "s" ANonneg.
Definition cx_at (x : R) : env := Env (fun _ => RtoC x) (fun _ _ => RtoC 0).
Lemma cx_resonance x : real_resonance (cx_at x) (fun _ => 0%Z) (CNum 10) (CNum 5) (CNum 1) (CNum 2) (CNum 3) 10 5 1 2.
Proof. exists 3. rewrite !CNum_value. repeat split; lra. Qed.
Lemma cx_flattes : flatte_real cx_env (fun _ => 0%Z) (CNum 10) (CNum 5) (CNum 0) (CNum 1) (CNum 1) (CNum 3) (CNum 3) 10 5 0 1 1 3 3 /\
  flatte_real cx_env (fun _ => 0%Z) (CNum 10) (CNum 0) (CNum 5) (CNum 1) (CNum 1) (CNum 3) (CNum 3) 10 0 5 1 1 3 3.
Proof. split; apply cx_flatte; lia. Qed.
