(** C128 and C129: unitarity, widths and peaks of the lineshapes. The vocabulary is in SpecUnitary.v and SpecHankel.v. *)
From Coq Require Import String ZArith QArith Qcanon List Bool Reals.
From Coquelicot Require Import Hierarchy RInt Complex.
From Verif Require Import Prelude Decay Expr Sums CExpr Builder Dynamics SpecDynamics SpecHankel SpecUnitary UnitaryProofs ChannelProofs.
Import ListNotations.
Local Open Scope R_scope.

(** ** C128 *)
(** Scattering through a multichannel Breit-Wigner conserves probability, whatever the number of channels. *)
Theorem C128_multichannel ev h s m cs xs xm : ceval ev h s = RtoC xs -> ceval ev h m = RtoC xm -> 0 < xs -> 0 < xm ->
  (forall c, In c cs -> real_channel ev h xs xm c) -> xs <> xm * xm \/ (exists c, In c cs /\ ceval ev h (channel_width c) <> RtoC 0) ->
  exists g : nat -> R, (forall i c, nth_error cs i = Some c -> 0 <= g i /\ ceval ev h (channel_width c) = RtoC (g i)) /\
    elastic xm (Rsum (seq 0 (length cs)) g) (ceval ev h (multichannel_breit_wigner s m cs)) /\
    unitary (length cs) (s_matrix xm g (ceval ev h (multichannel_breit_wigner s m cs))).
Proof. exact (multichannel_unitary ev h s m cs xs xm). Qed.
Print Assumptions C128_multichannel.

(** Two open P and D waves and a closed S wave *)
Example C128_multichannel_example : (forall c, In c [cx_channel 1 100; cx_channel 2 100; cx_closed] -> real_channel cx_env (fun _ => 0%Z) 100 10 c) /\
  ceval cx_env (fun _ => 0%Z) (channel_width cx_closed) <> RtoC 0.
Proof. exact (conj cx_channels cx_nonzero). Qed.

(** The same for the lineshape of Flatté, above both thresholds *)
Theorem C128_flatte ev h s m w1 w2 a1 b1 a2 b2 xs xm y1 y2 xa1 xb1 xa2 xb2 :
  ceval ev h s = RtoC xs -> flatte_real ev h m w1 w2 a1 b1 a2 b2 xm y1 y2 xa1 xb1 xa2 xb2 -> 0 < xs -> xs <> xm * xm ->
  (xa1 + xb1) * (xa1 + xb1) <= xs -> (xa2 + xb2) * (xa2 + xb2) <= xs ->
  unitary 2 (s_matrix xm (flatte_widths xs xm y1 y2 xa1 xb1 xa2 xb2) (ceval ev h (flatte_s_wave s m w1 w2 a1 b1 a2 b2))).
Proof. exact (flatte_unitary ev h s m w1 w2 a1 b1 a2 b2 xs xm y1 y2 xa1 xb1 xa2 xb2). Qed.
Print Assumptions C128_flatte.

(** A Breit-Wigner with energy-dependent width is unitary above the threshold; the relativistic one is m Gamma times it. *)
Theorem C128_breit_wigner ev h s m G m1 m2 L d xs xm xG a b :
  ceval ev h s = RtoC xs -> real_resonance ev h m G m1 m2 d xm xG a b -> (a + b) * (a + b) < xs ->
  exists w, 0 < w /\ ceval ev h (breit_wigner_width s m G m1 m2 L d phase_space_factor) = RtoC w /\
    elastic xm w (ceval ev h (breit_wigner s m G m1 m2 L d phase_space_factor)) /\
    ceval ev h (relativistic_breit_wigner s m G m1 m2 L d phase_space_factor) =
    (RtoC (xm * xG) * ceval ev h (breit_wigner s m G m1 m2 L d phase_space_factor))%C.
Proof. exact (breit_wigner_elastic ev h s m G m1 m2 L d xs xm xG a b). Qed.
Print Assumptions C128_breit_wigner.

(** Its width is zero at the threshold, the given width at the mass of the resonance, and increases with s. *)
Theorem C128_widths (ev : R -> env) h s m G m1 m2 L d xm xG a b :
  (forall x, ceval (ev x) h s = RtoC x) -> (forall x, ceval (ev x) h d = ceval (ev 0) h d) ->
  (forall x, real_resonance (ev x) h m G m1 m2 d xm xG a b) ->
  exists W : R -> R,
    (forall x, (a + b) * (a + b) <= x -> ceval (ev x) h (breit_wigner_width s m G m1 m2 L d phase_space_factor) = RtoC (W x)) /\
    W (xm * xm) = xG /\ W ((a + b) * (a + b)) = 0 /\
    (forall x y, (a + b) * (a + b) <= x -> x < y -> 0 <= W x < W y).
Proof. exact (breit_wigner_widths ev h s m G m1 m2 L d xm xG a b). Qed.
Print Assumptions C128_widths.

Example C128_resonance_example x : real_resonance (cx_at x) (fun _ => 0%Z) (CNum 10) (CNum 5) (CNum 1) (CNum 2) (CNum 3) 10 5 1 2.
Proof. exact (cx_resonance x). Qed.

(** The lineshape of Bugg *)
Theorem C128_bugg ev h s m G m1 m2 g (xs xm xG a b c : R) :
  ceval ev h s = RtoC xs -> ceval ev h m = RtoC xm -> ceval ev h G = RtoC xG -> ceval ev h m1 = RtoC a -> ceval ev h m2 = RtoC b ->
  ceval ev h g = RtoC c -> 0 < xm -> xs <> xm * xm ->
  elastic xm ((xs - (a * a - b * b / 2)) / (xm * xm - (a * a - b * b / 2)) * (xG * exp (- c * xs)))
    (ceval ev h (bugg_breit_wigner s m G m1 m2 g)).
Proof. exact (bugg_elastic ev h s m G m1 m2 g xs xm xG a b c). Qed.
Print Assumptions C128_bugg.

(** The squared modulus of a simple Breit-Wigner is half of its maximum (C38) exactly at s = m^2 - m Gamma and
    s = m^2 + m Gamma; times m Gamma / pi it is a probability density. *)
Theorem C128_half_maximum ev h s m G xs xm xG :
  ceval ev h s = RtoC xs -> ceval ev h m = RtoC xm -> ceval ev h G = RtoC xG -> 0 < xm -> 0 < xG ->
  (Cmod (ceval ev h (simple_breit_wigner s m G)) ^ 2 = / 2 * (/ (xm * xG)) ^ 2 <-> xs = xm * xm - xm * xG \/ xs = xm * xm + xm * xG).
Proof. exact (half_maximum ev h s m G xs xm xG). Qed.
Print Assumptions C128_half_maximum.
Theorem C128_normalised (ev : R -> env) h s m G xm xG : (forall x, ceval (ev x) h s = RtoC x) -> (forall x, ceval (ev x) h m = RtoC xm) ->
  (forall x, ceval (ev x) h G = RtoC xG) -> 0 < xm -> 0 < xG ->
  forall e, 0 < e -> exists M, forall a b, a < - M -> M < b -> exists v,
    is_RInt (fun x => xm * xG / PI * Cmod (ceval (ev x) h (simple_breit_wigner s m G)) ^ 2) a b v /\ 1 - e < v < 1.
Proof. exact (bw_normalised ev h s m G xm xG). Qed.
Print Assumptions C128_normalised.

(** ** C129: each channel has the given width at the mass of the resonance, and no width at its threshold. *)
(** The width of a channel of MultichannelBreitWigner at the mass of the resonance is the given one exactly in S waves and if
    the break-up momentum is 1/R. (Missing: it is not in other waves.) *)
Theorem C129_nominal_width_partial ev h c xm w a b r : ceval ev h (cn_s c) = RtoC (xm * xm) -> ceval ev h (cn_m0 c) = RtoC xm ->
  ceval ev h (cn_width c) = RtoC w -> ceval ev h (cn_m1 c) = RtoC a -> ceval ev h (cn_m2 c) = RtoC b -> ceval ev h (cn_radius c) = RtoC r ->
  0 < w -> 0 <= a -> 0 <= b -> 0 < r -> a + b < xm ->
  (ceval ev h (channel_width c) = RtoC w <-> (cn_L c <= 0)%Z \/ decay_momentum (xm * xm) a b * r = 1).
Proof. exact (channel_nominal ev h c xm w a b r). Qed.
Print Assumptions C129_nominal_width_partial.
Theorem C129_nominal_width_refuted : ceval cx_env (fun _ => 0%Z) (channel_width (Channel (CNum 100) (CNum 10) (CNum 5) (CNum 1) (CNum 1) 1 (CNum 1))) <> RtoC 5.
Proof. exact cx_p_wave. Qed.
Print Assumptions C129_nominal_width_refuted.

(** At the threshold there is no width, except in S waves. (Missing: S waves have no phase-space factor, their width does not
    depend on the masses of the channel.) *)
Theorem C129_threshold_partial ev h c a b r : (0 < cn_L c)%Z -> ceval ev h (cn_s c) = RtoC ((a + b) * (a + b)) ->
  ceval ev h (cn_m1 c) = RtoC a -> ceval ev h (cn_m2 c) = RtoC b -> ceval ev h (cn_radius c) = RtoC r ->
  ceval ev h (channel_width c) = RtoC 0.
Proof. exact (channel_threshold ev h c a b r). Qed.
Print Assumptions C129_threshold_partial.
Theorem C129_s_wave ev h c : cn_L c = 0%Z ->
  ceval ev h (channel_width c) = (ceval ev h (cn_width c) * ceval ev h (cn_m0 c) / csqrt (ceval ev h (cn_s c)))%C.
Proof. exact (channel_s_wave ev h c). Qed.
Print Assumptions C129_s_wave.
(** Two particles of mass 1 at s = 4 *)
Theorem C129_threshold_refuted : ceval cx_env (fun _ => 0%Z) (channel_width (Channel (CNum 4) (CNum 10) (CNum 5) (CNum 1) (CNum 1) 0 (CNum 1))) = RtoC 25.
Proof. exact cx_s_wave. Qed.
Print Assumptions C129_threshold_refuted.

(** FlattéSWave with its second channel only is i/(m Gamma) at the mass of the resonance; with its first channel only it
    is so exactly if the momenta of the channels are equal. (Missing: the first channel is normalised to the momentum of the
    second one.) *)
Theorem C129_second_channel_partial ev h s m w1 w2 a1 b1 a2 b2 xm y2 xa1 xb1 xa2 xb2 :
  ceval ev h s = RtoC (xm * xm) -> flatte_real ev h m w1 w2 a1 b1 a2 b2 xm 0 y2 xa1 xb1 xa2 xb2 -> xa1 + xb1 < xm -> 0 < y2 ->
  ceval ev h (flatte_s_wave s m w1 w2 a1 b1 a2 b2) = (Ci / RtoC (xm * y2))%C.
Proof. exact (flatte_second ev h s m w1 w2 a1 b1 a2 b2 xm y2 xa1 xb1 xa2 xb2). Qed.
Print Assumptions C129_second_channel_partial.
Theorem C129_first_channel_partial ev h s m w1 w2 a1 b1 a2 b2 xm y1 xa1 xb1 xa2 xb2 :
  ceval ev h s = RtoC (xm * xm) -> flatte_real ev h m w1 w2 a1 b1 a2 b2 xm y1 0 xa1 xb1 xa2 xb2 -> xa1 + xb1 < xm -> 0 < y1 ->
  (ceval ev h (flatte_s_wave s m w1 w2 a1 b1 a2 b2) = (Ci / RtoC (xm * y1))%C <->
   decay_momentum (xm * xm) xa1 xb1 = decay_momentum (xm * xm) xa2 xb2).
Proof. exact (flatte_first ev h s m w1 w2 a1 b1 a2 b2 xm y1 xa1 xb1 xa2 xb2). Qed.
Print Assumptions C129_first_channel_partial.
Theorem C129_first_channel_refuted :
  ceval cx_env (fun _ => 0%Z) (flatte_s_wave (CNum 100) (CNum 10) (CNum 5) (CNum 0) (CNum 1) (CNum 1) (CNum 3) (CNum 3)) <> (Ci / RtoC (10 * 5))%C.
Proof. exact cx_first. Qed.
Print Assumptions C129_first_channel_refuted.
Example C129_example : flatte_real cx_env (fun _ => 0%Z) (CNum 10) (CNum 5) (CNum 0) (CNum 1) (CNum 1) (CNum 3) (CNum 3) 10 5 0 1 1 3 3 /\
  flatte_real cx_env (fun _ => 0%Z) (CNum 10) (CNum 0) (CNum 5) (CNum 1) (CNum 1) (CNum 3) (CNum 3) 10 0 5 1 1 3 3.
Proof. exact cx_flattes. Qed.
