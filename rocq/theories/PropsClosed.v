(** C149: closed channels. The vocabulary is in SpecClosed.v, SpecUnitary.v and SpecHankel.v. *)
From Coq Require Import String ZArith QArith Qcanon List Bool Reals.
From Coquelicot Require Import Complex Hierarchy Continuity.
From Verif Require Import Prelude Decay Expr Sums CExpr Builder Dynamics SpecDynamics SpecFinite SpecHankel SpecUnitary SpecClosed ChannelProofs ClosedProofs.
Import ListNotations.
Local Open Scope R_scope.

(** ** C149: a channel takes part in a resonance only above its threshold. *)
(** FlattéSWave: whichever channels are open, scattering conserves probability. The amplitude is that of a resonance of squared
    mass m^2 + d with the widths g(0) and g(1) of the channels. *)
Theorem C149_flatte ev h s m w1 w2 a1 b1 a2 b2 xs xm y1 y2 xa1 xb1 xa2 xb2 :
  ceval ev h s = RtoC xs -> flatte_real ev h m w1 w2 a1 b1 a2 b2 xm y1 y2 xa1 xb1 xa2 xb2 -> 0 < xs ->
  let t := ceval ev h (flatte_s_wave s m w1 w2 a1 b1 a2 b2) in
  let g := flatte_widths xs xm y1 y2 xa1 xb1 xa2 xb2 in
  let d := flatte_shift xs xm y1 y2 xa1 xb1 xa2 xb2 in
  xs <> xm * xm + d \/ 0 < g 0%nat + g 1%nat ->
  t = (RtoC 1 / (RtoC (xm * xm + d) - RtoC xs - Ci * RtoC (xm * (g 0%nat + g 1%nat))))%C /\
  Im t = xm * (g 0%nat + g 1%nat) * Cmod t ^ 2 /\ unitary 2 (s_matrix xm g t).
Proof. exact (flatte_amplitude ev h s m w1 w2 a1 b1 a2 b2 xs xm y1 y2 xa1 xb1 xa2 xb2). Qed.
Print Assumptions C149_flatte.

(** A closed channel has no width; it only shifts the resonance upwards. With both channels closed nothing is absorbed. *)
Theorem C149_flatte_closed ev h s m w1 w2 a1 b1 a2 b2 xs xm y1 y2 xa1 xb1 xa2 xb2 :
  ceval ev h s = RtoC xs -> flatte_real ev h m w1 w2 a1 b1 a2 b2 xm y1 y2 xa1 xb1 xa2 xb2 -> 0 < xs ->
  let t := ceval ev h (flatte_s_wave s m w1 w2 a1 b1 a2 b2) in
  let g := flatte_widths xs xm y1 y2 xa1 xb1 xa2 xb2 in
  let d := flatte_shift xs xm y1 y2 xa1 xb1 xa2 xb2 in
  (channel_closed xs xa1 xb1 -> g 0%nat = 0 /\ (0 < y1 -> 0 < d)) /\ (channel_closed xs xa2 xb2 -> g 1%nat = 0 /\ (0 < y2 -> 0 < d)) /\
  (channel_open xs xa1 xb1 -> channel_open xs xa2 xb2 -> d = 0) /\
  (channel_closed xs xa1 xb1 -> channel_closed xs xa2 xb2 -> Im t = 0).
Proof. exact (flatte_closed ev h s m w1 w2 a1 b1 a2 b2 xs xm y1 y2 xa1 xb1 xa2 xb2). Qed.
Print Assumptions C149_flatte_closed.

(** The amplitude does not jump, not even at the thresholds. *)
Theorem C149_flatte_continuous (ev : R -> env) h s m w1 w2 a1 b1 a2 b2 xm y1 y2 xa1 xb1 xa2 xb2 x :
  (forall x, ceval (ev x) h s = RtoC x) -> (forall x, flatte_real (ev x) h m w1 w2 a1 b1 a2 b2 xm y1 y2 xa1 xb1 xa2 xb2) -> 0 < x ->
  x <> xm * xm + flatte_shift x xm y1 y2 xa1 xb1 xa2 xb2 \/
  0 < flatte_widths x xm y1 y2 xa1 xb1 xa2 xb2 0 + flatte_widths x xm y1 y2 xa1 xb1 xa2 xb2 1 ->
  continuous (fun x => Re (ceval (ev x) h (flatte_s_wave s m w1 w2 a1 b1 a2 b2))) x /\
  continuous (fun x => Im (ceval (ev x) h (flatte_s_wave s m w1 w2 a1 b1 a2 b2))) x.
Proof. exact (flatte_continuous ev h s m w1 w2 a1 b1 a2 b2 xm y1 y2 xa1 xb1 xa2 xb2 x). Qed.
Print Assumptions C149_flatte_continuous.

(** At s = m^2 = 100 the channel of masses 6, 6 is closed and the channel of masses 1, 1 is open. *)
Example C149_flatte_example : (forall x, ceval (cx_at x) (fun _ => 0%Z) (CVar cx_s) = RtoC x) /\
  (forall x, flatte_real (cx_at x) (fun _ => 0%Z) (CNum 10) (CNum 5) (CNum 3) (CNum 6) (CNum 6) (CNum 1) (CNum 1) 10 5 3 6 6 1 1) /\
  channel_closed 100 6 6 /\ channel_open 100 1 1 /\ 0 < flatte_widths 100 10 5 3 6 6 1 1 0 + flatte_widths 100 10 5 3 6 6 1 1 1.
Proof. exact cx_closed_flatte. Qed.

(** BreitWigner and RelativisticBreitWigner: below the threshold nothing is absorbed, whatever the angular momentum. *)
Theorem C149_breit_wigner ev h s m G m1 m2 L d xs xm xG a b :
  ceval ev h s = RtoC xs -> real_resonance ev h m G m1 m2 d xm xG a b -> channel_closed xs a b ->
  Im (ceval ev h (breit_wigner s m G m1 m2 L d phase_space_factor)) = 0 /\
  Im (ceval ev h (relativistic_breit_wigner s m G m1 m2 L d phase_space_factor)) = 0.
Proof. exact (breit_wigner_closed ev h s m G m1 m2 L d xs xm xG a b). Qed.
Print Assumptions C149_breit_wigner.
Example C149_breit_wigner_example : ceval (cx_at 4) (fun _ => 0%Z) (CVar cx_s) = RtoC 4 /\
  real_resonance (cx_at 4) (fun _ => 0%Z) (CNum 10) (CNum 5) (CNum 1) (CNum 2) (CNum 3) 10 5 1 2 /\ channel_closed 4 1 2.
Proof. exact cx_below. Qed.

(** MultichannelBreitWigner: a closed S wave absorbs like an open one. (Two particles of mass 20, resonance of mass 10.) *)
Theorem C149_multichannel_refuted : channel_closed 100 20 20 /\
  ceval cx_env (fun _ => 0%Z) (multichannel_breit_wigner (CNum 100) (CNum 10) [Channel (CNum 100) (CNum 10) (CNum 5) (CNum 20) (CNum 20) 0 (CNum 1)]) =
  (Ci / RtoC 50)%C.
Proof. exact mc_s_wave. Qed.
Print Assumptions C149_multichannel_refuted.
(** A closed P wave has a negative width. (Two particles of mass 2 at s = 4, R = 1/2.) *)
Theorem C149_negative_width_refuted : channel_closed 4 2 2 /\
  ceval cx_env (fun _ => 0%Z) (channel_width (Channel (CNum 4) (CNum 2) (CNum 1) (CNum 2) (CNum 2) 1 (CRat (Q2Qc (1 # 2))))) = RtoC (-6).
Proof. exact mc_negative. Qed.
Print Assumptions C149_negative_width_refuted.
(** It can cancel the width of an open channel: the amplitude then has a pole at a real value of s. *)
Theorem C149_pole_refuted : ~ no_pole cx_env (multichannel_breit_wigner (CNum 4) (CNum 2)
  [Channel (CNum 4) (CNum 2) (CNum 6) (CNum 0) (CNum 0) 0 (CNum 1);
   Channel (CNum 4) (CNum 2) (CNum 1) (CNum 2) (CNum 2) 1 (CRat (Q2Qc (1 # 2)))]).
Proof. exact mc_pole. Qed.
Print Assumptions C149_pole_refuted.
