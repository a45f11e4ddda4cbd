(** Specification vocabulary for the unitarity of lineshapes (C128, C129) *)
From Coq Require Import ZArith List Reals.
From Coquelicot Require Import Complex.
From Verif Require Import Prelude Decay Expr Sums CExpr Builder Dynamics SpecHankel.
Import ListNotations.
Local Open Scope R_scope.

Definition kronecker (i j : nat) : R := if Nat.eqb i j then 1 else 0.
(** The scattering matrix between channels with partial widths g(0), g(1), ... through a resonance of mass [m] with
    amplitude [t]: delta_ij + 2 i m sqrt(g_i g_j) t *)
Definition s_matrix (m : R) (g : nat -> R) (t : C) (i j : nat) : C :=
  (RtoC (kronecker i j) + RtoC 2 * Ci * RtoC (m * (sqrt (g i) * sqrt (g j))) * t)%C.
(** The first n rows and columns of M are a unitary matrix: M times its Hermitian conjugate is one. *)
Definition unitary (n : nat) (M : nat -> nat -> C) : Prop := forall i j, (i < n)%nat -> (j < n)%nat ->
  Csum (seq 0 n) (fun k => M i k * Cconj (M j k))%C = RtoC (kronecker i j).
(** One channel of width [w]: the optical theorem, unitarity, and the circle of Argand *)
Definition elastic (m w : R) (t : C) : Prop :=
  Im t = m * w * Cmod t ^ 2 /\ Cmod (RtoC 1 + RtoC 2 * Ci * RtoC (m * w) * t)%C = 1 /\
  Cmod (RtoC (m * w) * t - Ci / RtoC 2)%C = 1 / 2.
(** A channel with real parameters that is open, or an S wave *)
Definition real_channel (ev : env) (h : symbol -> Z) (s m : R) (c : channel) : Prop :=
  exists w a b r, ceval ev h (cn_s c) = RtoC s /\ ceval ev h (cn_m0 c) = RtoC m /\ ceval ev h (cn_width c) = RtoC w /\
    ceval ev h (cn_m1 c) = RtoC a /\ ceval ev h (cn_m2 c) = RtoC b /\ ceval ev h (cn_radius c) = RtoC r /\
    0 <= w /\ 0 <= a /\ 0 <= b /\ (cn_L c = 0%Z \/ (a + b) * (a + b) <= s).
(** Real parameters of a Breit-Wigner function with two masses, below the mass of the resonance *)
Definition real_resonance (ev : env) (h : symbol -> Z) (m G m1 m2 d : cexpr) (xm xG a b : R) : Prop :=
  exists r, ceval ev h m = RtoC xm /\ ceval ev h G = RtoC xG /\ ceval ev h m1 = RtoC a /\ ceval ev h m2 = RtoC b /\
    ceval ev h d = RtoC r /\ 0 < r /\ 0 < xG /\ 0 <= a /\ 0 <= b /\ 0 < a + b < xm.
(** The partial widths of the lineshape of Flatté: w q(s) / q2(m^2) m / sqrt(s), with the momentum q2 of the second channel *)
Definition flatte_widths (s m w1 w2 a1 b1 a2 b2 : R) (i : nat) : R :=
  let q s m1 m2 := decay_momentum s m1 m2 in
  match i with
  | O => w1 * (q s a1 b1 / q (m * m) a2 b2) * (m / sqrt s)
  | _ => w2 * (q s a2 b2 / q (m * m) a2 b2) * (m / sqrt s)
  end.
(** Real parameters of the lineshape of Flatté; the second channel is open at the mass of the resonance. *)
Definition flatte_real (ev : env) (h : symbol -> Z) (m w1 w2 a1 b1 a2 b2 : cexpr) (xm y1 y2 xa1 xb1 xa2 xb2 : R) : Prop :=
  ceval ev h m = RtoC xm /\ ceval ev h w1 = RtoC y1 /\ ceval ev h w2 = RtoC y2 /\ ceval ev h a1 = RtoC xa1 /\ ceval ev h b1 = RtoC xb1 /\
  ceval ev h a2 = RtoC xa2 /\ ceval ev h b2 = RtoC xb2 /\ 0 <= y1 /\ 0 <= y2 /\ 0 <= xa1 /\ 0 <= xb1 /\ 0 <= xa2 /\ 0 <= xb2 /\ xa2 + xb2 < xm.
