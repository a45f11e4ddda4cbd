(** Specification vocabulary for closed channels (C149, C150) *)
From Coq Require Import ZArith List Reals.
From Coquelicot Require Import Complex.
From Verif Require Import Prelude Expr CExpr SpecHankel.
Local Open Scope R_scope.

(** Two particles of masses [a] and [b] at an invariant mass squared of [s] *)
Definition channel_open (s a b : R) : Prop := (a + b) * (a + b) <= s.
Definition channel_closed (s a b : R) : Prop := (a - b) * (a - b) < s < (a + b) * (a + b).
(** The modulus of the imaginary momentum in a closed channel *)
Definition bound_momentum (s a b : R) : R :=
  sqrt (- ((s - (a + b) * (a + b)) * (s - (a - b) * (a - b)) / (4 * s))).
(** The shift of the squared mass by the closed channels of the lineshape of Flatté *)
Definition flatte_shift (s m w1 w2 a1 b1 a2 b2 : R) : R :=
  m * ((w1 * bound_momentum s a1 b1 + w2 * bound_momentum s a2 b2) / decay_momentum (m * m) a2 b2 * (m / sqrt s)).

(** Real parameters of a Breit-Wigner function with a mass below the threshold of its decay products (C150) *)
Definition below_threshold (ev : env) (h : symbol -> Z) (m G m1 m2 d : cexpr) (xm xG a b r : R) : Prop :=
  ceval ev h m = RtoC xm /\ ceval ev h G = RtoC xG /\ ceval ev h m1 = RtoC a /\ ceval ev h m2 = RtoC b /\
  ceval ev h d = RtoC r /\ 0 < r /\ 0 < xG /\ 0 < xm /\ 0 <= a /\ 0 <= b /\ channel_closed (xm * xm) a b.
