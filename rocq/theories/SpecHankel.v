(** Specification for C97: the spherical Hankel function of the first kind (an outgoing spherical wave of angular
    momentum n), and the barrier factor of a spherical well of radius R at momentum q, with x = q R.
    ampform.dynamics.form_factor (SphericalHankel1, BlattWeisskopfSquared) *)
From Coq Require Import List Reals.
From Coquelicot Require Import Complex.
From Verif Require Import Sums CExpr.
Import ListNotations.
Local Open Scope C_scope.

(** h_n(x) = (-i)^(n+1) exp(ix)/x sum_k (n+k)!/(k!(n-k)!) (i/(2x))^k *)
Definition spherical_hankel (n : nat) (x : R) : C :=
  cpow (- Ci) (S n) * (RtoC (cos x) + Ci * RtoC (sin x)) / RtoC x
  * Csum (seq 0 (S n)) (fun k =>
      RtoC (INR (fact (n + k)) / (INR (fact k) * INR (fact (n - k)))) * cpow (Ci / RtoC (2 * x)) k).
(** |h_n(1)| / (x |h_n(x)|) *)
Definition barrier (n : nat) (x : R) : R :=
  (Cmod (spherical_hankel n 1) / (x * Cmod (spherical_hankel n x)))%R.
(** The momentum of the decay products of a particle with squared mass s *)
Definition decay_momentum (s m1 m2 : R) : R :=
  sqrt ((s - (m1 + m2) * (m1 + m2)) * (s - (m1 - m2) * (m1 - m2)) / (4 * s)).
