(** Specification vocabulary for angular distributions (C102-C104) *)
From Coq Require Import String ZArith List Bool Reals.
From Coquelicot Require Import Complex.
From Verif Require Import Prelude Decay Expr CExpr Sums SpecDPD.
Import ListNotations.
Local Open Scope Z_scope.

(** The same values of all symbols, but another scattering angle theta_ij. *)
Definition turned (ev : env) (i j : Z) (theta : R) : env :=
  Env (fun x => if eqb x (theta_name i j) then RtoC theta else e_sym ev x) (e_idx ev).
(** [f] is a polynomial of degree at most [N]. *)
Definition polynomial (N : nat) (f : R -> R) : Prop :=
  exists a : nat -> R, forall x, f x = Rsum (seq 0 (S N)) (fun n => a n * x ^ n)%R.

(** The helicities of the two decay products of the resonance reversed, if [k] is the spectator *)
Definition pair_reversed (k : Z) (l : Z * Z * Z * Z) : Z * Z * Z * Z :=
  let f n := if n =? k then at4 l n else - at4 l n in (at4 l 0, f 1, f 2, f 3).
(** The orbital angular momentum of the decay of the resonance is even ([e = true]) or odd. *)
Definition decay_wave (c : chain) (e : bool) : Prop :=
  exists d, ch_outgoing_ls c = Some d /\ Z.even (ls_L d) = e.
(** (-1)^L (-1)^(2 s_j) (-1)^(l0 + lk + s_i + s_j); spins and helicities are doubled. *)
Definition forward_backward_sign (s : Z -> state) (e : bool) (i j k : Z) (l : Z * Z * Z * Z) : R :=
  ((if e then 1 else -1) * parity_sign (2 * p_spin (s j)%Z)
   * parity_sign (at4 l 0 + at4 l k + p_spin (s i) + p_spin (s j))%Z)%R.
