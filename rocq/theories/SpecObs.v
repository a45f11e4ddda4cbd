(** Specification vocabulary for the observables of models: angular distributions and projections (C92-C94) *)
From Coq Require Import String ZArith List Bool Reals.
From Coquelicot Require Import Complex RInt.
From Verif Require Import Prelude Decay Expr CExpr Sums SpecKin SpecDPD Builder SpecDynamics.
Import ListNotations.
Local Open Scope R_scope.

(** Legendre polynomials, by Bonnet's recursion *)
Fixpoint legendre (n : nat) (x : R) : R :=
  match n with
  | O => 1
  | S m => match m with
           | O => x
           | S k => ((2 * INR k + 3) * x * legendre m x - (INR k + 1) * legendre k x) / (INR k + 2)
           end
  end.

(** All chains of the decay have spectator [k], and there is at least one. *)
Definition one_subsystem (d : decay) (k : Z) : Prop :=
  d_chains d <> [] /\ forall c, In c (d_chains d) -> st_index (ch_spectator c) = k.

(** ** Spinless external particles *)
Definition spinless (s : Z -> state) : Prop := forall i, In i [0; 1; 2; 3]%Z -> p_spin (s i) = 0%Z.
(** The scattering angle of a chain: theta_ij with (i, j, spectator) cyclic *)
Definition chain_angle (c : chain) : symbol :=
  let i := next_label (st_index (ch_spectator c)) in theta_name i (next_label i).

(** ** Lines through the Dalitz plot *)
Definition mass_at (i : Z) : symbol := Sym ("m" ++ str_of_Z i)%string ANonneg.
Definition sigma_at (i : Z) : symbol := Sym ("sigma" ++ str_of_Z i)%string ANonneg.
Definition square_at (base : symbol -> C) (i : Z) : R := (Re (base (mass_at i)) * Re (base (mass_at i)))%R.

(** The line of constant sigma_k: sigma_j is [x] and sigma_i follows from the sum of the three Mandelstam
    variables, which is the sum of the squared masses. *)
Definition dalitz_line (base : symbol -> C) (i j k : Z) (x : R) (y : symbol) : C :=
  if eqb y (sigma_at j) then RtoC x
  else if eqb y (sigma_at i) then
    RtoC (square_at base 0 + square_at base 1 + square_at base 2 + square_at base 3 - Re (base (sigma_at k)) - x)
  else base y.
(** sigma_k is above the threshold of i and j, and there is energy left for the spectator k. *)
Definition between_thresholds (base : symbol -> C) (i j k : Z) : Prop :=
  let m n := Re (base (mass_at n)) in
  0 <= m i /\ 0 <= m j /\ 0 <= m k /\
  m i + m j < sqrt (Re (base (sigma_at k))) < m 0%Z - m k.
(** The physical points on the line are exactly those with a <= sigma_j <= b. *)
Definition dalitz_range (base : symbol -> C) (i j k : Z) (a b : R) : Prop :=
  forall x, physical (fun y => Re (dalitz_line base i j k x y)) <-> a <= x <= b.

(** The partial wave of spin J (doubled) for helicities [lam]: the sum over the resonances of that spin,
    without the angular distribution. *)
Definition partial_wave (ph dh : bool) (chains : list chain) (scal : chain -> Z -> C) (X : chain -> C)
  (lam : Z -> Z) (i j k J : Z) : C :=
  Csum (filter (fun c => p_spin (ch_resonance c) =? J)%Z chains) (fun c =>
    Csum (helicities J) (fun r =>
      if ((lam 0 =? r - lam k) && memb (lam i - lam j) (helicities J))%Z then
        (X c * scal c r * RtoC (prod_factor ph c r (lam k) * dec_factor dh c lam))%C
      else RtoC 0)).
(** The spins of the resonances *)
Definition resonance_spins (d : decay) : list Z := nodup Z.eq_dec (map (fun c => p_spin (ch_resonance c)) (d_chains d)).
