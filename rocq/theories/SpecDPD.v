(** Specification of the amplitude model: the Dalitz-plot-decomposition formula, written
    independently of the expressions that the builder constructs. *)
From Coq Require Import String ZArith QArith Qcanon List Bool Reals Permutation.
From Coquelicot Require Import Complex.
From Verif Require Import Prelude Decay Expr CExpr Sums Wigner CG SpecKin.
From Verif Require Spin Builder.
Import ListNotations.
Local Open Scope string_scope.
Local Open Scope Z_scope.
Local Open Scope list_scope.

(** ** Decays as the adapters produce them: four states with IDs 0..3, where [s i] is the
    state with ID i, in any dictionary order. *)
Record std_decay (d : decay) (s : Z -> state) : Prop := {
  sd_valid : valid_decay d;
  sd_states : Permutation (d_states d) [(0, s 0); (1, s 1); (2, s 2); (3, s 3)];
  sd_index : forall i, In i [0; 1; 2; 3] -> st_index (s i) = i;
  sd_spin : forall i, In i [0; 1; 2; 3] -> 0 <= p_spin (s i);
}.
(** The resonances are plain Particles, not States. *)
Definition plain_resonances (d : decay) : Prop :=
  forall c, In c (d_chains d) -> exists r, to_particle (ch_decay_node c) = PPart r.

(** The number of chains of subsystem k *)
Definition chain_count (d : decay) (k : Z) : nat :=
  length (filter (fun c => st_index (ch_spectator c) =? k) (d_chains d)).

(** The helicities of a particle with (doubled) spin j: -j, -j+1, ..., j. *)
Definition helicities (j : Z) : list Z :=
  map (fun n => 2 * Z.of_nat n - j) (seq 0 (Z.to_nat (j + 1))).
(** (i,j,k) cyclic *)
Definition cyclic (i j k : Z) : Prop := In (i, j, k) [(1, 2, 3); (2, 3, 1); (3, 1, 2)].

(** Lineshape expressions: built from constants and symbols that are not angles. *)
Fixpoint lineshape (e : cexpr) : bool :=
  match e with
  | CRat _ | CIm => true
  | CVar s => match sassume s with AReal => false | _ => true end
  | CAdd a b | CSub a b | CMul a b | CDiv a b => lineshape a && lineshape b
  | CNeg a | CSqr a | CSqrt a | CExp a | CAbs2 a => lineshape a
  | CFormFactor s m1 m2 _ r => lineshape s && lineshape m1 && lineshape m2 && lineshape r
  | CBreakup s m1 m2 => lineshape s && lineshape m1 && lineshape m2
  | _ => false
  end.
(** The symbols of a lineshape *)
Fixpoint symbols_of (e : cexpr) : list symbol :=
  match e with
  | CVar s => [s]
  | CAdd a b | CSub a b | CMul a b | CDiv a b => symbols_of a ++ symbols_of b
  | CNeg a | CSqr a | CSqrt a | CExp a | CAbs2 a => symbols_of a
  | CFormFactor s m1 m2 _ r => symbols_of s ++ symbols_of m1 ++ symbols_of m2 ++ symbols_of r
  | CBreakup s m1 m2 => symbols_of s ++ symbols_of m1 ++ symbols_of m2
  | _ => []
  end.

(** [dyn c] is what the dynamics builders of [b] give for chain [c]. *)
Definition dynamics_of (b : Builder.builder) (dyn : chain -> Builder.defexpr) : Prop :=
  forall c, In c (d_chains (Builder.b_decay b)) ->
    (exists f, Builder.get_builder (Builder.b_dynamics b)
                 (Builder.IdName (p_name (ch_resonance c))) = Ok f /\ f c = Ok (dyn c))
    /\ lineshape (Builder.de_expr (dyn c)) = true.

(** ** Couplings *)
(** [(-1)^(z/2)] for a doubled integer *)
Definition parity_sign (z : Z) : R := if Z.even (z / 2) then 1%R else (-1)%R.

(** The coefficient of an LS coupling in the helicity coupling for helicities [l1], [l2] of the
    first and second decay product (Jacob-Wick): sqrt((2L+1)/(2J+1)) <L 0; S l|J l><j1 l1; j2 -l2|S l>
    with l = l1 - l2. *)
Definition ls_factor (J : Z) (c : ls_coupling) (j1 l1 j2 l2 : Z) : R :=
  (sqrt (IZR (2 * ls_L c + 1) / IZR (J + 1))
   * cg (2 * ls_L c) 0 (ls_S c) (l1 - l2) J (l1 - l2)
   * cg j1 l1 j2 (- l2) (ls_S c) (l1 - l2))%R.

(** The resonance is the first child of the production node. *)
Definition resonance_first (c : chain) : bool :=
  match c with Node _ (Node _ _ _ _) _ _ => true | _ => false end.

Definition prod_factor (hel : bool) (c : chain) (r lk : Z) : R :=
  if hel then 1%R
  else match ch_incoming_ls c with
       | None => 0%R
       | Some ls =>
           let jR := p_spin (ch_resonance c) in
           let jk := p_spin (ch_spectator c) in
           if resonance_first c then ls_factor (p_spin (ch_parent c)) ls jR r jk lk
           else ls_factor (p_spin (ch_parent c)) ls jk lk jR r
       end.
Definition dec_factor (hel : bool) (c : chain) (lam : Z -> Z) : R :=
  if hel then 1%R
  else match ch_outgoing_ls c with
       | None => 0%R
       | Some ls =>
           let (s1, s2) := ch_decay_products c in
           ls_factor (p_spin (ch_resonance c)) ls
             (p_spin s1) (lam (st_index s1)) (p_spin s2) (lam (st_index s2))
       end.

(** Indices of couplings: helicities or (L, S). *)
Definition coupling_index (hel : bool) (ls : option ls_coupling) (l1 l2 : Z) : list ival :=
  if hel then [IHel l1; IHel l2]
  else match ls with None => [] | Some c => [IHel (2 * ls_L c); IHel (ls_S c)] end.
Definition production_name (hel : bool) : string :=
  if hel then "\mathcal{H}^\mathrm{production}" else "\mathcal{H}^\mathrm{LS,production}".
Definition decay_name (hel : bool) : string :=
  if hel then "\mathcal{H}^\mathrm{decay}" else "\mathcal{H}^\mathrm{LS,decay}".

(** The product of the two couplings of a chain *)
Definition coupling_product (ev : env) (ph dh : bool) (c : chain) (r lk li lj : Z) : C :=
  let label := IStr (p_latex (ch_resonance c)) in
  (e_idx ev (production_name ph) (label :: coupling_index ph (ch_incoming_ls c) r lk)
   * e_idx ev (decay_name dh) (label :: coupling_index dh (ch_outgoing_ls c) li lj))%C.
(** ... and the coefficient that replaces it if [use_coefficients] is set. *)
Definition coefficient (ev : env) (ph dh : bool) (c : chain) (r lk li lj : Z) : C :=
  e_idx ev (Builder.coefficient_base (p_latex (ch_resonance c)) ph dh)
    (coupling_index ph (ch_incoming_ls c) r lk ++ coupling_index dh (ch_outgoing_ls c) li lj).

(** ** The amplitude of subsystem k for helicities [lam] (DPD paper eq. (4)):
    [scal] is the coupling product or coefficient, [X] the dynamics of a chain and
    [theta] the scattering angle. *)
Definition dpd_amplitude (ph dh : bool) (s : Z -> state) (chains : list chain)
  (scal : chain -> Z -> C) (X : chain -> C) (theta : R) (lam : Z -> Z) (i j k : Z) : C :=
  Csum (filter (fun c => st_index (ch_spectator c) =? k) chains) (fun c =>
    Csum (helicities (p_spin (ch_resonance c))) (fun r =>
      if lam 0 =? r - lam k then
        (RtoC (parity_sign (p_spin (s k) - lam k) * parity_sign (p_spin (s j) - lam j))
         * X c
         * RtoC (wigner_d (p_spin (ch_resonance c)) r (lam i - lam j) theta)
         * scal c r
         * RtoC (prod_factor ph c r (lam k) * dec_factor dh c lam))%C
      else RtoC 0)).

(** The scattering angle symbol of subsystem k. *)
Definition theta_name (i j : Z) : symbol :=
  Sym ("theta_" ++ str_of_Z i ++ str_of_Z j)%string AReal.

(** The helicity tuples of the four states. *)
Definition helicity_tuple (s : Z -> state) (l : Z * Z * Z * Z) : Prop :=
  match l with (l0, l1, l2, l3) =>
    In l0 (helicities (p_spin (s 0))) /\ In l1 (helicities (p_spin (s 1))) /\
    In l2 (helicities (p_spin (s 2))) /\ In l3 (helicities (p_spin (s 3)))
  end.
Definition at4 (l : Z * Z * Z * Z) (i : Z) : Z :=
  match l with (l0, l1, l2, l3) =>
    match i with 0 => l0 | 1 => l1 | 2 => l2 | _ => l3 end end.
Definition amp_name (k : Z) : string := ("A^" ++ str_of_Z k)%string.
Definition amp_index (l : Z * Z * Z * Z) : list ival :=
  match l with (l0, l1, l2, l3) => [IHel l0; IHel l1; IHel l2; IHel l3] end.

(** ** The aligned amplitude and the intensity (DPD paper eq. (9)) *)
(** All combinations of the helicities of the four states. *)
Definition tuples (s : Z -> state) : list (Z * Z * Z * Z) :=
  flat_map (fun l0 => flat_map (fun l1 => flat_map (fun l2 => map (fun l3 => (l0, l1, l2, l3))
    (helicities (p_spin (s 3)))) (helicities (p_spin (s 2)))) (helicities (p_spin (s 1))))
    (helicities (p_spin (s 0))).
(** d^j0_{l0,l0'}(z 0) d^j1_{l1',l1}(z 1) d^j2_{l2',l2}(z 2) d^j3_{l3',l3}(z 3) *)
Definition alignment (s : Z -> state) (z : Z -> R) (l l' : Z * Z * Z * Z) : R :=
  (wigner_d (p_spin (s 0%Z)) (at4 l 0) (at4 l' 0) (z 0%Z)
   * wigner_d (p_spin (s 1%Z)) (at4 l' 1) (at4 l 1) (z 1%Z)
   * wigner_d (p_spin (s 2%Z)) (at4 l' 2) (at4 l 2) (z 2%Z)
   * wigner_d (p_spin (s 3%Z)) (at4 l' 3) (at4 l 3) (z 3%Z))%R.
(** [A k l']: amplitude of subsystem k; [zeta i k]: alignment angle of state i in subsystem k *)
Definition aligned_amplitude (s : Z -> state) (ks : list Z) (A : Z -> Z * Z * Z * Z -> C)
  (zeta : Z -> Z -> R) (l : Z * Z * Z * Z) : C :=
  Csum (tuples s) (fun l' => Csum ks (fun k => A k l' * RtoC (alignment s (fun i => zeta i k) l l'))%C).
(** The unpolarised intensity *)
Definition intensity_value (s : Z -> state) (ks : list Z) (A : Z -> Z * Z * Z * Z -> C)
  (zeta : Z -> Z -> R) : R :=
  Rsum (tuples s) (fun l => (Cmod (aligned_amplitude s ks A zeta l) ^ 2)%R).

(** The value of an amplitude symbol in a model *)
Definition amp_value (ev : env) (m : Builder.model) (k : Z) (l : Z * Z * Z * Z) : C :=
  match dget (amp_name k, amp_index l) (Builder.m_amplitudes m) with
  | Some e => ceval ev (fun _ => 0) e
  | None => RtoC 0
  end.

(** Values of all symbols at a point of phase space: [base] gives the values of masses, Mandelstam
    variables and parameters, [cpl] those of the couplings; the angles take the values of
    their definitions in [model.variables]. *)
Definition at_point (vars : dict symbol rexpr) (base : symbol -> C) (cpl : string -> list ival -> C) : env :=
  Env (fun x => match dget x vars with
                | Some e => RtoC (reval (fun y => Re (base y)) e)
                | None => base x
                end) cpl.

(** When a full turn of the parent between two reference subsystems [r1], [r2] does not matter: the parent has
    integer spin, or the chains are all in the two reference subsystems or all in one subsystem. *)
Definition turn_safe (s : Z -> state) (r1 r2 : Z) (ks : list Z) : Prop :=
  Z.even (p_spin (s 0)) = true \/
  (forall k, In k ks -> k = r1 \/ k = r2) \/
  (forall k k', In k ks -> In k' ks -> k = k').
