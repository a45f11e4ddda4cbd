(** Specification of the Breit-Wigner lineshapes and of what BreitWignerBuilder returns. *)
From Coq Require Import String ZArith QArith Qcanon List Bool Reals Permutation.
From Coquelicot Require Import Complex.
From Verif Require Import Prelude Decay Expr CExpr Builder SpecDPD Dynamics.
Import ListNotations.
Local Open Scope string_scope.
Local Open Scope Z_scope.
Local Open Scope list_scope.

(** ** Chains: parent [p0] (ID 0) decays to resonance [r] and spectator [k], in any order, with
    LS coupling [i]; [r] decays to [a] and [b] with LS coupling [j]. *)
Definition isobar_chain (c : chain) (p0 : state) (r : particle) (a b k : state)
  (i j : option ls_coupling) : Prop :=
  let node := Node (PPart r) (Leaf (PSt a)) (Leaf (PSt b)) j in
  (c = Node (PSt p0) node (Leaf (PSt k)) i \/ c = Node (PSt p0) (Leaf (PSt k)) node i)
  /\ st_index p0 = 0
  /\ Permutation [st_index a; st_index b; st_index k] [1; 2; 3].

(** The symbols of the lineshape of a chain *)
Definition sigma_of (k : state) : symbol := Sym ("sigma" ++ str_of_Z (st_index k))%string ANonneg.
Definition outer_mass (s : state) : symbol := Sym ("m" ++ str_of_Z (st_index s))%string ANonneg.
Definition resonance_mass (r : particle) : symbol := Sym ("m_{" ++ p_latex r ++ "}")%string ANonneg.
Definition resonance_width (r : particle) : symbol := Sym ("\Gamma_{" ++ p_latex r ++ "}")%string ANonneg.
Definition resonance_radius : symbol := Sym "R_\mathrm{res}" ANonneg.
Definition parent_radius (p0 : state) : symbol := Sym ("R_{" ++ p_latex p0 ++ "}")%string ANonneg.

(** Needed LS couplings *)
Definition needs_decay_ls (w : bw_builder) : bool :=
  bw_energy_dependent_width w || bw_decay_form_factor w.
Definition needs_production_ls (w : bw_builder) : bool := bw_production_form_factor w.

(** The parameters and their defaults *)
Definition bw_parameters (w : bw_builder) (p0 : state) (r : particle) (a b k : state)
  : list (symbol * Qc) :=
  [(resonance_mass r, p_mass r); (resonance_width r, p_width r);
   (resonance_radius, Spin.Qc_of_Z 1)]
  ++ (if bw_decay_form_factor w then [(outer_mass a, p_mass a); (outer_mass b, p_mass b)] else [])
  ++ (if bw_production_form_factor w
      then [(parent_radius p0, Spin.Qc_of_Z 1); (outer_mass k, p_mass k); (outer_mass p0, p_mass p0)]
      else []).

(** A phase-space factor that uses nothing but its arguments *)
Definition closed_phsp (rho : phsp) : Prop := forall s m1 m2,
  (forall x, In x (symbols_of (rho s m1 m2)) ->
     In x (symbols_of s) \/ In x (symbols_of m1) \/ In x (symbols_of m2)) /\
  (lineshape s = true -> lineshape m1 = true -> lineshape m2 = true -> lineshape (rho s m1 m2) = true).
(** ... and its value as a function *)
Definition phsp_value (rho : phsp) (f : C -> C -> C -> C) : Prop := forall ev h s m1 m2,
  ceval ev h (rho s m1 m2) = f (ceval ev h s) (ceval ev h m1) (ceval ev h m2).

(** ** Lineshapes as functions *)
Local Open Scope C_scope.
Definition form_factor (L : Z) (s m1 m2 r : C) : C :=
  csqrt (blatt_weisskopf_squared (Z.to_nat L) (breakup_squared s m1 m2 * (r * r))).
(** 1 / (m^2 - s - i m G) *)
Definition bw_simple (s m G : C) : C := RtoC 1 / (m * m - s - Ci * m * G).
(** The energy-dependent width *)
Definition running_width (f : C -> C -> C -> C) (L : Z) (s m G m1 m2 r : C) : C :=
  G * ((form_factor L s m1 m2 r * form_factor L s m1 m2 r)
       / (form_factor L (m * m) m1 m2 r * form_factor L (m * m) m1 m2 r))
    * (f s m1 m2 / f (m * m) m1 m2).
(** The width of a channel: G m0 / sqrt(s) FF(s)^2 *)
Definition channel_value (ev : env) (h : symbol -> Z) (c : channel) : C :=
  let V := ceval ev h in
  let ff := form_factor (cn_L c) (V (cn_s c)) (V (cn_m1 c)) (V (cn_m2 c)) (V (cn_radius c)) in
  V (cn_width c) * V (cn_m0 c) / csqrt (V (cn_s c)) * (ff * ff).
(** 2 q / sqrt(s) *)
Definition two_body_phsp (s m1 m2 : C) : C := RtoC 2 * csqrt (breakup_squared s m1 m2) / csqrt s.

(** The lineshape of a chain with switches [w] and angular momenta [Lp] (production) and [Ld] (decay);
    [dec_at] is the value of s in the decay form factor. *)
Definition chain_lineshape (w : bw_builder) (f : C -> C -> C -> C) (Lp Ld : Z) (dec_at : C)
  (v : symbol -> C) (p0 : state) (r : particle) (a b k : state) : C :=
  let s := v (sigma_of k) in
  let m := v (resonance_mass r) in
  let G := v (resonance_width r) in
  let ma := v (outer_mass a) in
  let mb := v (outer_mass b) in
  let R := v resonance_radius in
  (if bw_energy_dependent_width w then m * G * bw_simple s m (running_width f Ld s m G ma mb R)
   else bw_simple s m G)
  * (if bw_decay_form_factor w then form_factor Ld dec_at ma mb R else RtoC 1)
  * (if bw_production_form_factor w
     then form_factor Lp (v (outer_mass p0) * v (outer_mass p0)) m (v (outer_mass k)) (v (parent_radius p0))
     else RtoC 1).

(** A change of the unit of mass by a factor [t] *)
Definition rescaled (t : R) (v v' : symbol -> C) (p0 : state) (r : particle) (a b k : state) : Prop :=
  v' (sigma_of k) = RtoC (t * t) * v (sigma_of k)
  /\ (forall x, In x [resonance_mass r; resonance_width r; outer_mass p0; outer_mass a; outer_mass b; outer_mass k] ->
        v' x = RtoC t * v x)
  /\ (forall x, In x [resonance_radius; parent_radius p0] -> v' x = RtoC (/ t) * v x).

(** The angular momentum of an LS coupling (0 without coupling) *)
Definition orbital (i : option ls_coupling) : Z := match i with Some c => ls_L c | None => 0%Z end.

(** The resonances of a decay decay into two final states. *)
Definition two_body_resonances (d : decay) : Prop := forall c, In c (d_chains d) ->
  exists r a b j, ch_decay_node c = Node (PPart r) (Leaf (PSt a)) (Leaf (PSt b)) j.
(** Each chain has a Breit-Wigner of the builder, or no dynamics. *)
Definition breit_wigner_dynamics (d : decay) (dyn : chain -> defexpr) : Prop :=
  forall c, In c (d_chains d) ->
    dyn c = DefExpr (CNum 1) [] \/
    exists w, closed_phsp (bw_phsp_factor w) /\ bw_call w c = Ok (dyn c).
(** Different resonances have different LaTeX names. *)
Definition latex_determines (d : decay) : Prop := forall c c',
  In c (d_chains d) -> In c' (d_chains d) ->
  p_latex (ch_resonance c) = p_latex (ch_resonance c') -> ch_resonance c = ch_resonance c'.
