(** Model of /repo/src/ampform_dpd/dynamics/__init__.py and dynamics/builder.py.

    The lineshape classes are SymPy expression classes; each is modelled by the
    function from its arguments to what its [evaluate] method (the unfolding done by
    [doit()]) returns.  Angular momenta are integers here (not symbols).  The form factor,
    break-up momentum, energy-dependent width and phase-space factor are classes of AmpForm
    (not part of /repo). *)
From Coq Require Import String ZArith QArith Qcanon List Bool.
From Verif Require Import Prelude Spin Decay Expr CExpr Builder.
Import ListNotations.
Local Open Scope string_scope.
Local Open Scope Z_scope.
Local Open Scope list_scope.

Declare Scope cexpr_scope.
Delimit Scope cexpr_scope with ce.
Infix "+" := CAdd : cexpr_scope.
Infix "-" := CSub : cexpr_scope.
Infix "*" := CMul : cexpr_scope.
Infix "/" := CDiv : cexpr_scope.

(** [PhaseSpaceFactorProtocol]: (s, m1, m2) -> expression *)
(** dynamics/__init__.py:31-33: [PhaseSpaceFactorProtocol]. *)
Definition phsp := cexpr -> cexpr -> cexpr -> cexpr.
(** ampform.dynamics.phasespace.PhaseSpaceFactor: 2 q(s) / sqrt(s) *)
(** Library ampform, used at dynamics/__init__.py:31-33. *)
Definition phase_space_factor : phsp := fun s m1 m2 => (CNum 2 * CBreakup s m1 m2 / CSqrt s)%ce.
(** ampform.dynamics.EnergyDependentWidth.evaluate *)
(** Library ampform, used at dynamics/__init__.py:40-50, 78, 191. *)
Definition energy_dependent_width (s m0 w0 ma mb : cexpr) (L : Z) (r : cexpr) (rho : phsp) : cexpr :=
  (w0 * (CSqr (CFormFactor s ma mb L r) / CSqr (CFormFactor (CSqr m0) ma mb L r))
   * (rho s ma mb / rho (CSqr m0) ma mb))%ce.

(** [x == 0] of SymPy for an argument *)
Definition is_zero (e : cexpr) : bool :=
  match e with CRat q => if eq_dec q (Qc_of_Z 0) then true else false | _ => false end.

(** dynamics/__init__.py:205-214 [SimpleBreitWigner]; [1j] is the imaginary unit *)
Definition simple_breit_wigner (s m0 w0 : cexpr) : cexpr :=
  (CNum 1 / (CSqr m0 - s - m0 * w0 * CIm))%ce.
(** dynamics/__init__.py:167-191 [BreitWigner] *)
Definition breit_wigner_width (s m0 w0 m1 m2 : cexpr) (L : Z) (d : cexpr) (rho : phsp) : cexpr :=
  if (L =? 0) && is_zero m1 && is_zero m2 then w0
  else energy_dependent_width s m0 w0 m1 m2 L d rho.
(** dynamics/__init__.py:180-185 [BreitWigner.evaluate]; both branches have the same value. *)
Definition breit_wigner (s m0 w0 m1 m2 : cexpr) (L : Z) (d : cexpr) (rho : phsp) : cexpr :=
  simple_breit_wigner s m0 (breit_wigner_width s m0 w0 m1 m2 L d rho).
(** dynamics/__init__.py:150-164 [ChannelArguments], with its defaults for the last four arguments *)
Record channel := Channel {
  cn_s : cexpr; cn_m0 : cexpr; cn_width : cexpr;
  cn_m1 : cexpr; cn_m2 : cexpr; cn_L : Z; cn_radius : cexpr }.
(** dynamics/__init__.py:150-159: the default values of the fields. *)
Definition default_channel (s m0 w : cexpr) : channel := Channel s m0 w (CNum 0) (CNum 0) 0 (CNum 1).
(** dynamics/__init__.py:161-164 [ChannelArguments.evaluate]. *)
Definition channel_width (c : channel) : cexpr :=
  (cn_width c * cn_m0 c / CSqrt (cn_s c)
   * CSqr (CFormFactor (cn_s c) (cn_m1 c) (cn_m2 c) (cn_L c) (cn_radius c)))%ce.
(** dynamics/__init__.py:130-140 [MultichannelBreitWigner]; [BreitWigner] is used with its
    defaults m1 = m2 = 0, L = 0, meson_radius = 1. *)
Definition multichannel_breit_wigner (s m0 : cexpr) (cs : list channel) : cexpr :=
  breit_wigner s m0 (CAddL (map channel_width cs)) (CNum 0) (CNum 0) 0 (CNum 1) phase_space_factor.
(** dynamics/__init__.py:22-51 [RelativisticBreitWigner] *)
Definition relativistic_breit_wigner (s m0 w0 m1 m2 : cexpr) (L : Z) (r : cexpr) (rho : phsp) : cexpr :=
  (m0 * w0 / (CSqr m0 - s - energy_dependent_width s m0 w0 m1 m2 L r rho * m0 * CIm))%ce.
(** dynamics/__init__.py:54-84 [BreitWignerMinL]; the arguments in the order of [evaluate] *)
Definition breit_wigner_min_l (s m_top m_spec m0 w0 m1 m2 : cexpr) (l_dec l_prod : Z)
  (r_dec r_prod : cexpr) (rho : phsp) : cexpr :=
  let ff_prod := CFormFactor (CSqr m_top) (CSqrt s) m_spec l_prod r_prod in
  let ff0_prod := CFormFactor (CSqr m_top) m0 m_spec l_prod r_prod in
  let ff_dec := CFormFactor s m1 m2 l_dec r_dec in
  let ff0_dec := CFormFactor (CSqr m0) m1 m2 l_dec r_dec in
  let width := energy_dependent_width s m0 w0 m1 m2 l_dec r_dec rho in
  (ff_prod / ff0_prod * (CNum 1 / (CSqr m0 - s - CIm * m0 * width)) * (ff_dec / ff0_dec))%ce.
(** dynamics/__init__.py:87-105 [BuggBreitWigner] *)
Definition bugg_adler_zero (m1 m2 : cexpr) : cexpr := (CSqr m1 - CSqr m2 / CNum 2)%ce.
(** dynamics/__init__.py:100-104 [g_squared]. *)
Definition bugg_g_squared (s m0 w0 m1 m2 g : cexpr) : cexpr :=
  let sA := bugg_adler_zero m1 m2 in
  ((s - sA) / (CSqr m0 - sA) * (m0 * w0 * CExp (CNeg g * s)))%ce.
(** dynamics/__init__.py:97-105 [BuggBreitWigner.evaluate]. *)
Definition bugg_breit_wigner (s m0 w0 m1 m2 g : cexpr) : cexpr :=
  (CNum 1 / (CSqr m0 - s - CIm * bugg_g_squared s m0 w0 m1 m2 g))%ce.
(** dynamics/__init__.py:108-127 [FlattéSWave]; the arguments [widths], [masses1], [masses2]
    are pairs.  [p0] has the masses of the second channel, as in the code. *)
Definition flatte_width (s m0 w1 w2 ma1 mb1 ma2 mb2 : cexpr) : cexpr :=
  let p := CBreakup s ma1 mb1 in
  let p0 := CBreakup (CSqr m0) ma2 mb2 in
  let q := CBreakup s ma2 mb2 in
  let q0 := CBreakup (CSqr m0) ma2 mb2 in
  (w1 * (p / p0 * m0 / CSqrt s) + w2 * (q / q0 * m0 / CSqrt s))%ce.
(** dynamics/__init__.py:118-127 [FlattéSWave.evaluate]. *)
Definition flatte_s_wave (s m0 w1 w2 ma1 mb1 ma2 mb2 : cexpr) : cexpr :=
  (CNum 1 / (CSqr m0 - s - CIm * m0 * flatte_width s m0 w1 w2 ma1 mb1 ma2 mb2))%ce.

(** ** dynamics/builder.py *)
(** 21-26 [BreitWignerBuilder] *)
Record bw_builder := BWBuilder {
  bw_energy_dependent_width : bool;
  bw_decay_form_factor : bool;
  bw_production_form_factor : bool;
  bw_phsp_factor : phsp }.
(** 125-127 [get_mandelstam_s]: the first element of {1,2,3} - {indices}; the set of
    small ints is iterated in ascending order.  A child that is a node or a plain Particle
    has no [index]. *)
Definition child_index (t : tree) : res Z :=
  match t with Leaf (PSt s) => Ok (st_index s) | _ => Err AttributeError end.
(** dynamics/builder.py:125-127 [get_mandelstam_s]. *)
Definition get_mandelstam_s (t : tree) : res symbol :=
  let* cs := children t in
  let* ids := mapM child_index cs in
  match set_diff [1; 2; 3] ids with
  | [] => Err ValueError
  | i :: _ => Ok (Sym ("sigma" ++ str_of_Z i)%string ANonneg)
  end.
(** 119-122 [_create_meson_radius_symbol] *)
Definition create_meson_radius_symbol (parent : pobj) : symbol :=
  match parent with
  | PSt s => Sym ("R_{" ++ p_latex s ++ "}")%string ANonneg
  | PPart _ => Sym "R_\mathrm{res}" ANonneg
  end.
(** 112-116 [_get_angular_momentum] *)
Definition get_angular_momentum (i : option ls_coupling) : res Z :=
  match i with None => Err ValueError | Some c => Ok (ls_L c) end.
(** 78 and 100: [sp.Symbol(Rf"\Gamma_{{{isobar.parent.latex}}}")] *)
(** dynamics/builder.py:78, 100: [sp.Symbol(Rf"\Gamma_{{{latex}}}", nonnegative=True)]. *)
Definition width_symbol (parent : pobj) : symbol :=
  Sym ("\Gamma_{" ++ p_latex (pobj_particle parent) ++ "}")%string ANonneg.
(** dynamics/builder.py:66: [inv_mass.name.startswith("s")]. *)
Definition starts_with_s (x : symbol) : bool :=
  prefix "s" (sname x).
(** dynamics/builder.py:63-67: [to_particle(...).mass]. *)
Definition mass_of (t : tree) : pval := real_val (p_mass (pobj_particle (to_particle t))).

(** 46-68 [_create_form_factor]; the argument [s] is not used. *)
Definition create_form_factor (t : tree) : res defexpr :=
  match t with
  | Leaf _ => Err AttributeError
  | Node parent c1 c2 i =>
      let* inv_mass := match parent with
                       | PSt _ => Ok (Sym "m0" ANonneg)
                       | PPart _ => get_mandelstam_s t
                       end in
      let m1 := create_mass_symbol c1 in
      let m2 := create_mass_symbol c2 in
      let r := create_meson_radius_symbol parent in
      let* L := get_angular_momentum i in
      let ff := CFormFactor (CSqr (CVar inv_mass)) (CVar m1) (CVar m2) L (CVar r) in
      let params := dict_of [(KSym r, one_val); (KSym m1, mass_of c1); (KSym m2, mass_of c2)] in
      let params := if negb (starts_with_s inv_mass) then dset (KSym inv_mass) (mass_of t) params
                    else params in
      Ok (DefExpr ff params)
  end.
(** 71-95 [_create_breit_wigner] *)
Definition create_breit_wigner (s : symbol) (t : tree) (rho : phsp) : res defexpr :=
  match t with
  | Leaf _ => Err AttributeError
  | Node parent c1 c2 i =>
      let m1 := create_mass_symbol c1 in
      let m2 := create_mass_symbol c2 in
      let* L := get_angular_momentum i in
      let m := create_mass_symbol (Leaf parent) in
      let w := width_symbol parent in
      let r := create_meson_radius_symbol parent in
      Ok (DefExpr
            (relativistic_breit_wigner (CVar s) (CVar m) (CVar w) (CVar m1) (CVar m2) L (CVar r) rho)
            (dict_of [(KSym m, real_val (p_mass (pobj_particle parent)));
                      (KSym w, real_val (p_width (pobj_particle parent)));
                      (KSym r, one_val)]))
  end.
(** 98-109 [_create_simple_breit_wigner] *)
Definition create_simple_breit_wigner (s : symbol) (t : tree) : res defexpr :=
  match t with
  | Leaf _ => Err AttributeError
  | Node parent _ _ _ =>
      let m := create_mass_symbol (Leaf parent) in
      let w := width_symbol parent in
      let r := create_meson_radius_symbol parent in
      Ok (DefExpr (simple_breit_wigner (CVar s) (CVar m) (CVar w))
            (dict_of [(KSym m, real_val (p_mass (pobj_particle parent)));
                      (KSym w, real_val (p_width (pobj_particle parent)));
                      (KSym r, one_val)]))
  end.
(** 28-40 [__call__]; [production_node] of a chain is its tree (decay.py:186-188). *)
Definition bw_call (b : bw_builder) (c : chain) : res defexpr :=
  let* decay_node := decay_node_r c in
  let* s := get_mandelstam_s decay_node in
  let* e := if bw_energy_dependent_width b then create_breit_wigner s decay_node (bw_phsp_factor b)
            else create_simple_breit_wigner s decay_node in
  let* e := if bw_decay_form_factor b then
              let* f := create_form_factor decay_node in Ok (de_mul e (MulDef f))
            else Ok e in
  if bw_production_form_factor b then
    let* f := create_form_factor c in Ok (de_mul e (MulDef f))
  else Ok e.
