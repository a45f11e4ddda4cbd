(** Model of /repo/src/ampform_dpd/__init__.py *)
From Coq Require Import String ZArith QArith Qcanon List Bool.
From Verif Require Import Prelude Spin Decay Expr Angles CExpr.
Import ListNotations.
Local Open Scope list_scope.
Local Open Scope string_scope.
Local Open Scope Z_scope.

(** Keys of the parameter dictionaries: plain and indexed symbols; values: complex
    numbers with rational parts (Python int/float/complex). *)
Inductive pkey := KSym (s : symbol) | KIdx (base : string) (idx : list ival).
Global Instance EqDec_pkey : EqDec pkey.
Proof. unfold EqDec; decide equality; apply eq_dec. Defined.
(** __init__.py:48, 486: the values [complex | float] of parameters, as exact rational numbers (not floats). *)
Definition pval := (Qc * Qc)%type.
(** __init__.py:48, 486: a real number as parameter value. *)
Definition real_val (q : Qc) : pval := (q, Qc_of_Z 0).
(** __init__.py:203-206: [1 + 0j] and [1]. *)
Definition one_val : pval := real_val (Qc_of_Z 1).

(** ** [DefinedExpression] *)
(** 483-486 *)
Record defexpr := DefExpr { de_expr : cexpr; de_params : dict pkey pval }.
(** __init__.py:485-486: [DefinedExpression()]. *)
Definition de_unit : defexpr := DefExpr (CNum 1) [].
(** The right operand of [*]: a DefinedExpression, a sequence of length 2, or
    anything else that SymPy can multiply with. *)
Inductive mul_arg :=
| MulDef (d : defexpr)
| MulPair (e : cexpr) (definitions : dict pkey pval)
| MulExpr (e : cexpr).
(** 488-503 [__mul__] *)
Definition de_mul (self : defexpr) (other : mul_arg) : defexpr :=
  match other with
  | MulDef o =>
      DefExpr (CMul (de_expr self) (de_expr o)) (dupdate (de_params self) (de_params o))
  | MulPair e defs => DefExpr (CMul (de_expr self) e) (dupdate (de_params self) defs)
  | MulExpr e => DefExpr (CMul (de_expr self) e) (de_params self)
  end.

(** ** [DynamicsConfigurator] *)
(** 479-480: a dynamics builder, any callable from chains to DefinedExpressions. *)
Definition dyn_builder := chain -> res defexpr.
(** 449-452 *)
Record configurator := Conf { dc_decay : decay; dc_builders : dict chain dyn_builder }.
(** __init__.py:450-452 [DynamicsConfigurator.__init__]. *)
Definition mk_configurator (d : decay) : configurator := Conf d [].
(** What can be passed as [identifier]. *)
(** __init__.py:462-472: the values that [__get_chain] distinguishes. *)
Inductive identifier := IdChain (c : chain) | IdName (s : string) | IdOther.
(** 462-472 [__get_chain] *)
Definition get_chain (cf : configurator) (i : identifier) : res chain :=
  match i with
  | IdChain c => if memb c (d_chains (dc_decay cf)) then Ok c else Err ValueError
  | IdName s => find_chain (dc_decay cf) s
  | IdOther => Err NotImplementedErr
  end.
(** 454-456 [register_builder] *)
Definition register_builder (cf : configurator) (i : identifier) (b : dyn_builder) : res configurator :=
  let* c := get_chain cf i in
  Ok (Conf (dc_decay cf) (dset c b (dc_builders cf))).
(** 458-460 [get_builder] *)
Definition default_builder : dyn_builder := fun _ => Ok de_unit.
(** __init__.py:458-460 [get_builder]. *)
Definition get_builder (cf : configurator) (i : identifier) : res dyn_builder :=
  let* c := get_chain cf i in
  match dget c (dc_builders cf) with Some b => Ok b | None => Ok default_builder end.

(** ** Masses and invariants *)
(** 513-517 [create_mass_symbol] *)
Definition create_mass_symbol (t : tree) : symbol :=
  match to_particle t with
  | PSt s => Sym ("m" ++ str_of_Z (st_index s)) ANonneg
  | PPart p => Sym ("m_{" ++ p_latex p ++ "}") ANonneg
  end.
(** 506-510 [create_mass_symbol_mapping]; [sorted] of ints does not fail. *)
Definition create_mass_symbol_mapping (d : decay) : res (dict symbol Qc) :=
  let* ids := sorted (dkeys (d_states d)) in
  let* items := mapM (fun i =>
      let* s := dgetitem i (d_states d) in
      Ok (create_mass_symbol (Leaf (PSt s)), p_mass s)) ids in
  Ok (dict_of items).
(** 529-537 [formulate_third_mandelstam]; compute_third_mandelstam of ampform is
    m0**2 + m1**2 + m2**2 + m3**2 - sigma_x - sigma_y. *)
Definition formulate_third_mandelstam (d : decay) (x y : Z) : res rexpr :=
  let* masses := create_mass_symbol_mapping d in
  match dkeys masses with
  | [m0; m1; m2; m3] =>
      Ok (RSq (RVar m0) + RSq (RVar m1) + RSq (RVar m2) + RSq (RVar m3)
          - sigmaE x - sigmaE y)%re
  | _ => Err ValueError
  end.
(** 520-526 [formulate_invariants] *)
Definition formulate_invariants (d : decay) : res (dict symbol rexpr) :=
  let* e1 := formulate_third_mandelstam d 2 3 in
  let* e2 := formulate_third_mandelstam d 3 1 in
  let* e3 := formulate_third_mandelstam d 1 2 in
  Ok (dict_of [(sigma_sym 1, e1); (sigma_sym 2, e2); (sigma_sym 3, e3)]).

(** ** Symbols *)
(** 114, 183, 267 *)
(** __init__.py:113-115: [sp.symbols("lambda:4", rational=True)]. *)
Definition hel_sym (i : Z) : symbol := Sym ("lambda" ++ str_of_Z i) ARational.
(** __init__.py:267: [sp.symbols(R"\lambda_(0:4)^{\prime}", rational=True)]. *)
Definition hel_prime (i : Z) : symbol := Sym ("\lambda_" ++ str_of_Z i ++ "^{\prime}") ARational.
(** __init__.py:183: [sp.Symbol(R"\lambda_R", rational=True)]. *)
Definition lambda_R : symbol := Sym "\lambda_R" ARational.
(** 422-424 [_generate_amplitude_index_bases] *)
Definition amp_base (k : Z) : res string :=
  dgetitem k [(1, "A^1"); (2, "A^2"); (3, "A^3")].

(** 380-386 [_get_coupling_base] *)
Definition coupling_base (helicity_basis : bool) (typ : string) : string :=
  if helicity_basis then "\mathcal{H}^\mathrm{" ++ typ ++ "}"
  else "\mathcal{H}^\mathrm{LS," ++ typ ++ "}".
(** 365-377 [_get_coefficient_base] *)
Definition coefficient_base (resonance : string) (prod dec : bool) : string :=
  if prod && dec then "\mathcal{H}^\mathrm{" ++ resonance ++ "}"
  else if prod then "\mathcal{H}^\mathrm{LS,\lambda," ++ resonance ++ "}"
  else if dec then "\mathcal{H}^\mathrm{\lambda,LS," ++ resonance ++ "}"
  else "\mathcal{H}^\mathrm{LS," ++ resonance ++ "}".
(** An [sp.Indexed]. *)
(** __init__.py:358, 362: [sp.Indexed], a base and its indices. *)
Definition indexed := (string * list iexpr)%type.
(** __init__.py:218: the symbol as expression. *)
Definition CIndexed (x : indexed) : cexpr := CIdx (fst x) (snd x).
(** The symbol as a dictionary key; its indices are numbers here. *)
(** __init__.py:203-206: the symbol as key of [parameter_defaults]. *)
Definition indexed_key (x : indexed) : pkey := KIdx (fst x) (map (ieval (fun _ => 0)) (snd x)).
(** 348-362 [_create_coupling_symbol] *)
Definition create_coupling_symbol (helicity_basis : bool) (resonance : string)
  (helicities : hexpr * hexpr) (interaction : option ls_coupling) (typ : string) : res indexed :=
  let h := coupling_base helicity_basis typ in
  if helicity_basis then
    Ok (h, [XStr resonance; XHel (fst helicities); XHel (snd helicities)])
  else
    match interaction with
    | None => Err ValueError
    | Some c => Ok (h, [XStr resonance; XHel (HVal (2 * ls_L c)); XHel (HVal (ls_S c))])
    end.
(** 318-345 [_create_scaling_factors]: two couplings or one coefficient. *)
Inductive scaling := ScPair (h_prod h_dec : indexed) | ScOne (h : indexed).
(** __init__.py:318-345 [_create_scaling_factors]: one or two indexed symbols. *)
Definition create_scaling_factors (c : chain) (prod_helicity_basis : bool) (lR lk : hexpr)
  (dec_helicity_basis : bool) (li lj : hexpr) (one_scalar_per_chain : bool) : res scaling :=
  let r := p_latex (ch_resonance c) in
  let* h_prod := create_coupling_symbol prod_helicity_basis r (lR, lk) (ch_incoming_ls c) "production" in
  let* h_dec := create_coupling_symbol dec_helicity_basis r (li, lj) (ch_outgoing_ls c) "decay" in
  if one_scalar_per_chain then
    Ok (ScOne (coefficient_base r prod_helicity_basis dec_helicity_basis,
               (tl (snd h_prod) ++ tl (snd h_dec))%list))
  else Ok (ScPair h_prod h_dec).
(** 287-290 [_product] *)
Definition scaling_product (s : scaling) : cexpr :=
  match s with
  | ScPair p d => CMul (CIndexed p) (CIndexed d)
  | ScOne h => CIndexed h
  end.
(** 201-206: the defaults of the couplings *)
Definition set_scaling_defaults (s : scaling) (params : dict pkey pval) : dict pkey pval :=
  match s with
  | ScPair p d => dset (indexed_key d) one_val (dset (indexed_key p) one_val params)
  | ScOne h => dset (indexed_key h) one_val params
  end.

(** 389-419 [_formulate_clebsch_gordan_factors] *)
Definition formulate_clebsch_gordan_factors (isobar : tree) (helicities : dict pobj hexpr) : res cexpr :=
  match isobar with
  | Leaf _ => Err AttributeError
  | Node _ _ _ None => Err ValueError
  | Node parent c1 c2 (Some ls) =>
      let child1 := to_particle c1 in
      let child2 := to_particle c2 in
      let* h1 := dgetitem child1 helicities in
      let* h2 := dgetitem child2 helicities in
      let j := p_spin (pobj_particle parent) in
      let cg_ss := CCG (p_spin (pobj_particle child1)) h1 (p_spin (pobj_particle child2)) (HNeg h2)
                       (ls_S ls) (HSub h1 h2) in
      let cg_ll := CCG (2 * ls_L ls) (HVal 0) (ls_S ls) (HSub h1 h2) j (HSub h1 h2) in
      let sqrt_factor := CSqrt (CRat (Qcdiv (Qc_of_Z (2 * ls_L ls + 1)) (Qc_of_Z (j + 1)))) in
      Ok (CMul (CMul sqrt_factor cg_ll) cg_ss)
  end.

(** ** [DalitzPlotDecompositionBuilder] *)
(** __init__.py:58-90 [DalitzPlotDecompositionBuilder]. *)
Record builder := Builder {
  b_decay : decay;
  b_dynamics : configurator;
  b_prod_helicity : bool;   (* use_production_helicity_couplings *)
  b_dec_helicity : bool;    (* use_decay_helicity_couplings *)
  b_all_subsystems : bool;
}.
(** Values of the [min_ls] argument: bool, tuple of length 2 of bools, anything else. *)
(** __init__.py:79-89: the values of [min_ls] that [__init__] distinguishes. *)
Inductive min_ls_arg := MinBool (b : bool) | MinPair (p d : bool) | MinOther.
(** 59-90 [__init__] *)
Definition mk_builder (d : decay) (min_ls : min_ls_arg) (all_subsystems : bool) : res builder :=
  match min_ls with
  | MinBool b => Ok (Builder d (mk_configurator d) b b all_subsystems)
  | MinPair p q => Ok (Builder d (mk_configurator d) p q all_subsystems)
  | MinOther => Err NotImplementedErr
  end.
(** [builder.dynamics_choices.register_builder(identifier, f)] *)
(** __init__.py:454-456: [builder.dynamics_choices.register_builder(...)] (78). *)
Definition builder_register (b : builder) (i : identifier) (f : dyn_builder) : res builder :=
  let* cf := register_builder (b_dynamics b) i f in
  Ok (Builder (b_decay b) cf (b_prod_helicity b) (b_dec_helicity b) (b_all_subsystems b)).

(** 42-50 [AmplitudeModel] *)
Definition akey := (string * list ival)%type.
(** __init__.py:42-50 [AmplitudeModel]. *)
Record model := Model {
  m_decay : decay;
  m_intensity : cexpr;
  m_amplitudes : dict akey cexpr;
  m_variables : dict symbol rexpr;
  m_params : dict pkey pval;
  m_masses : dict symbol Qc;
  m_invariants : dict symbol rexpr;
}.

(** A Python tuple of four helicities, indexed by a state ID. *)
Definition lam4 (l : Z * Z * Z * Z) (i : Z) : Z :=
  match l with
  | (l0, l1, l2, l3) =>
      if i =? 0 then l0 else if i =? 1 then l1 else if i =? 2 then l2 else l3
  end.

(** 192-206: the loop over the resonance helicities that collects default values *)
Fixpoint coupling_defaults (b : builder) (c : chain) (lam : Z -> Z) (k i j : Z)
  (use_coefficients : bool) (rs : list Z) (params : dict pkey pval) : res (dict pkey pval) :=
  match rs with
  | [] => Ok params
  | r :: rs =>
      if negb (lam 0 =? r - lam k) then coupling_defaults b c lam k i j use_coefficients rs params
      else
        let* s := create_scaling_factors c (b_prod_helicity b) (HVal r) (HVal (lam k))
                    (b_dec_helicity b) (HVal (lam i)) (HVal (lam j)) use_coefficients in
        coupling_defaults b c lam k i j use_coefficients rs (set_scaling_defaults s params)
  end.

(** 213-220: the amplitude of one chain before the Clebsch-Gordan factors *)
Definition chain_amp (c : chain) (lam spin : Z -> Z) (k i j : Z) (theta : symbol)
  (dyn : cexpr) (s : scaling) : cexpr :=
  CMul (CMul (CMul (CMul (CMul
    (CDelta (HVal (lam 0)) (HSub (HVar lambda_R) (HVal (lam k))))
    (CSign (HVal (spin k - lam k))))
    dyn)
    (CWigner (p_spin (ch_resonance c)) (HVar lambda_R) (HSub (HVal (lam i)) (HVal (lam j))) theta))
    (scaling_product s))
    (CSign (HVal (spin j - lam j))).

(** 187-242: one iteration of the loop over the chains *)
Definition chain_term (b : builder) (c : chain) (lam spin : Z -> Z) (k i j : Z) (theta : symbol)
  (use_coefficients : bool) (params : dict pkey pval) : res (cexpr * dict pkey pval) :=
  let* f := get_builder (b_dynamics b) (IdName (p_name (ch_resonance c))) in
  let* dynamics := f c in
  let params := dupdate params (de_params dynamics) in
  let resonance_helicities := spin_range2 (p_spin (ch_resonance c)) in
  let* params := coupling_defaults b c lam k i j use_coefficients resonance_helicities params in
  let* s := create_scaling_factors c (b_prod_helicity b) (HVar lambda_R) (HVal (lam k))
              (b_dec_helicity b) (HVal (lam i)) (HVal (lam j)) use_coefficients in
  let e := chain_amp c lam spin k i j theta (de_expr dynamics) s in
  let* e :=
    if b_dec_helicity b then Ok e
    else
      let* fi := dgetitem i (final_states (b_decay b)) in
      let* fj := dgetitem j (final_states (b_decay b)) in
      let* g := formulate_clebsch_gordan_factors (ch_decay_node c)
                  (dict_of [(PSt fi, HVal (lam i)); (PSt fj, HVal (lam j))]) in
      Ok (CMul e g) in
  let* e :=
    if b_prod_helicity b then Ok e
    else
      let* fk := dgetitem k (final_states (b_decay b)) in
      let* g := formulate_clebsch_gordan_factors c
                  (dict_of [(to_particle (ch_decay_node c), HVar lambda_R); (PSt fk, HVal (lam k))]) in
      Ok (CMul e g) in
  Ok (CSum e [(lambda_R, resonance_helicities)], params).

(** __init__.py:186-242: the loop over the chains of a subsystem. *)
Fixpoint chain_terms (b : builder) (lam spin : Z -> Z) (k i j : Z) (theta : symbol)
  (use_coefficients : bool) (cs : list chain) (params : dict pkey pval)
  : res (list cexpr * dict pkey pval) :=
  match cs with
  | [] => Ok ([], params)
  | c :: cs =>
      let* (e, params) := chain_term b c lam spin k i j theta use_coefficients params in
      let* (es, params) := chain_terms b lam spin k i j theta use_coefficients cs params in
      Ok (e :: es, params)
  end.

(** 163-252 [formulate_subsystem_amplitude] *)
Definition formulate_subsystem_amplitude (b : builder) (l : Z * Z * Z * Z) (k : Z)
  (use_coefficients : bool) : res model :=
  let d := b_decay b in
  let* (i, j) := get_decay_product_ids k in
  let* (theta, theta_expr) := formulate_scattering_angle i j in
  let* s0 := initial_state_r d in
  let* s1 := dgetitem 1 (final_states d) in
  let* s2 := dgetitem 2 (final_states d) in
  let* s3 := dgetitem 3 (final_states d) in
  let lam := lam4 l in
  let spin := lam4 (p_spin s0, p_spin s1, p_spin s2, p_spin s3) in
  let* sub := fst (get_subsystem d k) in
  let* (terms, params) := chain_terms b lam spin k i j theta use_coefficients (d_chains sub) [] in
  let* a := amp_base k in
  let idx := map IHel [lam 0; lam 1; lam 2; lam 3] in
  Ok (Model d
        (CAbs2 (CIdx a (map (fun n => XHel (HVal (lam n))) [0; 1; 2; 3])))
        [((a, idx), CAddL terms)] [(theta, theta_expr)] params [] []).

(** 427-446 [_AlignmentWignerGenerator]: [defs] is its [angle_definitions]. *)
Definition wigner_gen (reference : Z) (j : Z) (m m' : hexpr) (rotated aligned : Z)
  (defs : dict symbol rexpr) : res (cexpr * dict symbol rexpr) :=
  if j =? 0 then Ok (CNum 1, defs)
  else
    let* (zeta, zeta_expr) := formulate_zeta_angle rotated aligned reference in
    Ok (CWigner j m m' zeta, dset zeta zeta_expr defs).

(** 272-277: the term of subsystem [k] in the aligned amplitude *)
Definition aligned_term (reference : Z) (j : Z -> Z) (lam lam' : Z -> hexpr) (k : Z)
  (defs : dict symbol rexpr) : res (cexpr * dict symbol rexpr) :=
  let* a := amp_base k in
  let* (w0, defs) := wigner_gen reference (j 0) (lam 0) (lam' 0) 0 k defs in
  let* (w1, defs) := wigner_gen reference (j 1) (lam' 1) (lam 1) 1 k defs in
  let* (w2, defs) := wigner_gen reference (j 2) (lam' 2) (lam 2) 2 k defs in
  let* (w3, defs) := wigner_gen reference (j 3) (lam' 3) (lam 3) 3 k defs in
  Ok (CMul (CMul (CMul (CMul
        (CIdx a (map (fun n => XHel (lam' n)) [0; 1; 2; 3])) w0) w1) w2) w3, defs).
(** __init__.py:271-278: the sum over the subsystems, with the angle definitions it collects (445). *)
Fixpoint aligned_terms (reference : Z) (j : Z -> Z) (lam lam' : Z -> hexpr) (ks : list Z)
  (defs : dict symbol rexpr) : res (list cexpr * dict symbol rexpr) :=
  match ks with
  | [] => Ok ([], defs)
  | k :: ks =>
      let* (e, defs) := aligned_term reference j lam lam' k defs in
      let* (es, defs) := aligned_terms reference j lam lam' ks defs in
      Ok (e :: es, defs)
  end.

(** 293-301 [_get_best_reference_subsystems].  The set of IDs is iterated in
    ascending order (CPython sets of small ints); [max] keeps the first maximum. *)
Fixpoint max_by_count (best : Z * nat) (l : list (Z * nat)) : Z * nat :=
  match l with
  | [] => best
  | x :: l => if Nat.ltb (snd best) (snd x) then max_by_count x l else max_by_count best l
  end.
(** __init__.py:293-301 [_get_best_reference_subsystems]; [max] gives the first of equal counts, in the order of a set of small ints (ascending in CPython). *)
Definition get_best_reference_subsystem (d : decay) : res Z :=
  let* ids := sorted (get_subsystem_ids d) in
  let* counts := mapM (fun k =>
      let* sub := fst (get_subsystem d k) in Ok (k, length (d_chains sub))) ids in
  match counts with
  | [] => Err ValueError
  | x :: l => Ok (fst (max_by_count x l))
  end.
(** 304-315 [_check_reference_subsystems]: whether a warning is issued *)
Definition check_reference_subsystem (d : decay) (reference : Z) : bool :=
  negb (memb reference (get_subsystem_ids d)).
(** 109-112 and 262-265 *)
Definition resolve_reference (d : decay) (reference : option Z) : res Z :=
  match reference with
  | None => get_best_reference_subsystem d
  | Some r => Ok r
  end.

(** 254-284 [formulate_aligned_amplitude] *)
Definition formulate_aligned_amplitude (b : builder) (lam : Z -> hexpr) (reference : option Z)
  : res (cexpr * dict symbol rexpr) :=
  let d := b_decay b in
  let* r := resolve_reference d reference in
  let* ids := sorted (dkeys (d_states d)) in
  let* spins := mapM (fun i => let* s := dgetitem i (d_states d) in Ok (p_spin s)) ids in
  match spins with
  | [j0; j1; j2; j3] =>
      let j := lam4 (j0, j1, j2, j3) in
      let lam' := fun n => HVar (hel_prime n) in
      let* ks := sorted (get_subsystem_ids d) in
      let* (terms, defs) := aligned_terms r j lam lam' ks [] in
      Ok (CSum (CAddL terms) (map (fun n => (hel_prime n, spin_range2 (j n))) [0; 1; 2; 3]), defs)
  | _ => Err ValueError
  end.

(** [itertools.product] of four ranges *)
(** __init__.py:128: [itertools.product] of four lists. *)
Definition product4 (r0 r1 r2 r3 : list Z) : list (Z * Z * Z * Z) :=
  flat_map (fun a => flat_map (fun b => flat_map (fun c => map (fun d => (a, b, c, d)) r3) r2) r1) r0.

(** 128-135: the body of the double loop *)
Fixpoint formulate_loop (b : builder) (use_coefficients : bool)
  (work : list ((Z * Z * Z * Z) * Z))
  (acc : dict akey cexpr * dict symbol rexpr * dict pkey pval)
  : res (dict akey cexpr * dict symbol rexpr * dict pkey pval) :=
  match work with
  | [] => Ok acc
  | (l, k) :: work =>
      let* m := formulate_subsystem_amplitude b l k use_coefficients in
      let '(amps, vars, params) := acc in
      formulate_loop b use_coefficients work
        (dupdate amps (m_amplitudes m), dupdate vars (m_variables m), dupdate params (m_params m))
  end.

(** 92-161 [formulate]; warnings are modelled by [formulate_warns]. *)
Definition formulate (b : builder) (reference : option Z) (cleanup_summations use_coefficients : bool)
  : res model :=
  let d := b_decay b in
  let* r := resolve_reference d reference in
  let* s0 := dgetitem 0 (d_states d) in
  let* s1 := dgetitem 1 (d_states d) in
  let* s2 := dgetitem 2 (d_states d) in
  let* s3 := dgetitem 3 (d_states d) in
  let rng := fun i => spin_range2 (lam4 (p_spin s0, p_spin s1, p_spin s2, p_spin s3) i) in
  let* ids := if b_all_subsystems b then Ok [1; 2; 3] else sorted (get_subsystem_ids d) in
  let work := flat_map (fun l => map (fun k => (l, k)) ids)
                (product4 (rng 0) (rng 1) (rng 2) (rng 3)) in
  let* (amps, vars, params) := formulate_loop b use_coefficients work ([], [], []) in
  let* (aligned, zeta_defs) := formulate_aligned_amplitude b (fun n => HVar (hel_sym n)) (Some r) in
  let vars := dupdate vars zeta_defs in
  let* masses := create_mass_symbol_mapping d in
  let params := dupdate params (map (fun kv => (KSym (fst kv), real_val (snd kv))) masses) in
  let aligned := if cleanup_summations then cleanup aligned else aligned in
  let* inv := formulate_invariants d in
  (* 144-149: a cleaned-up PoolSum is computed here and not used *)
  Ok (Model d (CSum (CAbs2 aligned) (map (fun n => (hel_sym n, rng n)) [0; 1; 2; 3]))
        amps vars params masses inv).

(** The warnings of [formulate]: an explicit reference that is not in the decay
    (304-315, issued twice), and, with [all_subsystems], each subsystem without chains
    (decay.py:119-126). *)
Definition formulate_warns (b : builder) (reference : option Z) : bool :=
  (match reference with None => false | Some r => check_reference_subsystem (b_decay b) r end)
  || (b_all_subsystems b
      && existsb (fun k => snd (get_subsystem (b_decay b) k)) [1; 2; 3]).

(** ** The value of a model *)
(** 52-55 [full_expression]: the intensity, in which the amplitude symbols are replaced by
    their definitions. *)
Definition amp_env (ev : env) (amps : dict akey cexpr) : env :=
  Env (e_sym ev)
    (fun base idx =>
       match dget (base, idx) amps with
       | Some e => ceval ev (fun _ => 0) e
       | None => e_idx ev base idx
       end).
(** __init__.py:52-55: the value of [full_expression]. *)
Definition full_value (ev : env) (m : model) : Complex.C :=
  ceval (amp_env ev (m_amplitudes m)) (fun _ => 0) (m_intensity m).
