(** Model of /repo/src/ampform_dpd/io/serialization/amplitude.py *)
From Coq Require Import String Ascii ZArith QArith Qcanon List Bool.
From Verif Require Import Prelude Spin Decay Expr Angles CExpr Builder Dynamics SerFormat SerDynamics.
Import ListNotations.
Local Open Scope string_scope.
Local Open Scope Z_scope.
Local Open Scope list_scope.

(** ** Helicities in a chain definition *)
(** [zip(a, b, strict=True)] *)
(** Python [zip], io/serialization/amplitude.py:83, 175, 240, 258. *)
Fixpoint zip_strict {A B} (a : list A) (b : list B) : res (list (A * B)) :=
  match a, b with
  | [], [] => Ok []
  | x :: a, y :: b => let* l := zip_strict a b in Ok ((x, y) :: l)
  | _, _ => Err ValueError
  end.
(** 162-178 [_get_decay_product_helicities], with the unpacking of line 135 *)
Fixpoint decay_product_helicities (vs : list vertex) : res (list (Z * Z)) :=
  match vs with
  | [] => Err ValueError
  | v :: vs =>
      if all_int (v_node v) then
        match v_helicities v with
        | None => Err ValueError
        | Some hs => zip_strict (ints_of (v_node v)) hs
        end
      else decay_product_helicities vs
  end.
(** 240-242: the first item of a node that is a list of length 2 *)
Fixpoint first_pair (l : list (Z * item)) : option (list item * Z) :=
  match l with
  | [] => None
  | (h, Sub [a; b]) :: _ => Some ([a; b], h)
  | _ :: l => first_pair l
  end.
(** 227-244 [_get_resonance_helicity] *)
Fixpoint resonance_helicity (vs : list vertex) : res (list item * Z) :=
  match vs with
  | [] => Err ValueError
  | v :: vs =>
      if all_int (v_node v) then resonance_helicity vs
      else
        match v_helicities v with
        | None => Err ValueError
        | Some hs =>
            (* the elements of a strict zip before the shorter list ends are visited first *)
            match first_pair (combine hs (v_node v)) with
            | Some r => Ok r
            | None => let* _ := zip_strict hs (v_node v) in resonance_helicity vs
            end
        end
  end.
(** 247-262 [_get_final_state_helicities] *)
Fixpoint collect_helicities (vs : list vertex) (acc : dict Z Z) : res (dict Z Z) :=
  match vs with
  | [] => Ok acc
  | v :: vs =>
      match v_helicities v with
      | None => Err ValueError
      | Some hs =>
          let* l := zip_strict hs (v_node v) in
          collect_helicities vs
            (fold_left (fun acc x => match x with (h, It i) => dset i h acc | _ => acc end) l acc)
      end
  end.
(** io/serialization/amplitude.py:247-262 [_get_final_state_helicities]. *)
Definition final_state_helicities (c : chain_def) : res (dict Z Z) :=
  let* d := collect_helicities (cd_vertices c) [] in
  let* ids := sorted (dkeys d) in
  let* items := mapM (fun i => let* h := dgetitem i d in Ok (i, h)) ids in
  Ok (dict_of items).

(** ** Weights *)
(** [str] and [sp.latex] of a half-integer, given doubled *)
(** SymPy [str] of a Rational, io/serialization/amplitude.py:223. *)
Definition str_half (z : Z) : string :=
  if Z.even z then str_of_Z (z / 2) else (str_of_Z z ++ "/2")%string.
(** SymPy [sp.latex] of a Rational, io/serialization/amplitude.py:222. *)
Definition latex_half (z : Z) : string :=
  if Z.even z then str_of_Z (z / 2)
  else if z <? 0 then ("- \frac{" ++ str_of_Z (- z) ++ "}{2}")%string
  else ("\frac{" ++ str_of_Z z ++ "}{2}")%string.
(** 212-224 [_get_weight] *)
Definition weight_symbol (latex : string) (r : Z) (hs : list Z) : symbol :=
  Sym ("c^{" ++ latex ++ "[" ++ str_half r ++ "]}_{" ++ String.concat ", " (map latex_half hs) ++ "}")%string ANone.
(** io/serialization/amplitude.py:212-224 [_get_weight]. *)
Definition get_weight (c : chain_def) (to_latex : string -> string) : res (symbol * pval) :=
  let* (_, r) := resonance_helicity (cd_vertices c) in
  let* hs := final_state_helicities c in
  Ok (weight_symbol (to_latex (cd_name c)) r (dvalues hs), cd_weight c).

(** ** Recouplings *)
(** 346-349 [_get_helicity_symbol] *)
Definition helicity_symbol (x : item) : symbol :=
  match x with It i => hel_sym i | Sub _ => lambda_R end.
(** 359-369 [HelicityRecoupling.evaluate] *)
Definition helicity_recoupling (la lb la0 lb0 : hexpr) : cexpr := CMul (CDelta la la0) (CDelta lb lb0).
(** 372-385 [ParityRecoupling.evaluate] *)
Definition parity_recoupling (la lb la0 lb0 : hexpr) (f : Z) : cexpr :=
  CAdd (CMul (CDelta la la0) (CDelta lb lb0))
       (CMul (CMul (CNum f) (CDelta la (HNeg la0))) (CDelta lb (HNeg lb0))).
(** 388-407 [LSRecoupling.evaluate]; the spins are doubled *)
Definition ls_recoupling (la lb : hexpr) (l s ja jb j : Z) : cexpr :=
  CMul (CMul (CSqrt (CRat (Qcdiv (Qc_of_Z (2 * l + 1)) (Qc_of_Z (j + 1)))))
             (CCG ja la jb (HNeg lb) s (HSub la lb)))
       (CCG (2 * l) (HVal 0) s (HSub la lb) j (HSub la lb)).
(** [str.strip]: the ASCII characters for which [str.isspace] holds *)
(** Python [str.strip], io/serialization/amplitude.py:300. *)
Definition is_space (c : ascii) : bool :=
  let n := nat_of_ascii c in
  (Nat.leb 9 n && Nat.leb n 13) || (Nat.leb 28 n && Nat.leb n 32).
(** Python [str.lstrip], part of [str.strip] (io/serialization/amplitude.py:300). *)
Fixpoint lstrip (s : string) : string :=
  match s with
  | EmptyString => EmptyString
  | String c s' => if is_space c then lstrip s' else s
  end.
(** Python [str.rstrip], part of [str.strip] (io/serialization/amplitude.py:300). *)
Fixpoint rstrip (s : string) : string :=
  match s with
  | EmptyString => EmptyString
  | String c s' =>
      match rstrip s' with
      | EmptyString => if is_space c then EmptyString else String c EmptyString
      | r => String c r
      end
  end.
(** Python [str.strip], io/serialization/amplitude.py:300. *)
Definition strip (s : string) : string := rstrip (lstrip s).
(** 299-308 [_sign_to_value] *)
Definition sign_to_value (sign : string) : res Z :=
  let s := strip sign in
  if eqb s "-" then Ok (-1)
  else if eqb s "" then Ok 0
  else if eqb s "+" then Ok 1
  else Err NotImplementedErr.
(** 338-343 [__get_propagator_spin] *)
Definition propagator_spin (c : chain_def) : res Z :=
  match cd_propagators c with
  | [p] => spin_value (pr_spin p)
  | _ => Err ValueError
  end.
(** io/serialization/amplitude.py:276, 315, 326: [chain_definition["vertices"][vertex_idx]]. *)
Definition nth_vertex (c : chain_def) (n : nat) : res vertex :=
  match nth_error (cd_vertices c) n with Some v => Ok v | None => Err IndexError end.
(** io/serialization/amplitude.py:124-125, 268, 314, 325: [get_decay_chains(model)[chain_idx]]. *)
Definition nth_chain (m : model_def) (n : nat) : res chain_def :=
  let* cs := get_decay_chains m in
  match nth_error cs n with Some c => Ok c | None => Err IndexError end.
(** 311-319 [_get_parent_spin] *)
Definition get_parent_spin (m : model_def) (chain_idx vertex_idx : nat) : res Z :=
  let* c := nth_chain m chain_idx in
  let* v := nth_vertex c vertex_idx in
  if all_int (v_node v) then propagator_spin c
  else let* s := get_initial_state m None in Ok (p_spin s).
(** 322-335 [_get_child_spins].  [sp.Rational(state)] of a State object raises. *)
Definition rational_of_state (s : state) : res Z := Err TypeError.
(** io/serialization/amplitude.py:322-335 [_get_child_spins]. *)
Definition get_child_spins (m : model_def) (chain_idx vertex_idx : nat) : res (list Z) :=
  let* c := nth_chain m chain_idx in
  let* v := nth_vertex c vertex_idx in
  let* final := get_final_state m None in
  mapM (fun x => match x with
                 | It i => let* s := dgetitem i final in rational_of_state s
                 | Sub _ => propagator_spin c
                 end) (v_node v).
(** Python [d[key]] for a key that may be absent from a vertex, io/serialization/amplitude.py:282, 290-291. *)
Definition opt_key {A} (x : option A) : res A := match x with Some a => Ok a | None => Err KeyError end.
(** 265-296 [formulate_recoupling] *)
Definition formulate_recoupling (m : model_def) (chain_idx vertex_idx : nat) : res cexpr :=
  let* c := nth_chain m chain_idx in
  if negb (Nat.eqb (length (cd_vertices c)) 2) then Err ValueError
  else if negb (memb vertex_idx [0%nat; 1%nat]) then Err ValueError
  else
    let* v := nth_vertex c vertex_idx in
    let* (la, lb) := unpack2 (map helicity_symbol (v_node v)) in
    let ty := v_type v in
    if eqb ty "helicity" || eqb ty "parity" then
      let* hs := opt_key (v_helicities v) in
      let* (la0, lb0) := unpack2 hs in
      if eqb ty "parity" then
        let* f := sign_to_value (match v_parity_factor v with Some s => s | None => "+" end) in
        Ok (parity_recoupling (HVar la) (HVar lb) (HVal la0) (HVal lb0) f)
      else Ok (helicity_recoupling (HVar la) (HVar lb) (HVal la0) (HVal lb0))
    else if eqb ty "ls" then
      let* l := opt_key (v_l v) in
      let* s := opt_key (v_s v) in
      let* spins := get_child_spins m chain_idx vertex_idx in
      let* (ja, jb) := unpack2 spins in
      let* j := get_parent_spin m chain_idx vertex_idx in
      Ok (ls_recoupling (HVar la) (HVar lb) l s ja jb j)
    else Err NotImplementedErr.

(** ** Amplitudes *)
(** 130-131: the loop over the vertices *)
Fixpoint form_factor_loop (m : model_def) (vs : list vertex) (e : defexpr) : res defexpr :=
  match vs with
  | [] => Ok e
  | v :: vs => let* f := formulate_form_factor v m in form_factor_loop m vs (de_mul e (MulDef f))
  end.
(** What lines 154-159 return, a dictionary with the amplitude, the parameters and the angle.
    The parameters are [{weight: value, **dynamics.parameters}]. *)
Record chain_amplitude := ChainAmp {
  ca_key : akey;
  ca_expr : cexpr;
  ca_params : dict pkey pval;
  ca_theta : symbol;
  ca_theta_expr : rexpr }.
(** 114-159 [formulate_chain_amplitude] for numerical helicities.  [sp.Rational] at line 137 does
    not check that the spin is a half-integer; [to_decay] does, for the same value. *)
Definition formulate_chain_amplitude (l : Z * Z * Z * Z) (m : model_def) (chain_idx : nat)
  (to_latex : string -> string) (additional : option (dict string prop_builder)) : res chain_amplitude :=
  let* c := nth_chain m chain_idx in
  let* dyn := formulate_dynamics c m to_latex additional in
  let* dyn := form_factor_loop m (cd_vertices c) dyn in
  let* (w, w_val) := get_weight c to_latex in
  let* prods := decay_product_helicities (cd_vertices c) in
  let* (pi, pj) := unpack2 prods in
  let (i, li) := pi in
  let (j, lj) := pj in
  let* (theta, theta_expr) := formulate_scattering_angle i j in
  match cd_propagators c with
  | [] => Err IndexError
  | p :: _ =>
      let* jR := spin_value (pr_spin p) in
      let* (rnode, r) := resonance_helicity (cd_vertices c) in
      let lR := helicity_symbol (Sub rnode) in
      let* k := get_spectator_id (cd_topology c) in
      let* h_prod := formulate_recoupling m chain_idx 0 in
      let* h_dec := formulate_recoupling m chain_idx 1 in
      let e := CMul (CMul (CMul (CMul (CVar w) h_prod) h_dec)
                       (CWigner jR (HVar lR) (HSub (HVal li) (HVal lj)) theta))
                    (de_expr dyn) in
      let e := csub lR r e in
      let* a := amp_base k in
      Ok (ChainAmp (a, map (fun n => IHel (lam4 l n)) [0; 1; 2; 3]) e
            (dupdate [(KSym w, w_val)] (de_params dyn)) theta theta_expr)
  end.

(** 352-356 [get_existing_subsystem_ids] *)
Definition get_existing_subsystem_ids (m : model_def) : res (list Z) :=
  let* cs := get_decay_chains m in
  let* ids := mapM (fun c => get_spectator_id (cd_topology c)) cs in
  sorted (to_set ids).
(** 181-209 [formulate_aligned_amplitude]; the summands are those of __init__.py:272-277 *)
Definition formulate_aligned_amplitude (m : model_def) (lam : Z -> hexpr) : res (cexpr * dict symbol rexpr) :=
  let* t := get_reference_topology m in
  let* r := get_spectator_id t in
  let* states := get_states m None in
  let* ids := sorted (dkeys states) in
  let* spins := mapM (fun i => let* s := dgetitem i states in Ok (p_spin s)) ids in
  match spins with
  | [j0; j1; j2; j3] =>
      let j := lam4 (j0, j1, j2, j3) in
      let lam' := fun n => HVar (hel_prime n) in
      let* ks := get_existing_subsystem_ids m in
      let* (terms, defs) := aligned_terms r j lam lam' ks [] in
      Ok (CSum (CAddL terms) (map (fun n => (hel_prime n, spin_range2 (j n))) [0; 1; 2; 3]), defs)
  | _ => Err ValueError
  end.

(** 82-86 [amp_expr.subs({lambda0: ..., ..., lambda3: ...})] *)
Definition subs_helicities (l : Z * Z * Z * Z) (e : cexpr) : cexpr :=
  fold_left (fun e n => csub (hel_sym n) (lam4 l n) e) [0; 1; 2; 3] e.
(** 73-89: the body of the double loop *)
Fixpoint formulate_loop (m : model_def) (to_latex : string -> string)
  (additional : option (dict string prop_builder)) (work : list ((Z * Z * Z * Z) * nat))
  (acc : dict akey cexpr * dict symbol rexpr * dict pkey pval)
  : res (dict akey cexpr * dict symbol rexpr * dict pkey pval) :=
  match work with
  | [] => Ok acc
  | (l, n) :: work =>
      let* a := formulate_chain_amplitude l m n to_latex additional in
      let '(amps, vars, params) := acc in
      let existing := match dget (ca_key a) amps with Some e => e | None => CNum 0 end in
      formulate_loop m to_latex additional work
        (dset (ca_key a) (CAdd existing (subs_helicities l (ca_expr a))) amps,
         dset (ca_theta a) (ca_theta_expr a) vars,
         dupdate params (ca_params a))
  end.
(** 56-111 [formulate] *)
Definition formulate (m : model_def) (cleanup_summations : bool) (to_latex : string -> string)
  (additional : option (dict string prop_builder)) : res model :=
  let* states := get_states m None in
  let* s0 := dgetitem 0 states in
  let* s1 := dgetitem 1 states in
  let* s2 := dgetitem 2 states in
  let* s3 := dgetitem 3 states in
  let rng := fun i => spin_range2 (lam4 (p_spin s0, p_spin s1, p_spin s2, p_spin s3) i) in
  let* cs := get_decay_chains m in
  let work := flat_map (fun l => map (fun n => (l, n)) (seq 0 (length cs)))
                (product4 (rng 0) (rng 1) (rng 2) (rng 3)) in
  let* (amps, vars, params) := formulate_loop m to_latex additional work ([], [], []) in
  let* (aligned, zeta_defs) := formulate_aligned_amplitude m (fun n => HVar (hel_sym n)) in
  let vars := dupdate vars zeta_defs in
  let* d := to_decay m None in
  let* masses := create_mass_symbol_mapping d in
  let params := dupdate params (map (fun kv => (KSym (fst kv), real_val (snd kv))) masses) in
  let aligned := if cleanup_summations then cleanup aligned else aligned in
  let intensity := CSum (CAbs2 aligned) (map (fun n => (hel_sym n, rng n)) [0; 1; 2; 3]) in
  let intensity := if cleanup_summations then cleanup intensity else intensity in
  let* inv := formulate_invariants d in
  Ok (Model d intensity amps vars params masses inv).
