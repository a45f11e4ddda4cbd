(** Model of /repo/src/ampform_dpd/io/serialization/dynamics.py *)
From Coq Require Import String ZArith QArith Qcanon List Bool.
From Verif Require Import Prelude Spin Decay Expr CExpr Builder Dynamics SerFormat.
Import ListNotations.
Local Open Scope string_scope.
Local Open Scope Z_scope.
Local Open Scope list_scope.

(** 184-202 [to_mass_symbol]; the set of small ints is iterated in ascending order *)
Definition to_mass_symbol (x : item) : res symbol :=
  match x with
  | It i => Ok (Sym ("m" ++ str_of_Z i) ANonneg)
  | Sub [It i; It j] =>
      match set_diff [1; 2; 3] [i; j] with
      | [] => Err ValueError
      | k :: _ => Ok (Sym ("sigma" ++ str_of_Z k) ANonneg)
      end
  | Sub _ => Err NotImplementedErr
  end.
(** 171-181 [to_mandelstam_symbol] *)
Definition to_mandelstam_symbol (n : list item) : res symbol :=
  if all_int n then to_mass_symbol (Sub n) else to_mass_symbol (It 0).

(** [int(x)] for a number *)
(** Python [int], io/serialization/dynamics.py:89, 112, 142, 158: truncation towards zero. *)
Definition int_of (q : Qc) : Z := Z.quot (Qnum q) (Zpos (Qden q)).
(** [a, b = items]: unpacking raises ValueError for another length *)
(** Python unpacking, io/serialization/dynamics.py:83, 106, 136. *)
Definition unpack2 {A} (l : list A) : res (A * A) :=
  match l with [a; b] => Ok (a, b) | _ => Err ValueError end.
(** io/serialization/dynamics.py:85, 113: [sp.Symbol(R"R_\mathrm{res}", nonnegative=True)]. *)
Definition res_radius : symbol := Sym "R_\mathrm{res}" ANonneg.
(** io/serialization/dynamics.py:88, 108-109, 138-139, 143: nonnegative symbols with a label in braces. *)
Definition in_braces (base label : string) : symbol :=
  Sym (base ++ "_{" ++ label ++ "}")%string ANonneg.

(** 100-123 [formulate_breit_wigner] *)
Definition formulate_breit_wigner (p : propagator) (resonance : string) (m : model_def) : res defexpr :=
  let* f := get_function_definition (pr_parametrization p) m in
  let* (i, j) := unpack2 (pr_node p) in
  let* s := to_mandelstam_symbol (pr_node p) in
  let mass := in_braces "m" resonance in
  let width := in_braces "\Gamma" resonance in
  let* m1 := to_mass_symbol i in
  let* m2 := to_mass_symbol j in
  let* l := dgetitem "l" (fd_numbers f) in
  let d := res_radius in
  let* v_mass := dgetitem "mass" (fd_numbers f) in
  let* v_width := dgetitem "width" (fd_numbers f) in
  let* v_ma := dgetitem "ma" (fd_numbers f) in
  let* v_mb := dgetitem "mb" (fd_numbers f) in
  let* v_d := dgetitem "d" (fd_numbers f) in
  Ok (DefExpr
        (breit_wigner (CVar s) (CVar mass) (CVar width) (CVar m1) (CVar m2) (int_of l) (CVar d)
           phase_space_factor)
        (dict_of [(KSym mass, real_val v_mass); (KSym width, real_val v_width);
                  (KSym m1, real_val v_ma); (KSym m2, real_val v_mb); (KSym d, real_val v_d)])).

(** 153-157: the symbols of channel [n] *)
Definition channel_width_symbol (resonance : string) (n : Z) : symbol :=
  Sym ("\Gamma_{" ++ resonance ++ "}^\text{ch. " ++ str_of_Z n ++ "}")%string ANonneg.
(** io/serialization/dynamics.py:156-157: [sp.Symbol(f"m_{{a,{channel_idx}}}", nonnegative=True)]. *)
Definition channel_mass_symbol (letter : string) (n : Z) : symbol :=
  Sym ("m_{" ++ letter ++ "," ++ str_of_Z n ++ "}")%string ANonneg.
(** 152-164: the loop over the further channels *)
Fixpoint further_channels (s mass : symbol) (resonance : string) (d : symbol) (n : Z)
  (defs : list (dict string Qc)) (params : dict pkey pval) : res (list channel * dict pkey pval) :=
  match defs with
  | [] => Ok ([], params)
  | c :: defs =>
      let w := channel_width_symbol resonance n in
      let ma := channel_mass_symbol "a" n in
      let mb := channel_mass_symbol "b" n in
      let* l := dgetitem "l" c in
      let* v_ma := dgetitem "ma" c in
      let* v_mb := dgetitem "mb" c in
      let* v_g := dgetitem "gsq" c in
      let params := dupdate params [(KSym ma, real_val v_ma); (KSym mb, real_val v_mb); (KSym w, real_val v_g)] in
      let* (cs, params) := further_channels s mass resonance d (n + 1) defs params in
      Ok (Channel (CVar s) (CVar mass) (CVar w) (CVar ma) (CVar mb) (int_of l) (CVar d) :: cs, params)
  end.
(** 126-168 [formulate_multichannel_breit_wigner] *)
Definition formulate_multichannel_breit_wigner (p : propagator) (resonance : string) (m : model_def)
  : res defexpr :=
  let* f := get_function_definition (pr_parametrization p) m in
  match fd_channels f with
  | None => Err KeyError
  | Some (c0 :: ((_ :: _) as rest)) =>
      let* (i, j) := unpack2 (pr_node p) in
      let* s := to_mandelstam_symbol (pr_node p) in
      let mass := in_braces "m" resonance in
      let width := in_braces "\Gamma" resonance in
      let* m1 := to_mass_symbol i in
      let* m2 := to_mass_symbol j in
      let* l := dgetitem "l" c0 in
      let d := in_braces "R" resonance in
      let* v_mass := dgetitem "mass" (fd_numbers f) in
      let* v_g := dgetitem "gsq" c0 in
      let* v_ma := dgetitem "ma" c0 in
      let* v_mb := dgetitem "mb" c0 in
      let* v_d := dgetitem "d" c0 in
      let params := dict_of [(KSym mass, real_val v_mass); (KSym width, real_val v_g);
                             (KSym m1, real_val v_ma); (KSym m2, real_val v_mb); (KSym d, real_val v_d)] in
      let* (cs, params) := further_channels s mass resonance d 2 rest params in
      Ok (DefExpr
            (multichannel_breit_wigner (CVar s) (CVar mass)
               (Channel (CVar s) (CVar mass) (CVar width) (CVar m1) (CVar m2) (int_of l) (CVar d) :: cs))
            params)
  | Some _ => Err NotImplementedErr
  end.

(** 35-41 [PropagatorDynamicsBuilder] *)
Definition prop_builder := propagator -> string -> model_def -> res defexpr.
(** 50-55: the table of builders *)
Definition builder_table (additional : option (dict string prop_builder)) : dict string prop_builder :=
  let defs := [("BreitWigner", formulate_breit_wigner : prop_builder);
               ("MultichannelBreitWigner", formulate_multichannel_breit_wigner)] in
  match additional with Some a => dupdate defs a | None => defs end.
(** 57-70: the loop over the propagators *)
Fixpoint dynamics_loop (table : dict string prop_builder) (resonance : string) (m : model_def)
  (ps : list propagator) (e : defexpr) : res defexpr :=
  match ps with
  | [] => Ok e
  | p :: ps =>
      let* f := get_function_definition (pr_parametrization p) m in
      match dget (fd_type f) table with
      | None => Err NotImplementedErr
      | Some b => let* x := b p resonance m in dynamics_loop table resonance m ps (de_mul e (MulDef x))
      end
  end.
(** 44-70 [formulate_dynamics] *)
Definition formulate_dynamics (c : chain_def) (m : model_def) (to_latex : string -> string)
  (additional : option (dict string prop_builder)) : res defexpr :=
  dynamics_loop (builder_table additional) (to_latex (cd_name c)) m (cd_propagators c) de_unit.

(** 73-97 [formulate_form_factor] *)
Definition formulate_form_factor (v : vertex) (m : model_def) : res defexpr :=
  match v_formfactor v with
  | None | Some "" => Ok de_unit
  | Some name =>
      let* f := get_function_definition name m in
      if eqb (fd_type f) "BlattWeisskopf" then
        let* s := to_mandelstam_symbol (v_node v) in
        let* ms := mapM to_mass_symbol (v_node v) in
        let* (m1, m2) := unpack2 ms in
        let* r := if all_int (v_node v) then Ok res_radius
                  else let* i := get_initial_state m None in Ok (in_braces "R" (p_latex i)) in
        let* l := dgetitem "l" (fd_numbers f) in
        let* v_r := dgetitem "radius" (fd_numbers f) in
        Ok (DefExpr (CFormFactor (CVar s) (CVar m1) (CVar m2) (int_of l) (CVar r))
                    [(KSym r, real_val v_r)])
      else Err NotImplementedErr
  end.
