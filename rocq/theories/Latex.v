(** Model of the LaTeX of lineshapes and of defined expressions:
    /repo/src/ampform_dpd/dynamics/__init__.py ([_latex_repr_]) and /repo/src/ampform_dpd/io/__init__.py.
    The printer of SymPy is an argument [pr] of all definitions; [V] stands for SymPy objects. *)
From Coq Require Import String Ascii ZArith List Bool.
From Verif Require Import Prelude IO.
Import ListNotations.
Local Open Scope list_scope.
Local Open Scope string_scope.

(** [str.format] with keyword arguments only.  Fields are plain names here: those with attributes, indices, conversions or
    format specifications do not occur in the templates below and give [NotImplementedErr]. *)
(** Python [str.format]: characters of a field name. *)
Definition name_char (c : ascii) : bool :=
  let n := nat_of_ascii c in
  ((48 <=? n) && (n <=? 57) || (65 <=? n) && (n <=? 90) || (97 <=? n) && (n <=? 122) || (n =? 95))%nat.
(** Python [str.format]: state of the scanner. *)
Inductive fmt_state := FText | FOpen | FClose | FName (acc : string).
(** Python [str.format] from a state on; applied to [_latex_repr_] of dynamics/__init__.py:34-36, 70, 95, 116, 159, 210. *)
Fixpoint py_format_from (st : fmt_state) (t : string) (kw : list (string * string)) : res string :=
  match t with
  | EmptyString =>
      match st with
      | FText => Ok ""
      | _ => Err ValueError (* Single '{', single '}' or unfinished field *)
      end
  | String c t =>
      match st with
      | FText =>
          if Ascii.eqb c "{"%char then py_format_from FOpen t kw
          else if Ascii.eqb c "}"%char then py_format_from FClose t kw
          else let* r := py_format_from FText t kw in Ok (String c r)
      | FClose =>
          if Ascii.eqb c "}"%char then let* r := py_format_from FText t kw in Ok (String c r) else Err ValueError
      | FOpen =>
          if Ascii.eqb c "{"%char then let* r := py_format_from FText t kw in Ok (String c r)
          else if Ascii.eqb c "}"%char then Err IndexError (* positional field *)
          else if name_char c then py_format_from (FName (String c "")) t kw
          else Err NotImplementedErr
      | FName acc =>
          if Ascii.eqb c "}"%char then
            let* v := dgetitem acc kw in
            let* r := py_format_from FText t kw in Ok (v ++ r)
          else if name_char c then py_format_from (FName (acc ++ String c "")) t kw
          else Err NotImplementedErr
      end
  end.
(** Python [str.format]; applied to [_latex_repr_] of dynamics/__init__.py:34-36, 70, 95, 116, 159, 210. *)
Definition py_format := py_format_from FText.

Section Lineshapes.
  Context {V : Type}.
  (** dynamics/__init__.py:150-159 [ChannelArguments] *)
  Record channel_args := ChannelArgs { ca_s : V; ca_m0 : V; ca_width : V; ca_m1 : V; ca_m2 : V; ca_L : V; ca_radius : V }.
  (** The objects of the classes with a LaTeX representation, with the arguments in the order of their fields.
      The argument [phsp_factor] is no SymPy object and is left out, because it is not printed. *)
  Inductive lineshape :=
  | RelativisticBreitWigner (s mass0 gamma0 m1 m2 angular_momentum meson_radius : V)
  | BreitWignerMinL (s decaying_mass spectator_mass resonance_mass resonance_width child2_mass child1_mass
                     l_dec l_prod R_dec R_prod : V)
  | BuggBreitWigner (s m0 w0 m1 m2 g : V)
  | FlatteSWave (s m0 widths masses1 masses2 : V)
  | MultichannelBreitWigner (s mass : V) (channels : list channel_args)
  | ChannelArguments (c : channel_args)
  | BreitWigner (s mass width m1 m2 angular_momentum meson_radius : V)
  | SimpleBreitWigner (s mass width : V).

  Context (pr : V -> string) (is_integer : V -> bool).
  (** The [_latex] method that [ampform.sympy.unevaluated] makes of a template: every field is printed and [format] is
      called with all of them. *)
  Definition latex_wrapper (template : string) (fields : list (string * V)) : res string :=
    py_format template (map (fun kv => (fst kv, pr (snd kv))) fields).
  Definition channel_fields (c : channel_args) : list (string * V) :=
    [("s", ca_s c); ("m0", ca_m0 c); ("width", ca_width c); ("m1", ca_m1 c); ("m2", ca_m2 c);
     ("angular_momentum", ca_L c); ("meson_radius", ca_radius c)].
  Definition latex_lineshape (x : lineshape) : res string :=
    match x with
    | RelativisticBreitWigner s mass0 gamma0 m1 m2 angular_momentum meson_radius =>
        (* 22-36 *)
        latex_wrapper "\mathcal{{R}}_{{{angular_momentum}}}\left({s}, {mass0}, {gamma0}\right)"
          [("s", s); ("mass0", mass0); ("gamma0", gamma0); ("m1", m1); ("m2", m2);
           ("angular_momentum", angular_momentum); ("meson_radius", meson_radius)]
    | BreitWignerMinL s decaying_mass spectator_mass resonance_mass resonance_width child2_mass child1_mass
        l_dec l_prod R_dec R_prod =>
        (* 54-70 *)
        latex_wrapper "\mathcal{{R}}^\mathrm{{BW}}_{{{l_dec},{l_prod}}}\left({s}\right)"
          [("s", s); ("decaying_mass", decaying_mass); ("spectator_mass", spectator_mass); ("resonance_mass", resonance_mass);
           ("resonance_width", resonance_width); ("child2_mass", child2_mass); ("child1_mass", child1_mass);
           ("l_dec", l_dec); ("l_prod", l_prod); ("R_dec", R_dec); ("R_prod", R_prod)]
    | BuggBreitWigner s m0 w0 m1 m2 g =>
        (* 87-95 *)
        latex_wrapper "\mathcal{{R}}^\mathrm{{Bugg}}\left({s}\right)"
          [("s", s); ("m0", m0); ("Γ0", w0); ("m1", m1); ("m2", m2); ("γ", g)]
    | FlatteSWave s m0 widths masses1 masses2 =>
        (* 109-117 *)
        latex_wrapper "\mathcal{{R}}^\mathrm{{Flatté}}\left({s}\right)"
          [("s", s); ("m0", m0); ("widths", widths); ("masses1", masses1); ("masses2", masses2)]
    | MultichannelBreitWigner s mass channels =>
        (* 142-147 *)
        Ok ("\mathcal{R}^\mathrm{BW}_\mathrm{multi}\left(" ++ pr s ++ "; "
            ++ sjoin ", " (map (fun c => pr (ca_width c)) channels) ++ "\right)")
    | ChannelArguments c =>
        (* 150-159 *)
        latex_wrapper "\Gamma^\text{channel}\left({{s}}, {{m0}}, {{width}}\right)" (channel_fields c)
    | BreitWigner s mass width m1 m2 angular_momentum meson_radius =>
        (* 193-202 *)
        let function_symbol := "\mathcal{R}^\mathrm{BW}" in
        let arg := "\left(" ++ pr s ++ "; " ++ pr mass ++ ", " ++ pr width ++ "\right)" in
        let L := pr angular_momentum in
        if is_integer angular_momentum then Ok (function_symbol ++ "_{L=" ++ L ++ "}" ++ arg)
        else Ok (function_symbol ++ "_{" ++ L ++ "}" ++ arg)
    | SimpleBreitWigner s mass width =>
        (* 205-210 *)
        latex_wrapper "\mathcal{{R}}^\mathrm{{BW}}\left({s}; {mass}, {width}\right)"
          [("s", s); ("mass", mass); ("width", width)]
    end.
End Lineshapes.
Arguments channel_args : clear implicits.
Arguments lineshape : clear implicits.

(** io/__init__.py:83-97 [aslatex] of a [DefinedExpression].  [unfold] is [expr.doit(deep=False)], [latex_kw] is [aslatex]
    with the keyword arguments of the call, [latex] is [aslatex] without. *)
Section Defined.
  Context {E K W : Type} `{EqDec E} (unfold : E -> E) (latex_kw latex : E -> string) (latex_key : K -> string)
    (latex_value : W -> string).
  Definition defined_row (lhs rhs : string) : string := "  " ++ lhs ++ " &=& " ++ rhs ++ " \\" ++ newline.
  Definition latex_defined (expr : E) (parameters : list (K * W)) : string :=
    let unfolded := unfold expr in
    "\begin{array}{rcl}" ++ newline
    ++ (if eqb expr unfolded then "  " ++ latex_kw expr ++ " \\" ++ newline
        else defined_row (latex expr) (latex unfolded))
    ++ fold_right append "" (map (fun kv => defined_row (latex_key (fst kv)) (latex_value (snd kv))) parameters)
    ++ "\end{array}".
End Defined.
