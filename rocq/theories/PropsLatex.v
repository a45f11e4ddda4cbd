(** C105, C106: the LaTeX of lineshapes and of defined expressions *)
From Coq Require Import String Ascii List Bool.
From Verif Require Import Prelude SpecIO Latex Messages SpecLatex LatexFacts.
Import ListNotations.
Local Open Scope list_scope.
Local Open Scope string_scope.

(** C105: every lineshape class has a LaTeX text with its symbol and its printed arguments; true of all but one *)
Theorem C105_relativistic_partial : forall (V : Type) (pr : V -> string) (is_integer : V -> bool) s mass0 gamma0 m1 m2 l r,
  latex_lineshape pr is_integer (RelativisticBreitWigner s mass0 gamma0 m1 m2 l r)
  = Ok ("\mathcal{R}_{" ++ pr l ++ "}\left(" ++ pr s ++ ", " ++ pr mass0 ++ ", " ++ pr gamma0 ++ "\right)").
Proof. exact @c105_relativistic. Qed.
Print Assumptions C105_relativistic_partial.
Theorem C105_min_l_partial : forall (V : Type) (pr : V -> string) (is_integer : V -> bool)
  s decaying spectator mass width m2 m1 l_dec l_prod r_dec r_prod,
  latex_lineshape pr is_integer (BreitWignerMinL s decaying spectator mass width m2 m1 l_dec l_prod r_dec r_prod)
  = Ok ("\mathcal{R}^\mathrm{BW}_{" ++ pr l_dec ++ "," ++ pr l_prod ++ "}\left(" ++ pr s ++ "\right)").
Proof. exact @c105_minl. Qed.
Print Assumptions C105_min_l_partial.
Theorem C105_bugg_partial : forall (V : Type) (pr : V -> string) (is_integer : V -> bool) s m0 w m1 m2 g,
  latex_lineshape pr is_integer (BuggBreitWigner s m0 w m1 m2 g)
  = Ok ("\mathcal{R}^\mathrm{Bugg}\left(" ++ pr s ++ "\right)").
Proof. exact @c105_bugg. Qed.
Print Assumptions C105_bugg_partial.
Theorem C105_flatte_partial : forall (V : Type) (pr : V -> string) (is_integer : V -> bool) s m0 widths masses1 masses2,
  latex_lineshape pr is_integer (FlatteSWave s m0 widths masses1 masses2)
  = Ok ("\mathcal{R}^\mathrm{Flatté}\left(" ++ pr s ++ "\right)").
Proof. exact @c105_flatte. Qed.
Print Assumptions C105_flatte_partial.
Theorem C105_multichannel_partial : forall (V : Type) (pr : V -> string) (is_integer : V -> bool) s mass channels,
  latex_lineshape pr is_integer (MultichannelBreitWigner s mass channels)
  = Ok ("\mathcal{R}^\mathrm{BW}_\mathrm{multi}\left(" ++ pr s ++ "; "
        ++ comma_list (map (fun c => pr (ca_width c)) channels) ++ "\right)").
Proof. exact @c105_multi. Qed.
Print Assumptions C105_multichannel_partial.
Theorem C105_breit_wigner_partial : forall (V : Type) (pr : V -> string) (is_integer : V -> bool) s mass width m1 m2 l r,
  latex_lineshape pr is_integer (BreitWigner s mass width m1 m2 l r)
  = Ok ("\mathcal{R}^\mathrm{BW}_{" ++ (if is_integer l then "L=" else "") ++ pr l ++ "}\left("
        ++ pr s ++ "; " ++ pr mass ++ ", " ++ pr width ++ "\right)").
Proof. exact @c105_bw. Qed.
Print Assumptions C105_breit_wigner_partial.
Theorem C105_simple_partial : forall (V : Type) (pr : V -> string) (is_integer : V -> bool) s mass width,
  latex_lineshape pr is_integer (SimpleBreitWigner s mass width)
  = Ok ("\mathcal{R}^\mathrm{BW}\left(" ++ pr s ++ "; " ++ pr mass ++ ", " ++ pr width ++ "\right)").
Proof. exact @c105_simple. Qed.
Print Assumptions C105_simple_partial.
(** With simplify_latex_rendering, indexed symbols have all their indices in one subscript. *)
Theorem C105_indexed_partial : forall (V : Type) (pr : V -> string) base indices,
  print_Indexed_latex pr base indices = pr base ++ "_{" ++ comma_list (map pr indices) ++ "}"
  /\ ((forall v, balanced (pr v)) -> balanced (print_Indexed_latex pr base indices)).
Proof. exact @c105_indexed. Qed.
Print Assumptions C105_indexed_partial.
(** Groups are closed in the text if they are in the printed arguments. *)
Theorem C105_balanced_partial : forall (V : Type) (pr : V -> string) (is_integer : V -> bool) x text,
  (forall v, balanced (pr v)) -> latex_lineshape pr is_integer x = Ok text -> balanced text.
Proof. exact @c105_balanced. Qed.
Print Assumptions C105_balanced_partial.
(** Printing succeeds for all of them but [ChannelArguments] ... *)
Theorem C105_total_partial : forall (V : Type) (pr : V -> string) (is_integer : V -> bool) x,
  (forall c, x <> ChannelArguments c) -> exists text, latex_lineshape pr is_integer x = Ok text.
Proof. exact @c105_total. Qed.
Print Assumptions C105_total_partial.
(** ... whose text cannot be made: the template has a field [channel], and its three arguments are no fields. *)
Theorem C105_channel_refuted : forall (V : Type) (pr : V -> string) (is_integer : V -> bool) c,
  latex_lineshape pr is_integer (ChannelArguments c) = Err KeyError.
Proof. exact @c105_channel. Qed.
Print Assumptions C105_channel_refuted.
Example C105_text : latex_lineshape (fun t : string => t) (fun t => String.eqb t "1")
    (BreitWigner "\sigma_{1}" "m" "\Gamma" "m_{1}" "m_{2}" "1" "R")
  = Ok "\mathcal{R}^\mathrm{BW}_{L=1}\left(\sigma_{1}; m, \Gamma\right)"
  /\ balanced "\mathcal{R}^\mathrm{BW}_{L=1}\left(\sigma_{1}; m, \Gamma\right)"
  /\ ~ balanced "\mathcal{R".
Proof. repeat split; try reflexivity. discriminate. Qed.

(** C106: the LaTeX of a defined expression is an array with one row for the expression and one for each parameter, in order *)
Theorem C106_rows : forall (E K W : Type) (H : EqDec E) (unfold_once : E -> E) (latex_with_options latex : E -> string)
  (latex_key : K -> string) (latex_value : W -> string) expr (parameters : list (K * W)),
  one_line (latex_with_options expr) -> one_line (latex expr) -> one_line (latex (unfold_once expr)) ->
  (forall k w, In (k, w) parameters -> one_line (latex_key k) /\ one_line (latex_value w)) ->
  exists first,
    split_on "010" (latex_defined unfold_once latex_with_options latex latex_key latex_value expr parameters)
    = ("\begin{array}{rcl}" :: first
       :: map (fun kv => array_row (latex_key (fst kv)) (latex_value (snd kv))) parameters ++ ["\end{array}"])%list
    /\ (unfold_once expr = expr -> first = "  " ++ latex_with_options expr ++ " \\")
    /\ (unfold_once expr <> expr -> first = array_row (latex expr) (latex (unfold_once expr))).
Proof. exact @c106. Qed.
Print Assumptions C106_rows.
Theorem C106_balanced : forall (E K W : Type) (H : EqDec E) (unfold_once : E -> E) (latex_with_options latex : E -> string)
  (latex_key : K -> string) (latex_value : W -> string) expr (parameters : list (K * W)),
  balanced (latex_with_options expr) -> balanced (latex expr) -> balanced (latex (unfold_once expr)) ->
  (forall k w, In (k, w) parameters -> balanced (latex_key k) /\ balanced (latex_value w)) ->
  balanced (latex_defined unfold_once latex_with_options latex latex_key latex_value expr parameters).
Proof. exact @c106_balanced. Qed.
Print Assumptions C106_balanced.
Example C106_text :
  let out := latex_defined (fun _ : string => "x^{2}") (fun t => t) (fun t => t) (fun k : string => k) (fun w : string => w)
    "f" [("a", "1"); ("b", "2")] in
  split_on "010" out = ["\begin{array}{rcl}"; "  f &=& x^{2} \\"; "  a &=& 1 \\"; "  b &=& 2 \\"; "\end{array}"]
  /\ balanced out.
Proof. split; reflexivity. Qed.
