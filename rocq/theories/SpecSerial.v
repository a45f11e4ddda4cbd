(** Specification vocabulary for the serialisation modules: what a three-body model definition
    is, which decay it describes and which amplitudes it stands for. *)
From Coq Require Import String ZArith QArith Qcanon List Bool Reals Permutation.
From Coquelicot Require Import Complex.
From Verif Require Import Prelude Spin Decay Expr CExpr Sums Wigner Builder SpecDPD SerFormat.
From Verif Require SerDynamics SerAmplitude.
Import ListNotations.
Local Open Scope string_scope.
Local Open Scope Z_scope.
Local Open Scope list_scope.

(** The half-integer z/2 *)
Definition half (z : Z) : Qc := Q2Qc (z # 2).

(** ** States *)
(** The state of a definition with spin j/2: no parity and no width *)
Definition state_of (tl : string -> string) (x : state_def) (j : Z) : state :=
  State (Particle (sd_name x) (tl (sd_name x)) j None (sd_mass x) (Qc_of_Z 0)) (sd_index x).
Definition describes_state (tl : string -> string) (x : state_def) (s : state) : Prop :=
  exists j, 0 <= j /\ sd_spin x = half j /\ s = state_of tl x j.
(** A node with one state and one pair, in any order *)
Definition with_pair (k : Z) (pair : list item) (n : list item) : Prop :=
  n = [Sub pair; It k] \/ n = [It k; Sub pair].
(** A definition of a three-body decay with states [s 0] (initial) and [s 1], [s 2], [s 3] (final),
    and reference subsystem [r] *)
Record describes_states (tl : string -> string) (m : model_def) (d : distribution) (s : Z -> state) (r : Z) : Prop := {
  ds_distribution : exists rest, md_distributions m = d :: rest;
  ds_initial : sd_index (di_initial d) = 0 /\ describes_state tl (di_initial d) (s 0);
  ds_indices : Permutation (map sd_index (di_final d)) [1; 2; 3];
  ds_final : forall x, In x (di_final d) -> describes_state tl x (s (sd_index x));
  ds_reference : In r [1; 2; 3] /\ exists l, with_pair r l (di_reference d);
}.

(** ** Chains *)
(** What a chain definition says: resonance of spin [ct_spin]/2 and helicity [ct_r], which decays to
    states [ct_i], [ct_j] with helicities [ct_li], [ct_lj]; spectator [ct_k] with helicity [ct_lk].
    [ct_fp], [ct_fd]: factors of the terms with flipped helicities in the two vertices *)
Record content := Content {
  ct_spin : Z; ct_i : Z; ct_j : Z; ct_k : Z;
  ct_r : Z; ct_lk : Z; ct_li : Z; ct_lj : Z;
  ct_fp : Z; ct_fd : Z }.
(** The nodes of a three-body chain: production vertex [vp], decay vertex [vd] *)
Record three_body (c : chain_def) (spin i j k : Z) (vp vd : vertex) : Prop := {
  tb_ids : Permutation [i; j; k] [1; 2; 3];
  tb_propagator : exists p a b, cd_propagators c = [p] /\ pr_spin p = half spin /\
    pr_node p = [It a; It b] /\ Permutation [a; b] [i; j];
  tb_vertices : cd_vertices c = [vp; vd] \/ cd_vertices c = [vd; vp];
  tb_decay : v_node vd = [It i; It j];
  tb_production : exists a b, with_pair k [It a; It b] (v_node vp) /\ Permutation [a; b] [i; j];
  tb_topology : exists l, with_pair k l (cd_topology c);
}.
(** The chain object that a definition describes *)
Definition described_chain (tl : string -> string) (s : Z -> state) (c : chain_def) (spin i j k : Z) : chain :=
  Node (PSt (s 0))
    (Node (PPart (Particle (cd_name c) (tl (cd_name c)) spin None (Qc_of_Z 0) (Qc_of_Z 0)))
       (Leaf (PSt (s i))) (Leaf (PSt (s j))) None)
    (Leaf (PSt (s k))) None.
Definition three_body_chain (c : chain_def) : Prop :=
  exists spin i j k vp vd, three_body c spin i j k vp vd.

(** The factor of the flipped helicities: helicity vertices have none *)
Definition flip_factor (v : vertex) (f : Z) : Prop :=
  (v_type v = "helicity" /\ f = 0) \/
  (v_type v = "parity" /\
   In (v_parity_factor v, f) [(None, 1); (Some "+", 1); (Some "-", -1); (Some "", 0)]).
(** A chain definition in terms of helicities *)
Definition has_content (c : chain_def) (x : content) : Prop :=
  exists vp vd, three_body c (ct_spin x) (ct_i x) (ct_j x) (ct_k x) vp vd /\
    v_helicities vd = Some [ct_li x; ct_lj x] /\
    (exists pair, (v_node vp = [Sub pair; It (ct_k x)] /\ v_helicities vp = Some [ct_r x; ct_lk x]) \/
                  (v_node vp = [It (ct_k x); Sub pair] /\ v_helicities vp = Some [ct_lk x; ct_r x])) /\
    flip_factor vp (ct_fp x) /\ flip_factor vd (ct_fd x).

(** ** Amplitudes *)
(** The coupling of a vertex for helicities [a], [b], if its definition has [a0], [b0] *)
Definition coupling_of (f a b a0 b0 : Z) : R :=
  ((if (a =? a0) && (b =? b0) then 1 else 0)
   + IZR f * (if (a =? - a0) && (b =? - b0) then 1 else 0))%R.
(** The dynamics of a chain: the product of its propagators and form factors *)
Definition dynamics_of_chain (m : model_def) (tl : string -> string)
  (additional : option (dict string SerDynamics.prop_builder)) (c : chain_def) (x : defexpr) : Prop :=
  exists y, SerDynamics.formulate_dynamics c m tl additional = Ok y /\
    SerAmplitude.form_factor_loop m (cd_vertices c) y = Ok x.
(** The contribution of a chain to the amplitude with helicities [l] *)
Definition serial_term (x : content) (weight dyn : C) (theta : R) (l : Z * Z * Z * Z) : C :=
  (weight
   * RtoC (coupling_of (ct_fp x) (ct_r x) (at4 l (ct_k x)) (ct_r x) (ct_lk x))
   * RtoC (coupling_of (ct_fd x) (at4 l (ct_i x)) (at4 l (ct_j x)) (ct_li x) (ct_lj x))
   * RtoC (wigner_d (ct_spin x) (ct_r x) (ct_li x - ct_lj x) theta)
   * dyn)%C.
(** The same according to the helicity formalism (DPD paper eq. (4)): the helicity of the parent is
    the difference of the helicities of resonance and spectator, and the Wigner function has the
    helicities of the decay products in the amplitude; [H_prod], [H_dec] are sums over all
    resonance helicities. *)
Definition helicity_formalism_term (x : content) (weight dyn : C) (theta : R) (l : Z * Z * Z * Z) : C :=
  Csum (helicities (ct_spin x)) (fun r =>
    if at4 l 0 =? r - at4 l (ct_k x) then
      (weight
       * RtoC (coupling_of (ct_fp x) r (at4 l (ct_k x)) (ct_r x) (ct_lk x))
       * RtoC (coupling_of (ct_fd x) (at4 l (ct_i x)) (at4 l (ct_j x)) (ct_li x) (ct_lj x))
       * RtoC (wigner_d (ct_spin x) r (at4 l (ct_i x) - at4 l (ct_j x)) theta)
       * dyn)%C
    else RtoC 0).

(** A helicity definition: [x c] is the content and [w c] the weight symbol of chain [c]; [dyn c] its dynamics *)
Record helicity_definition (m : model_def) (d : distribution) (s : Z -> state) (r : Z)
  (tl : string -> string) (additional : option (dict string SerDynamics.prop_builder))
  (x : chain_def -> content) (w : chain_def -> symbol) (dyn : chain_def -> defexpr) : Prop := {
  hd_states : describes_states (fun n => n) m d s r;
  hd_content : forall c, In c (di_chains d) -> has_content c (x c);
  hd_weight : forall c, In c (di_chains d) -> exists v, SerAmplitude.get_weight c tl = Ok (w c, v);
  hd_dynamics : forall c, In c (di_chains d) -> dynamics_of_chain m tl additional c (dyn c);
  hd_lineshape : forall c, In c (di_chains d) -> lineshape (de_expr (dyn c)) = true;
}.
(** The parameters of a chain: those of its lineshapes and form factors, and its weight *)
Definition own_parameter (w : symbol) (dyn : defexpr) (c : chain_def) (y : pkey) (v : pval) : Prop :=
  dget y (de_params dyn) = Some v \/
  (~ In y (dkeys (de_params dyn)) /\ y = KSym w /\ v = cd_weight c).
(** The symbols of the masses of the four states *)
Definition mass_key (n : Z) : pkey := KSym (Sym ("m" ++ str_of_Z n) ANonneg).
(** The contribution of chain [c] to the amplitude with helicities [l] *)
Definition chain_contribution (x : chain_def -> content) (w : chain_def -> symbol) (dyn : chain_def -> defexpr)
  (ev : env) (l : Z * Z * Z * Z) (c : chain_def) : C :=
  serial_term (x c) (e_sym ev (w c)) (ceval ev (fun _ => 0) (de_expr (dyn c)))
    (Re (e_sym ev (theta_name (ct_i (x c)) (ct_j (x c))))) l.
(** The same according to the helicity formalism *)
Definition formalism_contribution (x : chain_def -> content) (w : chain_def -> symbol) (dyn : chain_def -> defexpr)
  (ev : env) (l : Z * Z * Z * Z) (c : chain_def) : C :=
  helicity_formalism_term (x c) (e_sym ev (w c)) (ceval ev (fun _ => 0) (de_expr (dyn c)))
    (Re (e_sym ev (theta_name (ct_i (x c)) (ct_j (x c))))) l.
(** The chains of subsystem [k] *)
Definition chains_in (x : chain_def -> content) (d : distribution) (k : Z) : list chain_def :=
  filter (fun c => ct_k (x c) =? k) (di_chains d).

(** ** Function definitions *)
Definition has_numbers (keys : list string) (d : dict string Qc) : Prop :=
  forall key, In key keys -> exists v, dget key d = Some v.
(** The function with a name is the first one with that name *)
Definition function_of (m : model_def) (name : string) (f : func_def) : Prop :=
  exists l1 l2, md_functions m = l1 ++ f :: l2 /\ fd_name f = name /\ forall g, In g l1 -> fd_name g <> name.
Definition complete_breit_wigner (f : func_def) : Prop :=
  fd_type f = "BreitWigner" /\ has_numbers ["l"; "mass"; "width"; "ma"; "mb"; "d"] (fd_numbers f).
Definition complete_multichannel (f : func_def) : Prop :=
  fd_type f = "MultichannelBreitWigner" /\ has_numbers ["mass"] (fd_numbers f) /\
  exists c0 c1 cs, fd_channels f = Some (c0 :: c1 :: cs) /\ has_numbers ["d"] c0 /\
    forall c, In c (c0 :: c1 :: cs) -> has_numbers ["l"; "ma"; "mb"; "gsq"] c.
Definition complete_form_factor (m : model_def) (v : vertex) : Prop :=
  v_formfactor v = None \/ v_formfactor v = Some "" \/
  exists name f, v_formfactor v = Some name /\ name <> "" /\ function_of m name f /\
    fd_type f = "BlattWeisskopf" /\ has_numbers ["l"; "radius"] (fd_numbers f).
(** Every function that a chain uses exists, has one of the known types and the numbers that belong to its type *)
Definition complete_chain (m : model_def) (c : chain_def) : Prop :=
  (forall p, In p (cd_propagators c) -> exists f, function_of m (pr_parametrization p) f /\
     (complete_breit_wigner f \/ complete_multichannel f)) /\
  (forall v, In v (cd_vertices c) -> complete_form_factor m v).
(** The helicity that a chain definition gives to final state [n] *)
Definition helicity_in (x : content) (n : Z) : Z :=
  if n =? ct_i x then ct_li x else if n =? ct_j x then ct_lj x else ct_lk x.
(** Symbols *)
Definition sigma_sym (k : Z) : symbol := Sym ("sigma" ++ str_of_Z k) ANonneg.
Definition mass_sym (n : Z) : symbol := Sym ("m" ++ str_of_Z n) ANonneg.
Definition named (base label : string) : symbol := Sym (base ++ "_{" ++ label ++ "}")%string ANonneg.
Definition radius_sym : symbol := Sym "R_\mathrm{res}" ANonneg.
(** Change of units by a factor [t]: masses, squared masses and radii *)
Definition change_of_units (t : R) (ev ev' : env) : Prop :=
  (forall n, e_sym ev' (mass_sym n) = RtoC t * e_sym ev (mass_sym n))%C /\
  (forall k, e_sym ev' (sigma_sym k) = RtoC (t * t) * e_sym ev (sigma_sym k))%C /\
  (e_sym ev' radius_sym = RtoC (/ t) * e_sym ev radius_sym)%C /\
  (forall n, e_sym ev' (named "R" n) = RtoC (/ t) * e_sym ev (named "R" n))%C.
(** The symbols of an expression have defaults, or are masses of the four states, or Mandelstam variables *)
Definition closed_expression (e : defexpr) : Prop := forall y, In y (symbols_of (de_expr e)) ->
  In (KSym y) (dkeys (de_params e)) \/ (exists n, In n [0; 1; 2; 3] /\ y = mass_sym n) \/
  (exists k, In k [1; 2; 3] /\ y = sigma_sym k).
(** The symbols of the width and the masses of the [n]-th channel, n >= 2 *)
Definition channel_width_sym (resonance : string) (n : Z) : symbol :=
  Sym ("\Gamma_{" ++ resonance ++ "}^\text{ch. " ++ str_of_Z n ++ "}")%string ANonneg.
Definition channel_mass_sym (letter : string) (n : Z) : symbol :=
  Sym ("m_{" ++ letter ++ "," ++ str_of_Z n ++ "}")%string ANonneg.
(** Half-integers (doubled) as text: 1, 1/2, -3/2, and as LaTeX *)
Definition half_text (z : Z) : string :=
  if Z.even z then str_of_Z (z / 2) else (str_of_Z z ++ "/2")%string.
Definition half_latex (z : Z) : string :=
  if Z.even z then str_of_Z (z / 2)
  else ((if (z <? 0)%Z then "- " else "") ++ "\frac{" ++ str_of_Z (Z.abs z) ++ "}{2}")%string.
(** The symbol of the weight of a chain: resonance, its helicity, and the helicities of the final state *)
Definition weight_sym (tl : string -> string) (c : chain_def) (x : content) : symbol :=
  Sym ("c^{" ++ tl (cd_name c) ++ "[" ++ half_text (ct_r x) ++ "]}_{" ++
       half_latex (helicity_in x 1) ++ ", " ++ half_latex (helicity_in x 2) ++ ", " ++ half_latex (helicity_in x 3) ++ "}")%string ANone.
