(** Specification of a change of the labels of the final state and of the order of decay products in a serialised model (C130) *)
From Coq Require Import String ZArith QArith Qcanon List Bool Reals Permutation.
From Coquelicot Require Import Complex.
From Verif Require Import Prelude Spin Decay Expr CExpr Builder SpecDPD SpecRelabel SerFormat SpecSerial SpecSerPoints.
Import ListNotations.
Local Open Scope string_scope.
Local Open Scope Z_scope.
Local Open Scope list_scope.

(** ** Definitions with new labels *)
Fixpoint relabel_item (p : Z -> Z) (x : item) : item :=
  match x with It i => It (p i) | Sub l => Sub (map (relabel_item p) l) end.
Definition relabel_node (p : Z -> Z) (n : list item) : list item := map (relabel_item p) n.
Definition relabel_propagator (p : Z -> Z) (q : propagator) : propagator :=
  Propagator (pr_spin q) (relabel_node p (pr_node q)) (pr_parametrization q).
(** The sum of the helicities of final states in a vertex (doubled) *)
Definition final_helicities (v : vertex) : Z :=
  match v_node v, v_helicities v with
  | [It _; It _], Some [a; b] => a + b
  | [Sub _; It _], Some [_; b] => b
  | [It _; Sub _], Some [a; _] => a
  | _, _ => 0
  end.
(** The opposite parity factor; a missing one is +. *)
Definition opposite_factor (f : option string) : option string :=
  match f with
  | None => Some "-"
  | Some f => if eqb f "+" then Some "-" else if eqb f "-" then Some "+" else Some f
  end.
(** A vertex with new labels. If the labels change their cyclic order ([turn]), the parity factor of vertices with an odd number of
    fermions in the final state changes sign. *)
Definition relabel_vertex (p : Z -> Z) (turn : bool) (v : vertex) : vertex :=
  Vertex (v_type v) (relabel_node p (v_node v)) (v_formfactor v) (v_helicities v)
    (if turn && Z.odd (final_helicities v) then opposite_factor (v_parity_factor v) else v_parity_factor v) (v_l v) (v_s v).
(** The two items of a vertex in the other order, with their helicities *)
Definition exchange_items (v : vertex) : vertex :=
  Vertex (v_type v) (rev (v_node v)) (v_formfactor v) (option_map (@rev Z) (v_helicities v)) (v_parity_factor v) (v_l v) (v_s v).
(** The vertex of the decay of the resonance is the one without a pair. *)
Definition exchange_products (v : vertex) : vertex := if all_int (v_node v) then exchange_items v else v.
(** The chain with new labels; with [swap], the decay products of the resonance are listed in the other order. *)
Definition relabel_chain_def (p : Z -> Z) (turn swap : bool) (c : chain_def) : chain_def :=
  ChainDef (cd_name c) (map (relabel_propagator p) (cd_propagators c))
    (map (fun v => (if swap then exchange_products else fun v => v) (relabel_vertex p turn v)) (cd_vertices c))
    (relabel_node p (cd_topology c)) (cd_weight c).
Definition relabel_state_def (p : Z -> Z) (x : state_def) : state_def :=
  StateDef (p (sd_index x)) (sd_name x) (sd_spin x) (sd_mass x).
(** The definition with new labels; final states and chains in any order *)
Record relabelled_definition (p : Z -> Z) (turn : bool) (swap : chain_def -> bool) (m : model_def) (d : distribution)
  (m' : model_def) (d' : distribution) : Prop := {
  rd_functions : md_functions m' = md_functions m;
  rd_distribution : exists rest, md_distributions m' = d' :: rest;
  rd_initial : di_initial d' = di_initial d;
  rd_final : Permutation (di_final d') (map (relabel_state_def p) (di_final d));
  rd_reference : di_reference d' = relabel_node p (di_reference d);
  rd_chains : Permutation (di_chains d') (map (fun c => relabel_chain_def p turn (swap c) c) (di_chains d));
}.

(** ** Contents with new labels *)
(** (-1)^(2 h) for a helicity [h]/2 *)
Definition spinor_sign (h : Z) : Z := if Z.even h then 1 else -1.
(** The same content with new labels. With [swap], the decay products are listed in the other order. If the labels change their cyclic
    order ([turn]), terms with flipped helicities of an odd number of fermions change sign. *)
Definition relabelled_content (p : Z -> Z) (turn swap : bool) (a : content) : content :=
  Content (ct_spin a) (p (if swap then ct_j a else ct_i a)) (p (if swap then ct_i a else ct_j a)) (p (ct_k a))
    (ct_r a) (ct_lk a) (if swap then ct_lj a else ct_li a) (if swap then ct_li a else ct_lj a)
    ((if turn then spinor_sign (ct_lk a) else 1) * ct_fp a)
    ((if turn then spinor_sign (ct_li a + ct_lj a) else 1) * ct_fd a).
(** The sign that goes into the weight: (-1)^(J + r) for other order of the decay products of a resonance with spin J and helicity r;
    the product of (-1)^(spin - helicity) over the three final states if the labels change their cyclic order. *)
Definition label_sign (s : Z -> state) (turn swap : bool) (a : content) : R :=
  ((if swap then parity_sign (ct_spin a + ct_r a) else 1)
   * (if turn then parity_sign (p_spin (s (ct_i a)) - ct_li a) * parity_sign (p_spin (s (ct_j a)) - ct_lj a)
        * parity_sign (p_spin (s (ct_k a)) - ct_lk a) else 1))%R.
(** The sign of the amplitude with helicities [l] *)
Definition final_sign (s : Z -> state) (l : Z * Z * Z * Z) : R :=
  (parity_sign (p_spin (s 1%Z) - at4 l 1) * parity_sign (p_spin (s 2%Z) - at4 l 2) * parity_sign (p_spin (s 3%Z) - at4 l 3))%R.

(** The values of the parameters of a resonance and of the production form factor are the same, weights have the given signs. *)
Definition same_parameters (tl : string -> string) (s : Z -> state) (cs : list chain_def) (T : chain_def -> chain_def)
  (w w' : chain_def -> symbol) (sign : chain_def -> R) (base base' : symbol -> C) : Prop :=
  base' (named "R" (p_latex (s 0))) = base (named "R" (p_latex (s 0))) /\
  forall c, In c cs -> base' (w' (T c)) = (RtoC (sign c) * base (w c))%C /\
    forall y, resonance_masses (tl (cd_name c)) y \/ resonance_widths (tl (cd_name c)) y \/ resonance_radii (tl (cd_name c)) y -> base' y = base y.
