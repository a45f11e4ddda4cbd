(** Specification of a serialised model definition that says the same as a decay with a spinless initial state *)
From Coq Require Import String ZArith List Bool Reals Permutation.
From Coquelicot Require Import Complex.
From Verif Require Import Prelude Decay Expr CExpr Builder SpecDPD SerFormat SpecSerial.
Import ListNotations.
Local Open Scope string_scope.
Local Open Scope Z_scope.
Local Open Scope list_scope.

(** The helicities for which a chain contributes to an amplitude: the resonance has the helicity of the spectator, because
    the initial state has helicity 0. *)
Definition allowed_helicities (s : Z -> state) (c : chain) : list (Z * Z * Z * Z) :=
  filter (fun l => existsb (Z.eqb (at4 l (st_index (ch_spectator c)))) (helicities (p_spin (ch_resonance c)))) (tuples s).
(** One serialised chain [term c l] with vertices of type helicity for each chain [c] and each combination of helicities [l] *)
Record serial_copy (s : Z -> state) (chains : list chain) (d : distribution) (x : chain_def -> content)
  (term : chain -> Z * Z * Z * Z -> chain_def) : Prop := {
  sc_chains : Permutation (di_chains d) (flat_map (fun c => map (term c) (allowed_helicities s c)) chains);
  sc_content : forall c l i j k, In c chains -> In l (allowed_helicities s c) -> ch_spectator c = s k -> cyclic i j k ->
    x (term c l) = Content (p_spin (ch_resonance c)) i j k (at4 l k) (at4 l k) (at4 l i) (at4 l j) 0 0
}.
(** The weight that belongs to the couplings of a chain: their product with the factors of the LS basis and
    the signs (-1)^(spin - helicity) of the spectator and the second decay product *)
Definition weight_of (uc : bool) (ev : env) (b : builder) (s : Z -> state) (c : chain) (l : Z * Z * Z * Z) (i j k : Z) : C :=
  (RtoC (parity_sign (p_spin (s k) - at4 l k) * parity_sign (p_spin (s j) - at4 l j))
   * (if uc then coefficient else coupling_product) ev (b_prod_helicity b) (b_dec_helicity b) c (at4 l k) (at4 l k) (at4 l i) (at4 l j)
   * RtoC (prod_factor (b_prod_helicity b) c (at4 l k) (at4 l k) * dec_factor (b_dec_helicity b) c (at4 l)))%C.
