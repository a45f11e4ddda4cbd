(** Specification of upper bounds on the intensity (C137) *)
From Coq Require Import ZArith Bool Reals List.
From Coquelicot Require Import Complex.
From Verif Require Import Prelude Decay Expr CExpr Sums SpecKin SpecDPD Builder SerFormat SpecSerial.
Import ListNotations.
Local Open Scope R_scope.

(** All combinations of helicities of the final states (the first component is not used) *)
Definition final_tuples (s : Z -> state) : list (Z * Z * Z * Z) :=
  flat_map (fun l1 => flat_map (fun l2 => map (fun l3 => (0%Z, l1, l2, l3))
    (helicities (p_spin (s 3%Z)))) (helicities (p_spin (s 2%Z)))) (helicities (p_spin (s 1%Z))).
(** The product of the helicity couplings of a chain in its two vertices, for helicity [r] of the resonance and helicities [l] of the
    final states; [scal] is the value of the couplings (with one coefficient per chain: of the coefficient). *)
Definition helicity_coupling (ph dh : bool) (scal : chain -> Z -> Z -> Z -> Z -> C) (c : chain) (r : Z) (l : Z * Z * Z * Z) : C :=
  let k := st_index (ch_spectator c) in
  let i := next_label k in
  let j := next_label i in
  (scal c r (at4 l k) (at4 l i) (at4 l j) * RtoC (prod_factor ph c r (at4 l k) * dec_factor dh c (at4 l)))%C.
(** The size of a chain: the modulus of its lineshape times the norm of its helicity couplings *)
Definition chain_size (ph dh : bool) (s : Z -> state) (scal : chain -> Z -> Z -> Z -> Z -> C) (X : chain -> C) (c : chain) : R :=
  Cmod (X c) * sqrt (Rsum (helicities (p_spin (ch_resonance c))) (fun r => Rsum (final_tuples s) (fun l =>
    Cmod (helicity_coupling ph dh scal c r l) ^ 2))).
(** The size of a chain of a serialised model: weight times lineshape, and a factor for the terms with flipped helicities of its vertices *)
Definition serial_size (x : chain_def -> content) (w : chain_def -> symbol) (dyn : chain_def -> defexpr) (ev : env) (c : chain_def) : R :=
  Cmod (e_sym ev (w c)) * Cmod (ceval ev (fun _ => 0%Z) (de_expr (dyn c)))
  * (1 + Rabs (IZR (ct_fp (x c)))) * (1 + Rabs (IZR (ct_fd (x c)))).
