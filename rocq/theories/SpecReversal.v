(** Specification of parity conservation for helicity couplings. *)
From Coq Require Import ZArith List Bool Reals.
From Coquelicot Require Import Complex.
From Verif Require Import Prelude Decay Expr CExpr SpecDPD SpecLS SpecParity.
Import ListNotations.
Local Open Scope Z_scope.

(** A vertex that can conserve parity: in the LS basis P = Pa Pb (-1)^L; in the helicity basis all parities are known
    and the spins conserve angular momentum. *)
Definition parity_vertex (helicity_basis : bool) (parent a b : particle) (c : option ls_coupling) : Prop :=
  if helicity_basis then
    (exists P Pa Pb, p_parity parent = Some P /\ p_parity a = Some Pa /\ p_parity b = Some Pb /\
      is_parity P /\ is_parity Pa /\ is_parity Pb) /\ Z.even (p_spin parent + p_spin a + p_spin b) = true
  else conserves_parity parent a b c.
Definition parity_chain (ph dh : bool) (c : chain) : Prop :=
  parity_vertex ph (ch_parent c) (ch_resonance c) (ch_spectator c) (ch_incoming_ls c) /\
  parity_vertex dh (ch_resonance c) (fst (ch_decay_products c)) (snd (ch_decay_products c)) (ch_outgoing_ls c).

(** H(-l1, -l2) = P P1 P2 (-1)^(J - j1 - j2) H(l1, l2) (Jacob and Wick, eq. 44); LS couplings have no helicities. *)
Definition parity_of (x : particle) : Z := match p_parity x with Some p => p | None => 1 end.
Definition reversed_vertex_sign (parent a b : particle) : R :=
  (IZR (parity_of parent * parity_of a * parity_of b) * parity_sign (p_spin parent - p_spin a - p_spin b))%R.
Definition reversed_coupling_sign (ph dh : bool) (c : chain) : R :=
  ((if ph then reversed_vertex_sign (ch_parent c) (ch_resonance c) (ch_spectator c) else 1)
   * (if dh then reversed_vertex_sign (ch_resonance c) (fst (ch_decay_products c)) (snd (ch_decay_products c)) else 1))%R.
(** The couplings (or coefficients) [scal c r lk li lj] of the chains conserve parity. *)
Definition parity_couplings (ph dh : bool) (s : Z -> state) (d : decay) (scal : chain -> Z -> Z -> Z -> Z -> C) : Prop :=
  forall c i j k r l, In c (d_chains d) -> ch_spectator c = s k -> cyclic i j k -> helicity_tuple s l ->
    In r (helicities (p_spin (ch_resonance c))) -> at4 l 0 = r - at4 l k ->
    scal c (- r) (- at4 l k) (- at4 l i) (- at4 l j)
    = (RtoC (reversed_coupling_sign ph dh c) * scal c r (at4 l k) (at4 l i) (at4 l j))%C.
