(** Specification vocabulary for C138: the partial waves of a decay with LS couplings *)
From Coq Require Import ZArith List Bool Reals.
From Coquelicot Require Import Complex.
From Verif Require Import Prelude Decay Expr CExpr Sums SpecKin SpecDPD SpecReorder.
Import ListNotations.
Local Open Scope Z_scope.

(** Angular momenta a and b (doubled) can add up to c. *)
Definition adds_to (a b c : Z) : Prop := Z.abs (a - b) <= c <= a + b /\ Z.even (a + b - c) = true.
(** LS couplings that a decay of spin J to spins j1 and j2 (doubled) can have *)
Definition allowed_ls (J j1 j2 : Z) (ls : ls_coupling) : Prop := adds_to j1 j2 (ls_S ls) /\ adds_to (2 * ls_L ls) (ls_S ls) J.
Definition allowed_chain (c : chain) : Prop :=
  (exists ls, ch_incoming_ls c = Some ls /\ allowed_ls (p_spin (ch_parent c)) (p_spin (ch_resonance c)) (p_spin (ch_spectator c)) ls) /\
  (exists ls, ch_outgoing_ls c = Some ls /\
     allowed_ls (p_spin (ch_resonance c)) (p_spin (fst (ch_decay_products c))) (p_spin (snd (ch_decay_products c))) ls).

(** A partial wave: spin of the resonance and LS couplings of production and decay *)
Definition wave : Type := Z * option ls_coupling * option ls_coupling.
Definition wave_of (c : chain) : wave := (p_spin (ch_resonance c), ch_incoming_ls c, ch_outgoing_ls c).
Definition wave_spin (q : wave) : Z := fst (fst q).
Definition waves (d : decay) : list wave := nodup (@eq_dec wave _) (map wave_of (d_chains d)).
Definition chains_of_wave (d : decay) (q : wave) : list chain := filter (fun c => eqb (wave_of c) q) (d_chains d).
(** The sign of the order of the children: the resonance first, and its products in cyclic order *)
Definition cyclic_sign (c : chain) : R :=
  order_sign false false (fun c => negb (resonance_first c))
    (fun c => negb (st_index (fst (ch_decay_products c)) =? next_label (st_index (ch_spectator c)))) c.
