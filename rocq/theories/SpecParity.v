(** Specification of parity conservation in a decay. *)
From Coq Require Import ZArith List Bool Reals.
From Verif Require Import Prelude Decay SpecDPD SpecLS.
Import ListNotations.
Local Open Scope Z_scope.

(** The decay of [parent] to [a] and [b] with LS coupling [c] conserves parity: P = Pa Pb (-1)^L *)
Definition conserves_parity (parent a b : particle) (c : option ls_coupling) : Prop :=
  exists P Pa Pb ls, p_parity parent = Some P /\ p_parity a = Some Pa /\ p_parity b = Some Pb /\
    is_parity P /\ is_parity Pa /\ is_parity Pb /\ c = Some ls /\
    P = Pa * Pb * (if Z.even (ls_L ls) then 1 else -1).
(** ... at the production and at the decay of the resonance of a chain *)
Definition parity_conserving_chain (c : chain) : Prop :=
  conserves_parity (ch_parent c) (ch_resonance c) (ch_spectator c) (ch_incoming_ls c) /\
  conserves_parity (ch_resonance c) (fst (ch_decay_products c)) (snd (ch_decay_products c)) (ch_outgoing_ls c).

(** All helicities reversed *)
Definition reversed (l : Z * Z * Z * Z) : Z * Z * Z * Z :=
  match l with (l0, l1, l2, l3) => (- l0, - l1, - l2, - l3) end.
(** The product of the intrinsic parities of the four states *)
Definition intrinsic_parity (s : Z -> state) (p : Z) : Prop :=
  exists p0 p1 p2 p3, p_parity (s 0) = Some p0 /\ p_parity (s 1) = Some p1 /\ p_parity (s 2) = Some p2 /\
    p_parity (s 3) = Some p3 /\ is_parity p0 /\ is_parity p1 /\ is_parity p2 /\ is_parity p3 /\ p = p0 * p1 * p2 * p3.
(** The sign of reversing all helicities: P0 P1 P2 P3 times the product of (-1)^(spin + helicity) over the states *)
Definition reversal_sign (s : Z -> state) (p : Z) (l : Z * Z * Z * Z) : R :=
  (IZR p * parity_sign (p_spin (s 0%Z) + at4 l 0) * parity_sign (p_spin (s 1%Z) + at4 l 1)
   * parity_sign (p_spin (s 2%Z) + at4 l 2) * parity_sign (p_spin (s 3%Z) + at4 l 3))%R.

(** The sum of the orbital angular momenta of production and decay of a chain is even ([e = true]) or odd. *)
Definition orbital_parity (c : chain) (e : bool) : Prop :=
  exists p d, ch_incoming_ls c = Some p /\ ch_outgoing_ls c = Some d /\ Z.even (ls_L p + ls_L d) = e.
