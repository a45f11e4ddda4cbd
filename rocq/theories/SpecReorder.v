(** Vocabulary for the order of the decay products in the nodes of a chain (C108, C109) *)
From Coq Require Import ZArith List Bool Reals Permutation.
From Coquelicot Require Import Complex.
From Verif Require Import Prelude Decay CExpr Builder SpecDPD Dynamics SpecDynamics SpecRelabel.
Import ListNotations.
Local Open Scope Z_scope.

(** A node with its two children exchanged *)
Definition swap_children (t : tree) : tree :=
  match t with Node p c1 c2 i => Node p c2 c1 i | Leaf o => Leaf o end.
(** A chain with the two decay products of the resonance exchanged *)
Definition swap_products (c : chain) : chain :=
  match c with
  | Node p (Node _ _ _ _ as n) c2 i => Node p (swap_children n) c2 i
  | Node p c1 n i => Node p c1 (swap_children n) i
  | Leaf o => Leaf o
  end.
(** The resonance and the spectator exchanged (if [production]), the decay products of the resonance exchanged (if [decay]) *)
Definition reorder (production decay : chain -> bool) (c : chain) : chain :=
  let c' := if decay c then swap_products c else c in
  if production c then swap_children c' else c'.

(** The sign (-1)^(L + S - J) of an LS coupling in the decay of a particle with spin J *)
Definition coupling_sign (J : Z) (ls : option ls_coupling) : R :=
  match ls with None => 1%R | Some ls => parity_sign (2 * ls_L ls + ls_S ls - J) end.
(** The sign of the new order of a chain: one factor for each node that is reordered and has an LS coupling *)
Definition order_sign (ph dh : bool) (production decay : chain -> bool) (c : chain) : R :=
  ((if production c && negb ph then coupling_sign (p_spin (ch_parent c)) (ch_incoming_ls c) else 1)
   * (if decay c && negb dh then coupling_sign (p_spin (ch_resonance c)) (ch_outgoing_ls c) else 1))%R.

(** The chains of [d'] are those of [d] with new labels and, where [production] and [decay] say so, with exchanged children,
    in any order; the particles have the new labels. *)
Definition relabelled_up_to_order (p : Z -> Z) (production decay : chain -> bool)
    (d : Decay.decay) (s : Z -> state) (d' : Decay.decay) (s' : Z -> state) : Prop :=
  (forall i, In i [0; 1; 2; 3] -> st_particle (s' (p i)) = st_particle (s i)) /\
  Permutation (d_chains d') (map (fun c => relabel p (reorder production decay c)) (d_chains d)).
(** A phase-space factor that treats the two decay products alike *)
Definition symmetric_phsp (f : C -> C -> C -> C) : Prop := forall s m1 m2, f s m2 m1 = f s m1 m2.
(** A chain and the same chain with new labels and exchanged children have lineshapes of BreitWignerBuilder with the same
    settings, or no dynamics. *)
Definition same_lineshapes_up_to_order (p : Z -> Z) (production decay : chain -> bool) (d : Decay.decay)
    (dyn dyn' : chain -> defexpr) : Prop :=
  forall c, In c (d_chains d) -> let c' := relabel p (reorder production decay c) in
    (dyn c = DefExpr (CNum 1) [] /\ dyn' c' = DefExpr (CNum 1) []) \/
    exists w f, phsp_value (bw_phsp_factor w) f /\ symmetric_phsp f /\ bw_call w c = Ok (dyn c) /\ bw_call w c' = Ok (dyn' c').
