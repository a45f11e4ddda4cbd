(** Specification of models with any choice of LS and helicity couplings for production and decay. *)
From Coq Require Import ZArith List Bool Permutation Reals.
From Coquelicot Require Import Complex.
From Verif Require Import Prelude Decay Expr CExpr SpecDPD SpecLS SpecBasis.
Import ListNotations.
Local Open Scope Z_scope.

(** The chain [c] with LS coupling [p] for the production of the resonance and [q] for its decay; [None] keeps what the
    chain has. *)
Definition with_choice (p q : option ls_coupling) (c : chain) : chain :=
  let choose new old := match new with None => old | Some x => Some x end in
  match c with
  | Node o (Node r a b y) t x => Node o (Node r a b (choose q y)) t (choose p x)
  | Node o t (Node r a b y) x => Node o t (Node r a b (choose q y)) (choose p x)
  | t => t
  end.
(** In the LS basis there is one choice for each LS coupling, in the helicity basis nothing is chosen. *)
Definition choices (helicity_basis : bool) (cs : list ls_coupling) : list (option ls_coupling) :=
  if helicity_basis then [None] else map Some cs.
(** For the bases [ph] of the production and [dh] of the decay, the decay [d] has each chain of [d'] with all LS
    couplings of the vertices that are not in the helicity basis, in any order. *)
Definition basis_expansion (ph dh : bool) (d d' : decay) : Prop :=
  exists ps qs : chain -> list ls_coupling,
    (forall c, In c (d_chains d') ->
       (ph = false -> all_couplings c (ps c)) /\ (dh = false -> all_couplings (ch_decay_node c) (qs c))) /\
    Permutation (d_chains d)
      (flat_map (fun c => flat_map (fun p => map (fun q => with_choice p q c) (choices dh (qs c))) (choices ph (ps c)))
         (d_chains d')).
