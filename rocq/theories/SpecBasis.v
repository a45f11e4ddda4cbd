(** Specification of the equivalence of models with LS couplings and models with helicity couplings. *)
From Coq Require Import ZArith List Bool Permutation Reals.
From Coquelicot Require Import Complex.
From Verif Require Import Prelude Decay Expr CExpr SpecDPD SpecLS.
Import ListNotations.
Local Open Scope Z_scope.

(** The chain [c] with LS coupling [p] for the production of the resonance and [q] for its decay *)
Definition with_ls (p q : ls_coupling) (c : chain) : chain :=
  match c with
  | Node o (Node r a b _) t _ => Node o (Node r a b (Some q)) t (Some p)
  | Node o t (Node r a b _) _ => Node o t (Node r a b (Some q)) (Some p)
  | t => t
  end.
(** [cs] are all LS couplings of a node that conserves angular momentum. *)
Definition all_couplings (t : tree) (cs : list ls_coupling) : Prop :=
  match t with
  | Leaf _ => False
  | Node o c1 c2 _ => is_vertex o c1 c2 /\ exists max_L, large_L o c1 c2 max_L /\
      ls_couplings_of (p_spin (pobj_particle o)) (spin_of c1) (spin_of c2) max_L cs
  end.
(** The decay [d] has each chain of [d'] with all combinations of LS couplings, in any order. *)
Definition ls_expansion (d d' : decay) : Prop :=
  exists ps qs : chain -> list ls_coupling,
    (forall c, In c (d_chains d') -> all_couplings c (ps c) /\ all_couplings (ch_decay_node c) (qs c)) /\
    Permutation (d_chains d)
      (flat_map (fun c => flat_map (fun p => map (fun q => with_ls p q c) (qs c)) (ps c)) (d_chains d')).
