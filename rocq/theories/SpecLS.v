(** Specification of the change of basis between LS couplings and helicity couplings of a vertex. *)
From Coq Require Import ZArith QArith Qcanon List Bool Reals.
From Coquelicot Require Import Complex.
From Verif Require Import Prelude Decay Expr CExpr Sums SpecDPD.
From Verif Require Spin Builder.
Import ListNotations.
Local Open Scope Z_scope.

(** The helicities (l1, l2) of two decay products with spins j1, j2 that a parent of spin J can have *)
Definition helicity_pairs (J j1 j2 : Z) : list (Z * Z) :=
  filter (fun p => Z.abs (fst p - snd p) <=? J) (list_prod (helicities j1) (helicities j2)).
(** The LSCoupling objects of what [generate_ls_couplings] returns *)
Definition ls_couplings_of (J j1 j2 max_L : Z) (cs : list ls_coupling) : Prop :=
  exists ls, Spin.generate_ls_couplings (Spin.half J) (Spin.half j1) (Spin.half j2) max_L = Ok ls /\
    mapM (fun x => mk_ls (fst x) (snd x)) ls = Ok cs.
(** ... after [filter_parity_violating_ls] *)
Definition parity_couplings_of (J j1 j2 max_L p p1 p2 : Z) (cs : list ls_coupling) : Prop :=
  exists ls, Spin.generate_ls_couplings (Spin.half J) (Spin.half j1) (Spin.half j2) max_L = Ok ls /\
    mapM (fun x => mk_ls (fst x) (snd x)) (Spin.filter_parity_violating_ls ls p p1 p2) = Ok cs.
(** [v] is the value of the Clebsch-Gordan factors of the node parent -> child1 child2 with coupling [c], for
    helicities [l1], [l2] of the children. *)
Definition vertex_value (parent : pobj) (child1 child2 : tree) (c : ls_coupling) (l1 l2 : Z) (v : C) : Prop :=
  exists e, Builder.formulate_clebsch_gordan_factors (Node parent child1 child2 (Some c))
      [(to_particle child1, HVal l1); (to_particle child2, HVal l2)] = Ok e /\
    forall ev h, ceval ev h e = v.
Definition spin_of (t : tree) : Z := p_spin (pobj_particle (to_particle t)).
(** A vertex: two different children, non-negative spins that conserve angular momentum *)
Definition is_vertex (parent : pobj) (child1 child2 : tree) : Prop :=
  to_particle child1 <> to_particle child2 /\
  0 <= p_spin (pobj_particle parent) /\ 0 <= spin_of child1 /\ 0 <= spin_of child2 /\
  Z.even (p_spin (pobj_particle parent) + spin_of child1 + spin_of child2) = true.
(** [max_L] does not exclude any coupling. *)
Definition large_L (parent : pobj) (child1 child2 : tree) (max_L : Z) : Prop :=
  p_spin (pobj_particle parent) + spin_of child1 + spin_of child2 <= 2 * max_L.
(** Parities are +1 or -1. *)
Definition is_parity (p : Z) : Prop := p = 1 \/ p = -1.
(** The relative sign of the helicity couplings H(-l1, -l2) and H(l1, l2) of a parity-conserving vertex (Jacob and
    Wick, Ann. Phys. 7 (1959) 404, eq. 44): P P1 P2 (-1)^(J - j1 - j2); [parity_sign] takes twice the exponent. *)
Definition vertex_parity (parent : pobj) (child1 child2 : tree) (p p1 p2 : Z) : R :=
  (IZR (p * p1 * p2) * parity_sign (p_spin (pobj_particle parent) - spin_of child1 - spin_of child2))%R.
(** the number of pairs (0, 0) of helicities *)
Definition zero_pairs (child1 child2 : tree) : R :=
  if Z.even (spin_of child1) && Z.even (spin_of child2) then 1%R else 0%R.
