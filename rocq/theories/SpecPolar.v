(** Specification of the spin density matrices of the aligned amplitudes (C140) *)
From Coq Require Import ZArith List Reals.
From Coquelicot Require Import Complex.
From Verif Require Import Prelude Decay Sums CExpr SpecDPD.
Import ListNotations.
Local Open Scope R_scope.

(** [l] with helicity [z] for state [n] *)
Definition with_helicity (l : Z * Z * Z * Z) (n z : Z) : Z * Z * Z * Z :=
  match l with (l0, l1, l2, l3) => match n with 0%Z => (z, l1, l2, l3) | 1%Z => (l0, z, l2, l3) | 2%Z => (l0, l1, z, l3) | _ => (l0, l1, l2, z) end end.
(** All combinations of the helicities of the three states other than [n] (the entry of [n] is not used) *)
Definition other_tuples (s : Z -> state) (n : Z) : list (Z * Z * Z * Z) :=
  let hel := fun i : Z => if Z.eqb i n then [0%Z] else helicities (p_spin (s i)) in
  flat_map (fun l0 => flat_map (fun l1 => flat_map (fun l2 => map (fun l3 => (l0, l1, l2, l3)) (hel 3%Z)) (hel 2%Z)) (hel 1%Z)) (hel 0%Z).
(** The spin density matrix of state [n] for amplitudes [A]: the sum over the helicities of the other states of A_x conj(A_y) *)
Definition density (s : Z -> state) (A : Z * Z * Z * Z -> C) (n x y : Z) : C :=
  Csum (other_tuples s n) (fun l => (A (with_helicity l n x) * Cconj (A (with_helicity l n y)))%C).
(** The polarisation vector of a state with spin 1/2, times the intensity: the expectation values of the Pauli matrices
    (x and z in the decay plane, y normal to it) *)
Definition pol_x (s : Z -> state) (A : Z * Z * Z * Z -> C) (n : Z) : R := 2 * Re (density s A n 1 (-1)).
Definition pol_y (s : Z -> state) (A : Z * Z * Z * Z -> C) (n : Z) : R := - 2 * Im (density s A n 1 (-1)).
Definition pol_z (s : Z -> state) (A : Z * Z * Z * Z -> C) (n : Z) : R := Re (density s A n 1 1) - Re (density s A n (-1) (-1)).
(** The matrix that turns the spin of state [n] by the angle [delta]; helicities of the final states count along the opposite turn. *)
Definition turn (s : Z -> state) (n : Z) (delta : R) (x x' : Z) : R :=
  if Z.eqb n 0 then Wigner.wigner_d (p_spin (s 0%Z)) x x' delta else Wigner.wigner_d (p_spin (s n)) x' x delta.
