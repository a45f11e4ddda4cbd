(** Properties of the LS couplings of a vertex: the change of basis between LS and helicity couplings. *)
From Coq Require Import String ZArith QArith Qcanon List Bool Reals.
From Coquelicot Require Import Complex.
From Verif Require Import Prelude Decay Expr CExpr Sums SpecDPD SpecLS LSProofs.
Import ListNotations.
Local Open Scope string_scope.
Local Open Scope Z_scope.

(** ** C80: the LS couplings are an orthonormal basis of the helicity couplings of a vertex. *)
Theorem C80_orthonormal_basis parent c1 c2 max_L : is_vertex parent c1 c2 -> large_L parent c1 c2 max_L ->
  exists cs, ls_couplings_of (p_spin (pobj_particle parent)) (spin_of c1) (spin_of c2) max_L cs /\ NoDup cs /\
    length cs = length (helicity_pairs (p_spin (pobj_particle parent)) (spin_of c1) (spin_of c2)) /\
    exists V : ls_coupling -> Z -> Z -> R,
      (forall c l1 l2, vertex_value parent c1 c2 c l1 l2 (RtoC (V c l1 l2))) /\
      (forall c l1 l2, p_spin (pobj_particle parent) < Z.abs (l1 - l2) -> V c l1 l2 = 0%R) /\
      (forall c c', In c cs -> In c' cs ->
         Rsum (helicity_pairs (p_spin (pobj_particle parent)) (spin_of c1) (spin_of c2))
           (fun q => V c (fst q) (snd q) * V c' (fst q) (snd q))%R
         = if eq_dec c c' then 1%R else 0%R) /\
      (forall q q', In q (helicity_pairs (p_spin (pobj_particle parent)) (spin_of c1) (spin_of c2)) ->
         In q' (helicity_pairs (p_spin (pobj_particle parent)) (spin_of c1) (spin_of c2)) ->
         Rsum cs (fun c => V c (fst q) (snd q) * V c (fst q') (snd q'))%R = if eq_dec q q' then 1%R else 0%R).
Proof. exact (c80_basis parent c1 c2 max_L). Qed.
Print Assumptions C80_orthonormal_basis.
(** D(1520) -> rho p: spins 3/2, 1, 1/2, with the default max_L = 3 *)
Example C80_example : is_vertex (PPart (Particle "D(1520)" "D" 3 (Some (-1)) (Q2Qc 1) (Q2Qc 1)))
    (Leaf (PPart (Particle "rho" "rho" 2 (Some (-1)) (Q2Qc 1) (Q2Qc 1)))) (Leaf (PPart (Particle "p" "p" 1 (Some 1) (Q2Qc 1) (Q2Qc 0)))) /\
  large_L (PPart (Particle "D(1520)" "D" 3 (Some (-1)) (Q2Qc 1) (Q2Qc 1)))
    (Leaf (PPart (Particle "rho" "rho" 2 (Some (-1)) (Q2Qc 1) (Q2Qc 1)))) (Leaf (PPart (Particle "p" "p" 1 (Some 1) (Q2Qc 1) (Q2Qc 0)))) 3 /\
  length (helicity_pairs 3 2 1) = 6%nat.
Proof. repeat split; try discriminate. Qed.

Theorem C80_change_of_basis parent c1 c2 max_L : is_vertex parent c1 c2 -> large_L parent c1 c2 max_L ->
  forall cs V (H : Z -> Z -> C),
  ls_couplings_of (p_spin (pobj_particle parent)) (spin_of c1) (spin_of c2) max_L cs ->
  (forall c l1 l2, In c cs -> vertex_value parent c1 c2 c l1 l2 (V c l1 l2)) ->
  exists a : ls_coupling -> C,
    (forall l1 l2, In (l1, l2) (helicity_pairs (p_spin (pobj_particle parent)) (spin_of c1) (spin_of c2)) ->
       H l1 l2 = Csum cs (fun c => a c * V c l1 l2)%C) /\
    Rsum cs (fun c => Cmod (a c) ^ 2)%R
      = Rsum (helicity_pairs (p_spin (pobj_particle parent)) (spin_of c1) (spin_of c2))
          (fun q => Cmod (H (fst q) (snd q)) ^ 2)%R /\
    (forall a' : ls_coupling -> C,
      (forall l1 l2, In (l1, l2) (helicity_pairs (p_spin (pobj_particle parent)) (spin_of c1) (spin_of c2)) ->
         H l1 l2 = Csum cs (fun c => a' c * V c l1 l2)%C) ->
      forall c, In c cs -> a' c = a c).
Proof. exact (c80_change parent c1 c2 max_L). Qed.
Print Assumptions C80_change_of_basis.

(** The bound on max_L is sharp. *)
Theorem C80_max_L parent c1 c2 max_L cs : is_vertex parent c1 c2 -> ~ large_L parent c1 c2 max_L ->
  ls_couplings_of (p_spin (pobj_particle parent)) (spin_of c1) (spin_of c2) max_L cs ->
  (length cs < length (helicity_pairs (p_spin (pobj_particle parent)) (spin_of c1) (spin_of c2)))%nat.
Proof. exact (c80_max_L parent c1 c2 max_L cs). Qed.
Print Assumptions C80_max_L.
Example C80_max_L_example : ~ large_L (PPart (Particle "D(1520)" "D" 3 (Some (-1)) (Q2Qc 1) (Q2Qc 1)))
    (Leaf (PPart (Particle "rho" "rho" 2 (Some (-1)) (Q2Qc 1) (Q2Qc 1)))) (Leaf (PPart (Particle "p" "p" 1 (Some 1) (Q2Qc 1) (Q2Qc 0)))) 2 /\
  exists cs, ls_couplings_of 3 2 1 2 cs.
Proof.
  split; [intros H; exact (H eq_refl)|].
  eexists. unfold ls_couplings_of. eexists. split; vm_compute; reflexivity.
Qed.

(** ** C81: parity-conserving couplings *)
Theorem C81_helicity_reversal parent c1 c2 max_L : is_vertex parent c1 c2 -> large_L parent c1 c2 max_L ->
  forall p p1 p2, is_parity p -> is_parity p1 -> is_parity p2 ->
  forall cs c l1 l2 v v',
  parity_couplings_of (p_spin (pobj_particle parent)) (spin_of c1) (spin_of c2) max_L p p1 p2 cs -> In c cs ->
  vertex_value parent c1 c2 c l1 l2 v -> vertex_value parent c1 c2 c (- l1) (- l2) v' ->
  v' = (RtoC (vertex_parity parent c1 c2 p p1 p2) * v)%C.
Proof. exact (c81_sign parent c1 c2 max_L). Qed.
Print Assumptions C81_helicity_reversal.

Theorem C81_count parent c1 c2 max_L : is_vertex parent c1 c2 -> large_L parent c1 c2 max_L ->
  forall p p1 p2, is_parity p -> is_parity p1 -> is_parity p2 ->
  exists cs, parity_couplings_of (p_spin (pobj_particle parent)) (spin_of c1) (spin_of c2) max_L p p1 p2 cs /\
    NoDup cs /\
    (2 * INR (length cs) = INR (length (helicity_pairs (p_spin (pobj_particle parent)) (spin_of c1) (spin_of c2)))
       + vertex_parity parent c1 c2 p p1 p2 * zero_pairs c1 c2)%R.
Proof. exact (c81_count parent c1 c2 max_L). Qed.
Print Assumptions C81_count.

Theorem C81_all_parity_conserving parent c1 c2 max_L : is_vertex parent c1 c2 -> large_L parent c1 c2 max_L ->
  forall p p1 p2, is_parity p -> is_parity p1 -> is_parity p2 ->
  forall cs V (H : Z -> Z -> C),
  parity_couplings_of (p_spin (pobj_particle parent)) (spin_of c1) (spin_of c2) max_L p p1 p2 cs ->
  (forall c l1 l2, In c cs -> vertex_value parent c1 c2 c l1 l2 (V c l1 l2)) ->
  (forall l1 l2, In (l1, l2) (helicity_pairs (p_spin (pobj_particle parent)) (spin_of c1) (spin_of c2)) ->
     H (- l1) (- l2) = (RtoC (vertex_parity parent c1 c2 p p1 p2) * H l1 l2)%C) ->
  exists a : ls_coupling -> C,
    forall l1 l2, In (l1, l2) (helicity_pairs (p_spin (pobj_particle parent)) (spin_of c1) (spin_of c2)) ->
      H l1 l2 = Csum cs (fun c => a c * V c l1 l2)%C.
Proof. exact (c81_complete parent c1 c2 max_L). Qed.
Print Assumptions C81_all_parity_conserving.
Example C81_example : parity_couplings_of 3 2 1 3 (-1) (-1) 1 [LS 0 3; LS 2 1; LS 2 3].
Proof. unfold parity_couplings_of. eexists. split; vm_compute; reflexivity. Qed.
