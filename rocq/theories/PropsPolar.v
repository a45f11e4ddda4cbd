(** C140: spin density matrices and polarisation vectors of the aligned amplitudes. *)
From Coq Require Import String ZArith List Bool Reals.
From Coquelicot Require Import Complex.
From Verif Require Import Prelude Spin Decay Expr Angles Sums CExpr SpecKin SpecDPD Builder SpecBuilder SpecParity SpecReversal BuilderExamples
  ChainExamples OptionExamples AnglesProofs RefRefuted SpecLine SpecPolar PolarProofs.
Import ListNotations.
Local Open Scope Z_scope.

(** The trace of the density matrix of each of the four states is the intensity; the matrix is Hermitian and positive. *)
Theorem C140_trace b s r cl uc m n : std_decay (b_decay b) s -> formulate b (Some r) cl uc = Ok m -> In n [0; 1; 2; 3] -> forall ev,
  full_value ev m = Csum (helicities (p_spin (s n))) (fun x => density s (aligned_value b r m ev) n x x).
Proof. exact (c140_trace b s r cl uc m n). Qed.
Print Assumptions C140_trace.
Theorem C140_hermitian s A n x y : density s A n y x = Cconj (density s A n x y).
Proof. exact (PolarFacts.density_hermitian s A n x y). Qed.
Print Assumptions C140_hermitian.
Theorem C140_positive (s : Z -> state) A n (v : Z -> C) : exists q, (0 <= q)%R /\
  Csum (helicities (p_spin (s n))) (fun x => Csum (helicities (p_spin (s n))) (fun y => (v x * Cconj (v y) * density s A n x y)%C)) = RtoC q.
Proof. exact (c140_positive s A n v). Qed.
Print Assumptions C140_positive.
(** The polarisation vector of a state with spin 1/2 is at most 1. *)
Theorem C140_bound b s r cl uc m n : std_decay (b_decay b) s -> formulate b (Some r) cl uc = Ok m -> In n [0; 1; 2; 3] -> p_spin (s n) = 1 -> forall ev,
  let A := aligned_value b r m ev in
  (pol_x s A n ^ 2 + pol_y s A n ^ 2 + pol_z s A n ^ 2 <= Re (full_value ev m) ^ 2)%R.
Proof. exact (c140_bound b s r cl uc m n). Qed.
Print Assumptions C140_bound.

(** Another reference subsystem turns the density matrix of each state by the angle of formulate_zeta_angle; the polarisation vector of a
    state with spin 1/2 turns by this angle about the normal of the decay plane. *)
Theorem C140_reference b s dyn uc cl1 cl2 m1 m2 r1 r2 base cpl n zx z : std_decay (b_decay b) s -> dynamics_of b dyn ->
  (b_prod_helicity b = false -> plain_resonances (b_decay b)) ->
  formulate b (Some r1) cl1 uc = Ok m1 -> formulate b (Some r2) cl2 uc = Ok m2 -> 1 <= r1 <= 3 -> 1 <= r2 <= 3 ->
  turn_safe s r1 r2 (get_subsystem_ids (b_decay b)) -> physical (fun x => Re (base x)) -> nonsingular (fun x => Re (base x)) ->
  In n [0; 1; 2; 3] -> formulate_zeta_angle n r1 r2 = Ok (zx, z) ->
  let angle := reval (fun x => Re (base x)) z in
  let A1 := aligned_value b r1 m1 (at_point (m_variables m1) base cpl) in
  let A2 := aligned_value b r2 m2 (at_point (m_variables m2) base cpl) in
  (forall x y, In x (helicities (p_spin (s n))) -> In y (helicities (p_spin (s n))) ->
     density s A2 n x y = Csum (helicities (p_spin (s n))) (fun x' => Csum (helicities (p_spin (s n))) (fun y' =>
       (RtoC (turn s n angle x x' * turn s n angle y y') * density s A1 n x' y')%C))) /\
  (p_spin (s n) = 1 -> let phi := (if n =? 0 then angle else - angle)%R in
     pol_x s A2 n = (cos phi * pol_x s A1 n + sin phi * pol_z s A1 n)%R /\
     pol_z s A2 n = (cos phi * pol_z s A1 n - sin phi * pol_x s A1 n)%R /\
     pol_y s A2 n = pol_y s A1 n).
Proof. exact (c140_turn b s dyn uc cl1 cl2 m1 m2 r1 r2 base cpl n zx z). Qed.
Print Assumptions C140_reference.
Example C140_reference_example : std_decay (b_decay ex_b) ex_st /\ dynamics_of ex_b ex_dyn /\ plain_resonances (b_decay ex_b) /\
  (exists m1, formulate ex_b (Some 2) false false = Ok m1) /\ (exists m2, formulate ex_b (Some 3) false false = Ok m2) /\
  turn_safe ex_st 2 3 (get_subsystem_ids (b_decay ex_b)) /\
  physical (fun x => Re (rx_base x)) /\ nonsingular (fun x => Re (rx_base x)) /\
  (exists zx z, formulate_zeta_angle 0 2 3 = Ok (zx, z)) /\ (exists zx z, formulate_zeta_angle 1 2 3 = Ok (zx, z)) /\
  p_spin (ex_st 0) = 1 /\ p_spin (ex_st 1) = 1.
Proof.
  split; [exact ex_std|]. split; [exact (ex_dynamics (MinBool false) (or_introl eq_refl))|]. split; [exact ex_plain|].
  split; [vm_compute; eexists; reflexivity|]. split; [vm_compute; eexists; reflexivity|].
  split; [right; left; vm_compute; intuition congruence|].
  split; [eexists _, _, _; exact AnglesProofs.ex_momenta|]. split; [exact AnglesProofs.ex_nonsingular|].
  split; [vm_compute; eexists _, _; reflexivity|]. split; [vm_compute; eexists _, _; reflexivity|]. split; reflexivity.
Qed.
Print Assumptions C140_reference_example.

(** If parity is conserved, the polarisation of a state with spin 1/2 is normal to the decay plane. *)
Theorem C140_parity b s dyn r cl uc m p n :
  std_decay (b_decay b) s -> dynamics_of b dyn -> plain_resonances (b_decay b) -> b_prod_helicity b = false -> b_dec_helicity b = false ->
  formulate b (Some r) cl uc = Ok m ->
  (forall c, In c (d_chains (b_decay b)) -> parity_conserving_chain c) -> intrinsic_parity s p -> In n [0; 1; 2; 3] ->
  forall ev, let A := aligned_value b r m ev in
  (forall x y, In x (helicities (p_spin (s n))) -> In y (helicities (p_spin (s n))) ->
     density s A n (- x) (- y) = (RtoC (parity_sign (p_spin (s n) + x) * parity_sign (p_spin (s n) + y)) * density s A n x y)%C) /\
  (p_spin (s n) = 1 -> pol_x s A n = 0%R /\ pol_z s A n = 0%R).
Proof. exact (c140_parity_ls b s dyn r cl uc m p n). Qed.
Print Assumptions C140_parity.
Example C140_parity_example : std_decay dl_decay1 ex_st /\ dynamics_of (dl_b dl_decay1 [] false) (fun _ => de_unit) /\
  plain_resonances dl_decay1 /\ (exists m, formulate (dl_b dl_decay1 [] false) (Some 3) false false = Ok m) /\
  (forall c, In c (d_chains dl_decay1) -> parity_conserving_chain c) /\ intrinsic_parity ex_st 1 /\ p_spin (ex_st 0) = 1.
Proof.
  split; [apply dl_std|]. split; [apply be_dynamics; simpl; auto|]. split; [apply be_plain; simpl; auto|].
  split; [vm_compute; eexists; reflexivity|]. split; [apply dl_parity|]. split; [apply dl_parity|]. reflexivity.
Qed.
Print Assumptions C140_parity_example.
(** The same with helicity couplings that conserve parity *)
Theorem C140_parity_any_basis b s dyn r cl uc m p n :
  std_decay (b_decay b) s -> dynamics_of b dyn -> (b_prod_helicity b = false -> plain_resonances (b_decay b)) ->
  formulate b (Some r) cl uc = Ok m ->
  (forall c, In c (d_chains (b_decay b)) -> parity_chain (b_prod_helicity b) (b_dec_helicity b) c) -> intrinsic_parity s p -> In n [0; 1; 2; 3] ->
  forall ev, parity_couplings (b_prod_helicity b) (b_dec_helicity b) s (b_decay b)
      ((if uc then coefficient else coupling_product) ev (b_prod_helicity b) (b_dec_helicity b)) ->
  let A := aligned_value b r m ev in
  (forall x y, In x (helicities (p_spin (s n))) -> In y (helicities (p_spin (s n))) ->
     density s A n (- x) (- y) = (RtoC (parity_sign (p_spin (s n) + x) * parity_sign (p_spin (s n) + y)) * density s A n x y)%C) /\
  (p_spin (s n) = 1 -> pol_x s A n = 0%R /\ pol_z s A n = 0%R).
Proof. exact (c140_parity b s dyn r cl uc m p n). Qed.
Print Assumptions C140_parity_any_basis.
Example C140_parity_any_basis_example : std_decay op_negative ex_st /\ dynamics_of (op_b op_negative true true false) (fun _ => de_unit) /\
  (exists m, formulate (op_b op_negative true true false) (Some 3) false false = Ok m) /\
  (forall c, In c (d_chains op_negative) -> parity_chain true true c) /\ intrinsic_parity ex_st 1 /\
  parity_couplings true true ex_st op_negative (coupling_product op_env true true).
Proof.
  split; [apply op_std; simpl; auto|]. split; [apply op_dynamics; simpl; auto|]. split; [vm_compute; eexists; reflexivity|].
  split; [apply op_parity|]. split; [apply op_parity|]. apply op_couplings.
Qed.
Print Assumptions C140_parity_any_basis_example.
