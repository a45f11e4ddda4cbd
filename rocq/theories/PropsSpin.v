(** Properties C01-C04: spin projections and LS couplings. *)
From Coq Require Import ZArith QArith Qcanon List Bool Lia Sorted.
From Verif Require Import Prelude Spin SpecSpin SpinFacts SpinProofs.
Import ListNotations.
Local Open Scope Qc_scope.

Theorem C01_create_spin_range : forall j, is_half_integer j ->
  exists l, create_spin_range j = Ok l /\ StronglySorted Qclt l /\
    (forall m, In m l <-> projection j m) /\
    (0 <= j -> Qc_of_Z (Z.of_nat (length l)) = j + j + 1) /\
    (j < 0 -> l = []).
Proof. exact create_spin_range_correct_aux. Qed.
Print Assumptions C01_create_spin_range.

Example C01_example : is_half_integer (Q2Qc (3 # 2)) /\
  create_spin_range (Q2Qc (3 # 2)) =
    Ok [Q2Qc (-3 # 2); Q2Qc (-1 # 2); Q2Qc (1 # 2); Q2Qc (3 # 2)].
Proof.
  split; [exists 3%Z; reflexivity|]. change (Q2Qc (3 # 2)) with (half 3).
  rewrite create_spin_range_half. reflexivity.
Qed.

Theorem C01_create_rational_range : forall a b,
  exists l, create_rational_range a b = Ok l /\ StronglySorted Qclt l /\
    forall x, In x l <->
      exists n : nat, x = a + Q2Qc (inject_Z (Z.of_nat n)) /\ x < b + Q2Qc (1 # 2).
Proof. exact create_rational_range_correct_aux. Qed.
Print Assumptions C01_create_rational_range.

(** The returned couplings, for all half-integer spins: sorted, without
    repetition, [0 <= L <= max_L], [S] from the addition of the child spins, and
    the triangle inequalities for [L], [S] and the parent spin. *)
Theorem C02_generate_ls_couplings : forall J s1 s2 max_L,
  is_half_integer J -> is_half_integer s1 -> is_half_integer s2 -> 0 <= s1 -> 0 <= s2 ->
  exists ls, generate_ls_couplings J s1 s2 max_L = Ok ls /\
    StronglySorted clt ls /\ NoDup ls /\
    forall L S, In (L, S) ls <->
      (0 <= L <= max_L)%Z /\ couples_to s1 s2 S /\ triangle (Qc_of_Z L) S J.
Proof. exact ls_char. Qed.
Print Assumptions C02_generate_ls_couplings.

Theorem C02_generate_ls_couplings_physical : forall J s1 s2 max_L,
  is_half_integer J -> is_half_integer s1 -> is_half_integer s2 -> 0 <= s1 -> 0 <= s2 ->
  is_integer (J + s1 + s2) ->
  exists ls, generate_ls_couplings J s1 s2 max_L = Ok ls /\
    StronglySorted clt ls /\ NoDup ls /\
    forall L S, In (L, S) ls <->
      (0 <= L <= max_L)%Z /\ couples_to s1 s2 S /\ couples_to (Qc_of_Z L) S J.
Proof. exact ls_physical. Qed.
Print Assumptions C02_generate_ls_couplings_physical.

Example C02_example :
  is_integer (Q2Qc (3 # 2) + Q2Qc (1 # 2) + 0) /\
  generate_ls_couplings (Q2Qc (3 # 2)) (Q2Qc (1 # 2)) 0 3 =
    Ok [(1%Z, Q2Qc (1 # 2)); (2%Z, Q2Qc (1 # 2))].
Proof. split; [exists 2%Z; apply Qc_is_canon; reflexivity|reflexivity]. Qed.

Theorem C03_ls_integrality_refuted : exists J s1 s2 max_L ls L S,
  is_half_integer J /\ is_half_integer s1 /\ is_half_integer s2 /\
  0 <= s1 /\ 0 <= s2 /\
  generate_ls_couplings J s1 s2 max_L = Ok ls /\ In (L, S) ls /\
  ~ couples_to (Qc_of_Z L) S J.
Proof. exact C03_aux. Qed.
Print Assumptions C03_ls_integrality_refuted.

Theorem C04_filter_parity : forall ls eta0 eta1 eta2,
  sublist_of (parity_conserving eta0 eta1 eta2) ls
    (filter_parity_violating_ls ls eta0 eta1 eta2) /\
  filter_parity_violating_ls (filter_parity_violating_ls ls eta0 eta1 eta2) eta0 eta1 eta2
    = filter_parity_violating_ls ls eta0 eta1 eta2.
Proof. exact filter_parity_aux. Qed.
Print Assumptions C04_filter_parity.

Example C04_example :
  filter_parity_violating_ls [(1%Z, Q2Qc (3 # 2)); (2%Z, Q2Qc (3 # 2))] 1 (-1) (-1)
    = [(2%Z, Q2Qc (3 # 2))].
Proof. reflexivity. Qed.
