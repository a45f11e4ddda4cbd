(** Proofs of properties C01-C04: spin projections and LS couplings. *)
From Coq Require Import ZArith QArith Qcanon List Bool Lia Sorted.
From Verif Require Import Prelude Spin SpecSpin SpinFacts.
Import ListNotations.
Local Open Scope Qc_scope.

(** ** Helper lemmas *)
Lemma is_half_integer_half q : is_half_integer q <-> exists z, q = half z.
Proof. reflexivity. Qed.
Lemma is_integer_half q : is_integer q <-> exists z, q = half (2 * z).
Proof.
  split; intros [z ->]; exists z; [apply half_of_Z|symmetry; apply half_of_Z].
Qed.
Lemma is_integer_half_even z : is_integer (half z) <-> Z.even z = true.
Proof.
  rewrite is_integer_half, Z.even_spec. split; intros [w E]; exists w.
  - apply half_inj in E. exact E.
  - rewrite E. reflexivity.
Qed.
Lemma sorted_map_half l : StronglySorted Z.lt l -> StronglySorted Qclt (map half l).
Proof.
  induction 1 as [|a l S IH F]; simpl; constructor; auto.
  rewrite Forall_forall in *. intros x Hx. apply in_map_iff in Hx.
  destruct Hx as (z & <- & Hz). rewrite half_lt. auto.
Qed.
Lemma triangle_half a b c :
  triangle (half a) (half b) (half c) <-> (Z.abs (a - b) <= c <= a + b)%Z.
Proof.
  unfold triangle. rewrite !half_sub, half_add, !half_le. lia.
Qed.
Lemma couples_half a b c :
  couples_to (half a) (half b) (half c) <->
  (Z.abs (a - b) <= c <= a + b)%Z /\ Z.even (a + b - c) = true.
Proof.
  unfold couples_to. rewrite triangle_half, half_add, half_sub, is_integer_half_even. tauto.
Qed.

(** ** C01 *)
Lemma create_spin_range_correct_aux j : is_half_integer j ->
  exists l, create_spin_range j = Ok l /\ StronglySorted Qclt l /\
    (forall m, In m l <-> projection j m) /\
    (0 <= j -> Qc_of_Z (Z.of_nat (length l)) = j + j + 1) /\
    (j < 0 -> l = []).
Proof.
  intros [z ->]. change (Q2Qc (z # 2)) with (half z).
  exists (map half (spin_range2 z)).
  split; [apply create_spin_range_half|].
  split; [apply sorted_map_half, spin_range2_sorted|].
  split.
  - intros m. unfold projection. rewrite in_map_iff. split.
    + intros (x & <- & Hx). apply spin_range2_In in Hx. destruct Hx as [B E].
      rewrite half_opp, !half_le, half_sub, is_integer_half_even. intuition lia.
    + intros (B1 & B2 & I). assert (exists x, m = half x) as [x ->].
      { apply is_integer_half in I. destruct I as [w E]. exists (z - 2 * w)%Z.
        rewrite <- half_sub, <- E. ring. }
      rewrite half_opp, half_le in B1. rewrite half_le in B2.
      rewrite half_sub, is_integer_half_even in I.
      exists x. split; auto. apply spin_range2_In. split; [lia|auto].
  - change 0 with (Qc_of_Z 0). change 1 with (Qc_of_Z 1).
    rewrite !half_of_Z, map_length, spin_range2_length. split.
    + rewrite half_le. intros Hz. rewrite !half_add. f_equal. lia.
    + rewrite half_lt. intros Hz. unfold spin_range2.
      replace (Z.to_nat (z + 1)) with O by lia. reflexivity.
Qed.

Lemma create_rational_range_correct_aux a b :
  exists l, create_rational_range a b = Ok l /\ StronglySorted Qclt l /\
    forall x, In x l <->
      exists n : nat, x = a + Q2Qc (inject_Z (Z.of_nat n)) /\ x < b + Q2Qc (1 # 2).
Proof.
  destruct (create_rational_range_spec a b) as (k & E & Hk).
  eexists; split; [exact E|]. split.
  - clear. generalize 0%nat as s. induction k as [|k IH]; intros s; cbn [seq map]; constructor; auto.
    apply Forall_forall. intros x Hx. apply in_map_iff in Hx. destruct Hx as (n & <- & Hn).
    apply in_seq in Hn. unfold Qclt. rewrite !Qcplus_eq, !Qc_of_Z_eq.
    apply Qplus_lt_r. rewrite <- Zlt_Qlt. lia.
  - intros x. rewrite in_map_iff. split.
    + intros (n & <- & Hn). apply in_seq in Hn. exists n. split; auto. apply Hk. lia.
    + intros (n & -> & Hx). exists n. split; auto. apply in_seq.
      apply Hk in Hx. lia.
Qed.

(** ** C02 *)
Lemma ls_char J s1 s2 max_L :
  is_half_integer J -> is_half_integer s1 -> is_half_integer s2 -> 0 <= s1 -> 0 <= s2 ->
  exists ls, generate_ls_couplings J s1 s2 max_L = Ok ls /\
    StronglySorted clt ls /\ NoDup ls /\
    forall L S, In (L, S) ls <->
      (0 <= L <= max_L)%Z /\ couples_to s1 s2 S /\ triangle (Qc_of_Z L) S J.
Proof.
  intros [j ->] [a ->] [b ->]. fold (half j) (half a) (half b).
  change 0 with (Qc_of_Z 0). rewrite !half_of_Z, !half_le. intros Ha Hb.
  destruct (generate_ls_sound_complete j a b max_L) as (ls & E & ND & SO & H); [lia|lia|].
  exists ls. split; [exact E|]. split; auto. split; auto. intros L S. rewrite H. split.
  - intros (S2 & -> & BL & BS & EV & T). rewrite half_of_Z, couples_half, triangle_half.
    intuition.
  - intros (BL & C & T).
    assert (exists S2, S = half S2) as [S2 ->].
    { destruct C as [_ I]. apply is_integer_half in I. destruct I as [w E2].
      exists (a + b - 2 * w)%Z. rewrite <- half_sub, <- E2, <- half_add. ring. }
    rewrite couples_half in C. rewrite half_of_Z, triangle_half in T.
    exists S2. intuition.
Qed.

Lemma is_integer_add a b : is_integer a -> is_integer b -> is_integer (a + b).
Proof.
  rewrite !is_integer_half. intros [x ->] [y ->]. exists (x + y)%Z. rewrite half_add.
  f_equal. lia.
Qed.
Lemma is_integer_opp a : is_integer a -> is_integer (- a).
Proof.
  rewrite !is_integer_half. intros [x ->]. exists (- x)%Z. rewrite half_opp. f_equal. lia.
Qed.

Lemma ls_physical J s1 s2 max_L :
  is_half_integer J -> is_half_integer s1 -> is_half_integer s2 -> 0 <= s1 -> 0 <= s2 ->
  is_integer (J + s1 + s2) ->
  exists ls, generate_ls_couplings J s1 s2 max_L = Ok ls /\
    StronglySorted clt ls /\ NoDup ls /\
    forall L S, In (L, S) ls <->
      (0 <= L <= max_L)%Z /\ couples_to s1 s2 S /\ couples_to (Qc_of_Z L) S J.
Proof.
  intros HJ H1 H2 P1 P2 I. destruct (ls_char J s1 s2 max_L) as (ls & E & SO & ND & H); auto.
  exists ls. split; auto. split; auto. split; auto. intros L S. rewrite H.
  unfold couples_to at 3. split; [|tauto]. intros (BL & C & T).
  split; [exact BL|]. split; [exact C|]. split; [exact T|]. destruct C as [_ C].
  (* L + S - J = L + (s1 + s2 + s1 + s2) - (s1 + s2 - S) - (J + s1 + s2) *)
  assert (D : is_integer (s1 + s1 + (s2 + s2))).
  { destruct H1 as [a ->], H2 as [b ->]. fold (half a) (half b). rewrite !half_add.
    apply is_integer_half. exists (a + b)%Z. f_equal. lia. }
  replace (Qc_of_Z L + S - J) with
    (Qc_of_Z L + (s1 + s1 + (s2 + s2)) + (- (s1 + s2 - S)) + (- (J + s1 + s2))) by ring.
  apply is_integer_add; [|apply is_integer_opp; exact I].
  apply is_integer_add; [|apply is_integer_opp; exact C].
  apply is_integer_add; [|exact D]. exists L; reflexivity.
Qed.

(** ** C03: refuted.  The triangle inequalities are checked, the integrality of
    [J - (L + S)] is not: for J = s1 = s2 = 1/2 a coupling is returned although
    1/2 does not occur in 1/2 x 1/2 x L. *)
Lemma C03_aux : exists J s1 s2 max_L ls L S,
  is_half_integer J /\ is_half_integer s1 /\ is_half_integer s2 /\
  0 <= s1 /\ 0 <= s2 /\
  generate_ls_couplings J s1 s2 max_L = Ok ls /\ In (L, S) ls /\
  ~ couples_to (Qc_of_Z L) S J.
Proof.
  destruct (generate_ls_sound_complete 1 1 1 3) as (ls & E & _ & _ & H); [lia|lia|].
  exists (half 1), (half 1), (half 1), 3%Z, ls, 1%Z, (half 2).
  split; [exists 1%Z; reflexivity|]. split; [exists 1%Z; reflexivity|].
  split; [exists 1%Z; reflexivity|].
  change 0 with (Qc_of_Z 0). rewrite half_of_Z, half_le.
  split; [lia|]. split; [lia|]. split; [exact E|]. split.
  - apply H. exists 2%Z. split; [reflexivity|]. split; [lia|]. split; [lia|].
    split; [reflexivity|lia].
  - rewrite half_of_Z, couples_half. intros [_ X]. discriminate X.
Qed.

(** ** C04 *)
(** [l'] is the sublist of the elements of [l] that satisfy [P], in order. *)
Inductive sublist_of {A} (P : A -> Prop) : list A -> list A -> Prop :=
| sub_nil : sublist_of P [] []
| sub_keep a l l' : P a -> sublist_of P l l' -> sublist_of P (a :: l) (a :: l')
| sub_drop a l l' : ~ P a -> sublist_of P l l' -> sublist_of P (a :: l) l'.

Definition parity_conserving (eta0 eta1 eta2 : Z) (x : Z * Qc) : Prop :=
  (Z.Even (fst x) /\ eta0 = eta1 * eta2 \/ Z.Odd (fst x) /\ eta0 = - (eta1 * eta2))%Z.

Lemma parity_conserving_b eta0 eta1 eta2 x :
  (eta0 =? eta1 * eta2 * minus_one_pow (fst x))%Z = true <->
  parity_conserving eta0 eta1 eta2 x.
Proof.
  unfold parity_conserving, minus_one_pow. rewrite <- Z.even_spec, <- Z.odd_spec.
  rewrite <- Z.negb_even. destruct (Z.even (fst x)); simpl; rewrite Z.eqb_eq; intuition lia.
Qed.

Lemma filter_parity_aux ls eta0 eta1 eta2 :
  sublist_of (parity_conserving eta0 eta1 eta2) ls
    (filter_parity_violating_ls ls eta0 eta1 eta2) /\
  filter_parity_violating_ls (filter_parity_violating_ls ls eta0 eta1 eta2) eta0 eta1 eta2
    = filter_parity_violating_ls ls eta0 eta1 eta2.
Proof.
  unfold filter_parity_violating_ls. split.
  - induction ls as [|x ls IH]; simpl; [constructor|].
    destruct (_ =? _)%Z eqn:E.
    + apply sub_keep; auto. apply parity_conserving_b. auto.
    + apply sub_drop; auto. rewrite <- parity_conserving_b. congruence.
  - induction ls as [|x ls IH]; simpl; [reflexivity|].
    destruct (_ =? _)%Z eqn:E; auto. simpl. rewrite E. f_equal. auto.
Qed.
