(** Proofs about [Spin.v]. *)
From Coq Require Import ZArith QArith Qcanon Qround List Bool Lia Lqa Sorted Permutation.
From Verif Require Import Prelude Spin.
Import ListNotations.
Local Open Scope Z_scope.

(** ** Orders *)
Lemma Qc_ltb_spec a b : Qc_ltb a b = true <-> (a < b)%Qc.
Proof.
  unfold Qc_ltb. rewrite Qclt_alt. destruct (a ?= b)%Qc; split; congruence.
Qed.
Lemma Qc_leb_spec a b : Qc_leb a b = true <-> (a <= b)%Qc.
Proof.
  unfold Qc_leb. rewrite Qcle_alt. destruct (a ?= b)%Qc; split; congruence.
Qed.
Global Instance CmpLaws_Qc : CmpLaws Qc.
Proof.
  split; unfold cmp, Cmp_Qc.
  - intros a b. split; intros X.
    + apply Qceq_alt. congruence.
    + f_equal. apply Qceq_alt. auto.
  - intros a b c X. inversion X. f_equal. unfold Qccompare. apply eq_sym, Qcompare_antisym.
  - intros a b c X Y. f_equal. apply Qclt_alt.
    apply Qclt_trans with b; apply Qclt_alt; congruence.
Qed.

Lemma Qc_of_Z_eq z : (Qc_of_Z z == inject_Z z)%Q.
Proof. exact (Qred_correct _). Qed.
Lemma half_eq z : (half z == z # 2)%Q.
Proof. exact (Qred_correct _). Qed.
Lemma Qcplus_eq a b : ((a + b)%Qc == a + b)%Q.
Proof. exact (Qred_correct _). Qed.
Lemma Qcopp_eq a : ((- a)%Qc == - a)%Q.
Proof. exact (Qred_correct _). Qed.
Lemma Qcminus_eq a b : ((a - b)%Qc == a - b)%Q.
Proof. unfold Qcminus. rewrite Qcplus_eq, Qcopp_eq. reflexivity. Qed.

Ltac qc_unfold :=
  repeat (rewrite ?Qcplus_eq, ?Qcminus_eq, ?Qcopp_eq, ?Qc_of_Z_eq, ?half_eq).

(** ** [arange] *)
Lemma arange_loop_length x2 k : forall x1 fuel,
  (forall n : nat, (n < k)%nat <-> (x1 + Qc_of_Z (Z.of_nat n) < x2)%Qc) ->
  (k < fuel)%nat ->
  arange_loop fuel x1 x2 (Qc_of_Z 1) =
    Some (map (fun n => (x1 + Qc_of_Z (Z.of_nat n))%Qc) (seq 0 k)).
Proof.
  induction k as [|k IH]; intros x1 fuel Hn Hf; destruct fuel as [|fuel]; try lia; simpl.
  - destruct (Qc_ltb x1 x2) eqn:E; auto. exfalso.
    apply Qc_ltb_spec in E. assert (X : (0 < 0)%nat); [|lia].
    apply Hn. change (Qc_of_Z (Z.of_nat 0)) with (Q2Qc 0). rewrite Qcplus_comm, Qcplus_0_l. auto.
  - assert (E : Qc_ltb x1 x2 = true).
    { apply Qc_ltb_spec. assert (X : (0 < S k)%nat) by lia. apply Hn in X.
      change (Qc_of_Z (Z.of_nat 0)) with (Q2Qc 0) in X. rewrite Qcplus_comm, Qcplus_0_l in X. auto. }
    rewrite E. rewrite IH; [|clear IH|lia].
    + simpl. f_equal. f_equal.
      * apply Qc_is_canon. qc_unfold. simpl. ring.
      * rewrite <- seq_shift, map_map. apply map_ext. intros n.
        apply Qc_is_canon. qc_unfold. rewrite Nat2Z.inj_succ, <- Z.add_1_l, inject_Z_plus. ring.
    + intros n. rewrite Nat.succ_lt_mono, Hn.
      unfold Qclt. qc_unfold. rewrite Nat2Z.inj_succ, <- Z.add_1_l, inject_Z_plus.
      split; intros X; lra.
Qed.

Lemma Qceiling_lt_iff (n : Z) (q : Q) : (inject_Z n < q)%Q <-> (n < Qceiling q)%Z.
Proof.
  split; intros X.
  - rewrite Zlt_Qlt. apply Qlt_le_trans with q; auto. apply Qle_ceiling.
  - pose proof (Qceiling_lt q) as Y. apply Qle_lt_trans with (inject_Z (Qceiling q - 1)); auto.
    rewrite <- Zle_Qle. lia.
Qed.

Lemma Qceiling_compat (a b : Q) : (a == b)%Q -> Qceiling a = Qceiling b.
Proof. intros E. apply Qceiling_comp. exact E. Qed.

Lemma arange_spec x1 x2 : exists k : nat,
  arange x1 x2 = Ok (map (fun n => (x1 + Qc_of_Z (Z.of_nat n))%Qc) (seq 0 k)) /\
  (forall n : nat, (n < k)%nat <-> (x1 + Qc_of_Z (Z.of_nat n) < x2)%Qc).
Proof.
  set (k := Z.to_nat (Qceiling (x2 - x1)%Qc)). exists k.
  assert (Hn : forall n : nat, (n < k)%nat <-> (x1 + Qc_of_Z (Z.of_nat n) < x2)%Qc).
  { intros n. unfold Qclt. qc_unfold. unfold k.
    transitivity (Z.of_nat n < Qceiling (x2 - x1)%Qc); [lia|].
    rewrite <- Qceiling_lt_iff. qc_unfold. split; intros X; lra. }
  split; auto. unfold arange. rewrite (arange_loop_length x2 k); auto.
Qed.

Lemma create_rational_range_spec a b : exists k : nat,
  create_rational_range a b = Ok (map (fun n => (a + Qc_of_Z (Z.of_nat n))%Qc) (seq 0 k)) /\
  (forall n : nat, (n < k)%nat <-> (a + Qc_of_Z (Z.of_nat n) < b + Qc_half)%Qc).
Proof. apply arange_spec. Qed.

(** ** Half-integers *)
Lemma half_add a b : (half a + half b)%Qc = half (a + b).
Proof. apply Qc_is_canon. qc_unfold. unfold Qeq; simpl. ring. Qed.
Lemma half_opp a : (- half a)%Qc = half (- a).
Proof. apply Qc_is_canon. qc_unfold. reflexivity. Qed.
Lemma half_sub a b : (half a - half b)%Qc = half (a - b).
Proof. unfold Qcminus. rewrite half_opp, half_add. reflexivity. Qed.
Lemma half_lt a b : (half a < half b)%Qc <-> a < b.
Proof. unfold Qclt. rewrite !half_eq. unfold Qlt; simpl. lia. Qed.
Lemma half_le a b : (half a <= half b)%Qc <-> a <= b.
Proof. unfold Qcle. rewrite !half_eq. unfold Qle; simpl. lia. Qed.
Lemma half_inj a b : half a = half b -> a = b.
Proof.
  intros E. assert (X : (half a == half b)%Q) by (rewrite E; reflexivity).
  rewrite !half_eq in X. unfold Qeq in X; simpl in X. lia.
Qed.
Lemma half_of_Z z : Qc_of_Z z = half (2 * z).
Proof. apply Qc_is_canon. rewrite Qc_of_Z_eq, half_eq. unfold Qeq, inject_Z; cbn [Qnum Qden]. lia. Qed.
Lemma half_one : Qc_half = half 1.
Proof. reflexivity. Qed.
Lemma half_abs a : Qc_abs (half a) = half (Z.abs a).
Proof.
  unfold Qc_abs. destruct (Qc_ltb (half a) (Qc_of_Z 0)) eqn:E.
  - rewrite Qc_ltb_spec, half_of_Z, half_lt in E.
    rewrite half_opp. replace (Z.abs a) with (- a) by lia. reflexivity.
  - destruct (Z.leb_spec 0 a) as [E3|E3]; [replace (Z.abs a) with a by lia; reflexivity|].
    exfalso. destruct (Z.ltb a 0) eqn:E2; [|lia]. exfalso.
    assert (Qc_ltb (half a) (Qc_of_Z 0) = true); [|congruence].
    rewrite Qc_ltb_spec, half_of_Z, half_lt. lia.
Qed.
Lemma half_leb a b : Qc_leb (half a) (half b) = (a <=? b).
Proof.
  destruct (Qc_leb (half a) (half b)) eqn:E; destruct (Z.leb_spec a b); auto.
  - rewrite Qc_leb_spec, half_le in E. lia.
  - assert (Qc_leb (half a) (half b) = true); [|congruence].
    rewrite Qc_leb_spec, half_le. auto.
Qed.
Lemma half_to_int z : Qc_to_int (half (2 * z)) = z.
Proof.
  rewrite <- half_of_Z. unfold Qc_to_int, Qc_of_Z.
  assert (X : Qred (z # 1) = z # 1).
  { unfold Qred. pose proof (Z.ggcd_correct_divisors z 1) as P.
    pose proof (Z.ggcd_gcd z 1) as G.
    destruct (Z.ggcd z 1) as [g [aa bb]]. simpl in *.
    rewrite Z.gcd_1_r in G. subst g. destruct P as [P1 P2].
    assert (E1 : aa = z) by lia. assert (E2 : bb = 1) by lia. rewrite E1, E2. reflexivity. }
  change (this (Q2Qc (inject_Z z))) with (Qred (z # 1)). rewrite X. apply Z.quot_1_r.
Qed.

Lemma create_rational_range_half a b : 0 <= b - a + 1 ->
  create_rational_range (half a) (half b) =
    Ok (map (fun n => half (a + 2 * Z.of_nat n)) (seq 0 (Z.to_nat ((b - a + 2) / 2)))).
Proof.
  intros Hab. destruct (create_rational_range_spec (half a) (half b)) as (k & E & Hk).
  rewrite E. f_equal.
  assert (Ek : k = Z.to_nat ((b - a + 2) / 2)).
  { assert (HH : forall n : nat, (n < k)%nat <-> (n < Z.to_nat ((b - a + 2) / 2))%nat).
    { intros n. rewrite Hk, half_of_Z, half_one, !half_add, half_lt.
      transitivity (Z.of_nat n < (b - a + 2) / 2); [|lia].
      pose proof (Z.div_mod (b - a + 2) 2) as D. pose proof (Z.mod_pos_bound (b - a + 2) 2) as M.
      lia. }
    destruct (Nat.lt_total k (Z.to_nat ((b - a + 2) / 2))) as [X|[X|X]]; auto; exfalso.
    - apply HH in X. lia.
    - apply HH in X. lia. }
  rewrite Ek. apply map_ext. intros n. rewrite half_of_Z, half_add. reflexivity.
Qed.

Lemma create_rational_range_half_nil a b : b - a + 1 < 0 ->
  create_rational_range (half a) (half b) = Ok [].
Proof.
  intros Hab. destruct (create_rational_range_spec (half a) (half b)) as (k & E & Hk).
  rewrite E. destruct k; [reflexivity|]. exfalso.
  assert (X : (0 < S k)%nat) by lia. apply Hk in X.
  rewrite half_of_Z, half_one, !half_add, half_lt in X. simpl in X. lia.
Qed.

Lemma create_spin_range_half j : create_spin_range (half j) = Ok (map half (spin_range2 j)).
Proof.
  unfold create_spin_range, spin_range2. rewrite half_opp, map_map.
  destruct (Z_lt_le_dec (j + 1) 0) as [N|N].
  - rewrite create_rational_range_half_nil by lia.
    replace (Z.to_nat (j + 1)) with O by lia. reflexivity.
  - destruct (Z.eq_dec j (-1)) as [->|N1].
    + rewrite create_rational_range_half_nil by lia. reflexivity.
    + rewrite create_rational_range_half by lia.
      replace ((j - - j + 2) / 2) with (j + 1); [reflexivity|].
      replace (j - - j + 2) with ((j + 1) * 2) by ring. rewrite Z.div_mul; lia.
Qed.

Lemma spin_range2_In j x : In x (spin_range2 j) <-> (- j <= x <= j /\ (Z.even (j - x) = true)).
Proof.
  unfold spin_range2. rewrite in_map_iff. split.
  - intros (n & E & Hn). apply in_seq in Hn. subst. split; [lia|].
    replace (j - (- j + 2 * Z.of_nat n)) with (2 * (j - Z.of_nat n)) by ring.
    rewrite Z.even_mul. reflexivity.
  - intros [B Ev]. apply Z.even_spec in Ev. destruct Ev as [m Hm].
    exists (Z.to_nat (j - m)). split; [lia|]. apply in_seq. lia.
Qed.
Lemma spin_range2_sorted j : StronglySorted Z.lt (spin_range2 j).
Proof.
  unfold spin_range2. generalize (Z.to_nat (j + 1)) as k. intros k.
  generalize 0%nat as s. induction k as [|k IH]; intros s; cbn [seq map]; constructor; auto.
  apply Forall_forall. intros x Hx. apply in_map_iff in Hx. destruct Hx as (n & <- & Hn).
  apply in_seq in Hn. lia.
Qed.
Lemma spin_range2_NoDup j : NoDup (spin_range2 j).
Proof.
  pose proof (spin_range2_sorted j) as S. induction S as [|a l S IH F]; constructor; auto.
  intros Hin. rewrite Forall_forall in F. specialize (F a Hin). lia.
Qed.
Lemma spin_range2_length j : length (spin_range2 j) = Z.to_nat (j + 1).
Proof. unfold spin_range2. rewrite map_length, seq_length. reflexivity. Qed.
Lemma spin_range2_opp j x : In x (spin_range2 j) <-> In (- x) (spin_range2 j).
Proof.
  rewrite !spin_range2_In. replace (j - - x) with (j - x + 2 * x) by ring.
  rewrite Z.even_add, Z.even_mul. simpl. destruct (Z.even (j - x)); simpl; intuition lia.
Qed.
Lemma spin_range2_0 : spin_range2 0 = [0].
Proof. reflexivity. Qed.

(** ** LS couplings *)
Lemma ls_range_L max_L : -1 <= max_L ->
  create_rational_range (Qc_of_Z 0) (Qc_of_Z max_L) =
    Ok (map (fun n => half (2 * Z.of_nat n)) (seq 0 (Z.to_nat (max_L + 1)))).
Proof.
  intros H. rewrite !half_of_Z. destruct (Z.eq_dec max_L (-1)) as [->|N].
  - rewrite create_rational_range_half_nil by lia. reflexivity.
  - rewrite create_rational_range_half by lia.
    replace ((2 * max_L - 2 * 0 + 2) / 2) with (max_L + 1); [reflexivity|].
    replace (2 * max_L - 2 * 0 + 2) with ((max_L + 1) * 2) by ring. rewrite Z.div_mul; lia.
Qed.
Lemma ls_range_L_neg max_L : max_L < 0 ->
  create_rational_range (Qc_of_Z 0) (Qc_of_Z max_L) = Ok [].
Proof. intros H. rewrite !half_of_Z. apply create_rational_range_half_nil. lia. Qed.

Lemma cmp_pair_comparable (l : list (Z * Qc)) : comparable l.
Proof.
  intros [a b] [c d] _ _. unfold cmp, Cmp_prod, cmp_then, cmp, Cmp_Z, Cmp_Qc. simpl.
  destruct (a ?= c); eexists; reflexivity.
Qed.

Lemma generate_ls_sound_complete J s1 s2 max_L : 0 <= s1 -> 0 <= s2 ->
  exists ls,
    generate_ls_couplings (half J) (half s1) (half s2) max_L = Ok ls /\
    NoDup ls /\ StronglySorted clt ls /\
    (forall L S, In (L, S) ls <->
       exists S2, S = half S2 /\ 0 <= L <= max_L /\
         Z.abs (s1 - s2) <= S2 <= s1 + s2 /\ Z.even (s1 + s2 - S2) = true /\
         Z.abs (2 * L - S2) <= J <= 2 * L + S2).
Proof.
  intros H1 H2. unfold generate_ls_couplings.
  rewrite half_sub, half_abs, half_add.
  rewrite (create_rational_range_half (Z.abs (s1 - s2)) (s1 + s2)) by lia.
  assert (HL : exists Ls, create_rational_range (Qc_of_Z 0) (Qc_of_Z max_L) = Ok Ls /\
            (forall q, In q Ls <-> exists L, q = half (2 * L) /\ 0 <= L <= max_L)).
  { destruct (Z_lt_le_dec max_L 0) as [N|N].
    - exists []. split; [apply ls_range_L_neg; auto|]. simpl. intros q. split; [tauto|].
      intros (L & _ & B). lia.
    - eexists; split; [apply ls_range_L; lia|]. intros q. rewrite in_map_iff. split.
      + intros (n & <- & Hn). apply in_seq in Hn. exists (Z.of_nat n). split; [auto|lia].
      + intros (L & -> & B). exists (Z.to_nat L). split; [f_equal; lia|apply in_seq; lia]. }
  destruct HL as (Ls & -> & HLs). cbn [bind].
  set (pool := to_set _).
  destruct (sorted_ok pool (cmp_pair_comparable _)) as [ls Els].
  exists ls. rewrite Els. split; auto.
  pose proof (sorted_perm _ _ Els) as P.
  assert (Hnd : NoDup ls) by (eapply Permutation_NoDup; [exact P|apply to_set_NoDup]).
  split; auto. split.
  { apply sorted_NoDup_strict; auto. eapply sorted_sorted; eauto. }
  intros L S.
  transitivity (In (L, S) pool).
  { split; intros X; eapply Permutation_in; [symmetry; exact P|exact X|exact P|exact X]. }
  unfold pool. rewrite to_set_In, in_flat_map.
  split.
  - intros (q & Hq & HS). apply HLs in Hq. destruct Hq as (L' & -> & BL).
    apply in_flat_map in HS. destruct HS as (S' & HS' & HS).
    apply in_map_iff in HS'. destruct HS' as (n & <- & Hn). apply in_seq in Hn.
    rewrite half_sub, half_abs, half_add, !half_leb in HS.
    destruct (_ && _) eqn:E; [|destruct HS].
    destruct HS as [X|[]]. rewrite half_to_int in X. inversion X; subst.
    apply andb_true_iff in E. rewrite !Z.leb_le in E.
    pose proof (Z.div_mod (s1 + s2 - Z.abs (s1 - s2) + 2) 2) as D.
    pose proof (Z.mod_pos_bound (s1 + s2 - Z.abs (s1 - s2) + 2) 2) as M.
    exists (Z.abs (s1 - s2) + 2 * Z.of_nat n). split; auto. split; auto.
    assert (EV : Z.even (s1 + s2 - (Z.abs (s1 - s2) + 2 * Z.of_nat n)) = true).
    { replace (s1 + s2 - (Z.abs (s1 - s2) + 2 * Z.of_nat n))
        with (2 * (Z.min s1 s2 - Z.of_nat n)) by lia.
      rewrite Z.even_mul. reflexivity. }
    split; [lia|]. split; auto.
  - intros (S2 & -> & BL & BS & EV & T).
    exists (half (2 * L)). split; [apply HLs; eauto|].
    apply in_flat_map. exists (half S2).
    apply Z.even_spec in EV. destruct EV as [m Hm].
    split.
    + apply in_map_iff. exists (Z.to_nat (Z.min s1 s2 - m)). split; [apply (f_equal half); lia|].
      apply in_seq.
      pose proof (Z.div_mod (s1 + s2 - Z.abs (s1 - s2) + 2) 2) as D.
      pose proof (Z.mod_pos_bound (s1 + s2 - Z.abs (s1 - s2) + 2) 2) as M.
      lia.
    + rewrite half_sub, half_abs, half_add, !half_leb, half_to_int.
      replace (_ && _) with true; [left; reflexivity|].
      symmetry. apply andb_true_iff. rewrite !Z.leb_le. lia.
Qed.

Lemma minus_one_pow_sq L : minus_one_pow L * minus_one_pow L = 1.
Proof. unfold minus_one_pow. destruct (Z.even L); reflexivity. Qed.
