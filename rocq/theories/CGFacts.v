(** Symmetries of Clebsch-Gordan coefficients. *)
From Coq Require Import ZArith List Bool Reals Arith Lra Lia Permutation.
From Verif Require Import Sums Wigner CG WignerFacts.
Import ListNotations.
Local Open Scope Z_scope.

Lemma even_half z : Z.even z = true -> exists q, z = 2 * q.
Proof. rewrite Z.even_spec. intros [q ->]. eauto. Qed.
Lemma half_2 q : 2 * q / 2 = q.
Proof. rewrite Z.mul_comm. apply Z.div_mul. lia. Qed.

Lemma couples_spec j1 m1 j2 m2 j3 m3 : cg_couples j1 m1 j2 m2 j3 m3 = true <->
  is_projection j1 m1 = true /\ is_projection j2 m2 = true /\ is_projection j3 m3 = true /\
  m1 + m2 = m3 /\ Z.abs (j1 - j2) <= j3 <= j1 + j2 /\ Z.even (j1 + j2 - j3) = true.
Proof.
  unfold cg_couples, triangle. rewrite !andb_true_iff, !Z.leb_le, Z.eqb_eq. tauto.
Qed.

Lemma Rsum_rev_seq n f : Rsum (seq 0 (S n)) f = Rsum (seq 0 (S n)) (fun k => f (n - k)%nat).
Proof.
  rewrite <- (Rsum_map (seq 0 (S n)) (fun k => (n - k)%nat) f). apply Rsum_perm. apply NoDup_Permutation.
  - apply seq_NoDup.
  - apply (NoDup_map_inv (fun k => (n - k)%nat)). rewrite map_map.
    rewrite (map_ext_in _ (fun k => k)). { rewrite map_id. apply seq_NoDup. }
    intros k Hk. apply seq_in in Hk. lia.
  - intros x. rewrite in_map_iff, seq_in. split.
    + intros H. exists (n - x)%nat. rewrite seq_in. lia.
    + intros (y & <- & H). apply seq_in in H. lia.
Qed.

(** The two reindexings. *)
Lemma racah_swap j1 m1 j2 m2 j3 k q : j1 + j2 - j3 = 2 * q -> Z.of_nat k <= q ->
  Z.even (j1 - m1) = true -> Z.even (j2 - m2) = true ->
  racah_term j2 m2 j1 m1 j3 (Z.to_nat q - k)
  = ((-1) ^ Z.to_nat q * racah_term j1 m1 j2 m2 j3 k)%R.
Proof.
  intros Hq Hk E1 E2. apply even_half in E1, E2. destruct E1 as [b Hb], E2 as [b' Hb'].
  unfold racah_term.
  replace (j2 + j1 - j3) with (2 * q) by lia. rewrite Hq, Hb, Hb'.
  replace (j1 + m1) with (2 * (j1 - b)) by lia. replace (j2 + m2) with (2 * (j2 - b')) by lia.
  replace (j3 - j1 + m2) with (2 * (j2 - q - b')) by lia.
  replace (j3 - j2 - m1) with (2 * (b - q)) by lia.
  replace (j3 - j2 + m1) with (2 * (j1 - q - b)) by lia.
  replace (j3 - j1 - m2) with (2 * (b' - q)) by lia.
  rewrite !half_2. rewrite Nat2Z.inj_sub, Z2Nat.id by lia.
  replace (q - (q - Z.of_nat k)) with (Z.of_nat k) by lia.
  replace (b' - (q - Z.of_nat k)) with (b' - q + Z.of_nat k) by lia.
  replace (j1 - b - (q - Z.of_nat k)) with (j1 - q - b + Z.of_nat k) by lia.
  replace (j2 - q - b' + (q - Z.of_nat k)) with (j2 - b' - Z.of_nat k) by lia.
  replace (b - q + (q - Z.of_nat k)) with (b - Z.of_nat k) by lia.
  destruct (Z.leb_spec 0 (Z.of_nat k)); [|lia]. destruct (Z.leb_spec 0 (q - Z.of_nat k)); [|lia].
  destruct (Z.leb_spec 0 (b' - q + Z.of_nat k)), (Z.leb_spec 0 (j1 - q - b + Z.of_nat k)),
    (Z.leb_spec 0 (j2 - b' - Z.of_nat k)), (Z.leb_spec 0 (b - Z.of_nat k));
    cbn [andb]; try ring.
  assert (S : ((-1) ^ (Z.to_nat q - k) = (-1) ^ Z.to_nat q * (-1) ^ k)%R).
  { rewrite <- pow_add. apply minus_one_pow_parity. apply Nat.even_spec. exists (Z.to_nat q). lia. }
  rewrite S. unfold Rdiv.
  replace (fz (q - Z.of_nat k) * fz (Z.of_nat k) * fz (b' - q + Z.of_nat k) * fz (j1 - q - b + Z.of_nat k)
     * fz (j2 - b' - Z.of_nat k) * fz (b - Z.of_nat k))%R
    with (fz (Z.of_nat k) * fz (q - Z.of_nat k) * fz (b - Z.of_nat k) * fz (j2 - b' - Z.of_nat k)
     * fz (j1 - q - b + Z.of_nat k) * fz (b' - q + Z.of_nat k))%R by ring.
  ring.
Qed.
Lemma racah_flip j1 m1 j2 m2 j3 k q : j1 + j2 - j3 = 2 * q -> Z.of_nat k <= q ->
  Z.even (j1 - m1) = true -> Z.even (j2 - m2) = true ->
  racah_term j1 (- m1) j2 (- m2) j3 (Z.to_nat q - k)
  = ((-1) ^ Z.to_nat q * racah_term j1 m1 j2 m2 j3 k)%R.
Proof.
  intros Hq Hk E1 E2. apply even_half in E1, E2. destruct E1 as [b Hb], E2 as [b' Hb'].
  unfold racah_term. rewrite Hq, Hb.
  replace (j1 - - m1) with (2 * (j1 - b)) by lia. replace (j2 + - m2) with (2 * b') by lia.
  replace (j2 + m2) with (2 * (j2 - b')) by lia.
  replace (j3 - j2 + - m1) with (2 * (b - q)) by lia.
  replace (j3 - j1 - - m2) with (2 * (j2 - q - b')) by lia.
  replace (j3 - j2 + m1) with (2 * (j1 - q - b)) by lia.
  replace (j3 - j1 - m2) with (2 * (b' - q)) by lia.
  rewrite !half_2. rewrite Nat2Z.inj_sub, Z2Nat.id by lia.
  replace (q - (q - Z.of_nat k)) with (Z.of_nat k) by lia.
  replace (b' - (q - Z.of_nat k)) with (b' - q + Z.of_nat k) by lia.
  replace (j1 - b - (q - Z.of_nat k)) with (j1 - q - b + Z.of_nat k) by lia.
  replace (j2 - q - b' + (q - Z.of_nat k)) with (j2 - b' - Z.of_nat k) by lia.
  replace (b - q + (q - Z.of_nat k)) with (b - Z.of_nat k) by lia.
  destruct (Z.leb_spec 0 (Z.of_nat k)); [|lia]. destruct (Z.leb_spec 0 (q - Z.of_nat k)); [|lia].
  destruct (Z.leb_spec 0 (b' - q + Z.of_nat k)), (Z.leb_spec 0 (j1 - q - b + Z.of_nat k)),
    (Z.leb_spec 0 (j2 - b' - Z.of_nat k)), (Z.leb_spec 0 (b - Z.of_nat k));
    cbn [andb]; try ring.
  assert (S : ((-1) ^ (Z.to_nat q - k) = (-1) ^ Z.to_nat q * (-1) ^ k)%R).
  { rewrite <- pow_add. apply minus_one_pow_parity. apply Nat.even_spec. exists (Z.to_nat q). lia. }
  rewrite S. unfold Rdiv.
  replace (fz (q - Z.of_nat k) * fz (Z.of_nat k) * fz (j1 - q - b + Z.of_nat k) * fz (b' - q + Z.of_nat k)
     * fz (b - Z.of_nat k) * fz (j2 - b' - Z.of_nat k))%R
    with (fz (Z.of_nat k) * fz (q - Z.of_nat k) * fz (b - Z.of_nat k) * fz (j2 - b' - Z.of_nat k)
     * fz (j1 - q - b + Z.of_nat k) * fz (b' - q + Z.of_nat k))%R by ring.
  ring.
Qed.

Lemma is_projection_opp j m : is_projection j (- m) = is_projection j m.
Proof.
  apply eq_true_iff_eq. rewrite !is_projection_spec.
  replace (j - - m) with (j - m + 2 * m) by ring. rewrite Z.even_add, Z.even_mul. simpl.
  destruct (Z.even (j - m)); simpl; intuition lia.
Qed.
Lemma couples_swap j1 m1 j2 m2 j3 m3 : cg_couples j2 m2 j1 m1 j3 m3 = cg_couples j1 m1 j2 m2 j3 m3.
Proof.
  apply eq_true_iff_eq. rewrite !couples_spec. replace (j2 + j1 - j3) with (j1 + j2 - j3) by ring.
  intuition lia.
Qed.
Lemma couples_flip j1 m1 j2 m2 j3 m3 :
  cg_couples j1 (- m1) j2 (- m2) j3 (- m3) = cg_couples j1 m1 j2 m2 j3 m3.
Proof.
  apply eq_true_iff_eq. rewrite !couples_spec, !is_projection_opp. intuition lia.
Qed.

Definition cg_sign (j1 j2 j3 : Z) : R := ((-1) ^ Z.to_nat ((j1 + j2 - j3) / 2))%R.
Lemma cg_sign_sq j1 j2 j3 : (cg_sign j1 j2 j3 * cg_sign j1 j2 j3 = 1)%R.
Proof. unfold cg_sign. rewrite <- pow_add. replace (_ + _)%nat with (2 * Z.to_nat ((j1 + j2 - j3) / 2))%nat by lia. apply pow_1_even. Qed.
Lemma cg_sign_comm j1 j2 j3 : cg_sign j2 j1 j3 = cg_sign j1 j2 j3.
Proof. unfold cg_sign. do 4 f_equal. lia. Qed.

Lemma cg_swap j1 m1 j2 m2 j3 m3 :
  cg j2 m2 j1 m1 j3 m3 = (cg_sign j1 j2 j3 * cg j1 m1 j2 m2 j3 m3)%R.
Proof.
  unfold cg. rewrite couples_swap. destruct (cg_couples j1 m1 j2 m2 j3 m3) eqn:E; [|ring].
  apply couples_spec in E. destruct E as (P1 & P2 & P3 & M & T & V).
  apply even_half in V. destruct V as [q Hq].
  replace (j2 + j1 - j3) with (j1 + j2 - j3) by ring.
  unfold cg_sign. rewrite Hq, half_2.
  replace (j3 - j2 + j1) with (j3 + j1 - j2) by ring.
  replace (j3 + j2 - j1) with (j3 - j1 + j2) by ring.
  replace (j2 + j1 + j3) with (j1 + j2 + j3) by ring.
  match goal with |- (sqrt ?a * sqrt ?b * ?s = _ * (sqrt ?a' * sqrt ?b' * ?s'))%R =>
    replace a with a' by (unfold Rdiv; ring); replace b with b' by ring;
    replace s with ((-1) ^ Z.to_nat q * s')%R end.
  - ring.
  - symmetry. rewrite Rsum_rev_seq, <- Rsum_scal_l. apply Rsum_ext. intros k Hk. apply seq_in in Hk.
    apply racah_swap; auto; try lia.
    + apply is_projection_spec in P1. tauto.
    + apply is_projection_spec in P2. tauto.
Qed.
Lemma cg_flip j1 m1 j2 m2 j3 m3 :
  cg j1 (- m1) j2 (- m2) j3 (- m3) = (cg_sign j1 j2 j3 * cg j1 m1 j2 m2 j3 m3)%R.
Proof.
  unfold cg. rewrite couples_flip. destruct (cg_couples j1 m1 j2 m2 j3 m3) eqn:E; [|ring].
  apply couples_spec in E. destruct E as (P1 & P2 & P3 & M & T & V).
  apply even_half in V. destruct V as [q Hq].
  unfold cg_sign. rewrite Hq, half_2.
  replace (j3 + - m3) with (j3 - m3) by ring. replace (j3 - - m3) with (j3 + m3) by ring.
  replace (j1 + - m1) with (j1 - m1) by ring. replace (j1 - - m1) with (j1 + m1) by ring.
  replace (j2 + - m2) with (j2 - m2) by ring. replace (j2 - - m2) with (j2 + m2) by ring.
  match goal with |- (sqrt ?a * sqrt ?b * ?s = _ * (sqrt ?a' * sqrt ?b' * ?s'))%R =>
    replace b with b' by ring;
    replace s with ((-1) ^ Z.to_nat q * s')%R end.
  - ring.
  - symmetry. rewrite Rsum_rev_seq, <- Rsum_scal_l. apply Rsum_ext. intros k Hk. apply seq_in in Hk.
    apply racah_flip; auto; try lia.
    + apply is_projection_spec in P1. tauto.
    + apply is_projection_spec in P2. tauto.
Qed.

(** The convention (Condon-Shortley): coupling of two spins 1/2. *)
Lemma cg_half_half_0 : cg 1 1 1 (-1) 0 0 = (/ sqrt 2)%R /\ cg 1 (-1) 1 1 0 0 = (- / sqrt 2)%R.
Proof.
  assert (S2 : (0 < sqrt 2)%R) by (apply sqrt_lt_R0; lra).
  unfold cg. change (cg_couples 1 1 1 (-1) 0 0) with true. change (cg_couples 1 (-1) 1 1 0 0) with true.
  split; cbv -[sqrt IZR Rdiv pow Rplus Rmult Ropp Rinv]; change R1 with 1%R; change R0 with 0%R;
    change (1 + 1)%R with 2%R; rewrite ?pow_O, ?pow_1;
    rewrite !Rmult_1_r, sqrt_1; (replace (1 / 2)%R with (/ 2)%R by field);
    rewrite sqrt_inv; field; lra.
Qed.

