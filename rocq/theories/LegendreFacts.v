(** The Wigner d functions d^n_00 are the Legendre polynomials. *)
From Coq Require Import ZArith List Bool Reals Arith Lra Lia Psatz.
From Verif Require Import Sums Wigner Prelude Spin SpinFacts WignerFacts JacobiFacts SpecObs.
Import ListNotations.
Local Open Scope R_scope.

Definition bin0 (n i : nat) : R := if (i <=? n)%nat then bin n i else 0.
(** Homogeneous polynomials of degree N *)
Definition hom (N : nat) (f : nat -> R) (a b : R) : R := Rsum (seq 0 (S N)) (fun i => f i * a ^ i * b ^ (N - i)).
Definition up (f : nat -> R) (i : nat) : R := match i with O => 0 | S k => f k end.
Lemma hom_a N f a b : a * hom N f a b = hom (S N) (up f) a b.
Proof.
  unfold hom. rewrite <- Rsum_scal_l. change (seq 0 (S (S N))) with (0%nat :: seq 1 (S N)). cbn [Rsum up].
  rewrite <- seq_shift, Rsum_map. rewrite !Rmult_0_l, Rplus_0_l. apply Rsum_ext. intros i _. cbn [up pow].
  replace (S N - S i)%nat with (N - i)%nat by lia. ring.
Qed.
Lemma hom_b N f a b : f (S N) = 0 -> b * hom N f a b = hom (S N) f a b.
Proof.
  intros Z0. unfold hom. rewrite <- Rsum_scal_l. rewrite (seq_S (S N)), Rsum_app. cbn [Rsum]. rewrite Nat.add_0_l, Z0.
  rewrite !Rmult_0_l, !Rplus_0_r. apply Rsum_ext. intros i Hi. apply seq_in in Hi.
  replace (S N - i)%nat with (S (N - i)) by lia. cbn [pow]. ring.
Qed.
Lemma hom_ext N f g a b : (forall i, (i <= N)%nat -> f i = g i) -> hom N f a b = hom N g a b.
Proof. intros H. apply Rsum_ext. intros i Hi. apply seq_in in Hi. rewrite H by exact Hi. reflexivity. Qed.
Lemma hom_plus N f g a b : hom N f a b + hom N g a b = hom N (fun i => f i + g i) a b.
Proof. unfold hom. rewrite <- Rsum_plus. apply Rsum_ext. intros; ring. Qed.
Lemma hom_scal N f c a b : c * hom N f a b = hom N (fun i => c * f i) a b.
Proof. unfold hom. rewrite <- Rsum_scal_l. apply Rsum_ext. intros; ring. Qed.

Definition sq (n i : nat) : R := bin0 n i * bin0 n i.
Lemma sq_out n i : (n < i)%nat -> sq n i = 0.
Proof. intros H. unfold sq, bin0. destruct (Nat.leb_spec i n); [lia|ring]. Qed.
Lemma bin_1 n : bin (S n) 1 = INR (S n).
Proof.
  unfold bin. replace (S n - 1)%nat with n by lia. rewrite fact_S, S_INR. change (fact 1) with 1%nat. change (INR 1) with 1.
  assert (X := fact_pos n). field. lra.
Qed.
Lemma bin_sym n k : (k <= n)%nat -> bin n (n - k) = bin n k.
Proof.
  intros H. unfold bin. replace (n - (n - k))%nat with k by lia. f_equal. ring.
Qed.
Lemma bin_last n : bin (S n) n = INR (S n).
Proof. rewrite <- bin_1. rewrite <- (bin_sym (S n) 1) by lia. f_equal. lia. Qed.
Lemma sq_in n i : (i <= n)%nat -> sq n i = bin n i * bin n i.
Proof. intros H. unfold sq, bin0. destruct (Nat.leb_spec i n); [reflexivity|lia]. Qed.
Lemma coefficient_identity n i : (i <= S (S n))%nat ->
  (INR n + 2) * sq (S (S n)) i =
  (2 * INR n + 3) * (up (sq (S n)) i + sq (S n) i) - (INR n + 1) * (up (up (sq n)) i - 2 * up (sq n) i + sq n i).
Proof.
  intros Hi. destruct i as [|[|k]]; cbn [up].
  - rewrite !sq_in, !bin_0 by lia. ring.
  - rewrite (sq_in (S (S n)) 1), (sq_in (S n) 1), (sq_in (S n) 0), (sq_in n 0), !bin_0, !bin_1 by lia.
    assert (E : sq n 1 = INR n * INR n).
    { destruct n; [rewrite sq_out by lia; simpl; ring|]. rewrite sq_in, bin_1 by lia. reflexivity. }
    rewrite E, !S_INR. ring.
  - destruct (Nat.eq_dec k n) as [->|N1].
    { rewrite (sq_in (S (S n))), (sq_in (S n)), (sq_in n n), !bin_n by lia. rewrite !(sq_out n) by lia. rewrite (sq_out (S n)) by lia. ring. }
    destruct (Nat.eq_dec (S k) n) as [<-|N2].
    { rewrite !sq_in by lia. rewrite (sq_out (S k)) by lia. rewrite !bin_n, !bin_last, !S_INR. ring. }
    assert (M : exists m, n = (k + m + 2)%nat) by (exists (n - k - 2)%nat; lia). destruct M as [m ->].
    rewrite !sq_in by lia. unfold bin.
    replace (S (S (k + m + 2)) - S (S k))%nat with (S (S m)) by lia.
    replace (S (k + m + 2) - S k)%nat with (S (S m)) by lia.
    replace (S (k + m + 2) - S (S k))%nat with (S m) by lia.
    replace (k + m + 2 - k)%nat with (S (S m)) by lia.
    replace (k + m + 2 - S k)%nat with (S m) by lia.
    replace (k + m + 2 - S (S k))%nat with m by lia.
    rewrite !fact_S, !S_INR, !plus_INR. change (INR 2) with 2.
    assert (F1 := fact_pos (k + m + 2)). assert (F2 := fact_pos k). assert (F3 := fact_pos m).
    assert (P1 := pos_INR k). assert (P2 := pos_INR m).
    field. repeat split; lra.
Qed.
Lemma bonnet n a b :
  (INR n + 2) * hom (S (S n)) (sq (S (S n))) a b =
  (2 * INR n + 3) * (a + b) * hom (S n) (sq (S n)) a b - (INR n + 1) * ((a - b) * (a - b)) * hom n (sq n) a b.
Proof.
  transitivity ((2 * INR n + 3) * (a * hom (S n) (sq (S n)) a b + b * hom (S n) (sq (S n)) a b) +
    - (INR n + 1) * (a * (a * hom n (sq n) a b) + -2 * (a * (b * hom n (sq n) a b)) + b * (b * hom n (sq n) a b))); [|ring].
  rewrite (hom_b (S n)) by (apply sq_out; lia). rewrite (hom_b n) by (apply sq_out; lia). rewrite (hom_b (S n)) by (apply sq_out; lia).
  rewrite !hom_a. rewrite !hom_scal, !hom_plus, !hom_scal, !hom_plus. apply hom_ext. intros i Hi.
  rewrite coefficient_identity by exact Hi. ring.
Qed.
Lemma legendre_hom n a b : a - b = 1 -> hom n (sq n) a b = legendre n (a + b).
Proof.
  intros D. assert (H : hom n (sq n) a b = legendre n (a + b) /\ hom (S n) (sq (S n)) a b = legendre (S n) (a + b)); [|apply H].
  induction n as [|n [IH1 IH2]].
  - split.
    + unfold hom. cbn. rewrite sq_in, bin_0 by lia. ring.
    + unfold hom. cbn. rewrite !sq_in by lia. rewrite bin_0, bin_n. ring.
  - split; [exact IH2|]. assert (B := bonnet n a b). rewrite IH1, IH2, D in B.
    change (legendre (S (S n)) (a + b)) with
      (((2 * INR n + 3) * (a + b) * legendre (S n) (a + b) - (INR n + 1) * legendre n (a + b)) / (INR n + 2)).
    assert (P := pos_INR n). apply (Rmult_eq_reg_l (INR n + 2)); [|lra]. rewrite B. field. lra.
Qed.
Theorem wigner_d_legendre n x : wigner_d (2 * Z.of_nat n) 0 0 x = legendre n (cos x).
Proof.
  assert (P : is_projection (2 * Z.of_nat n) 0 = true).
  { apply is_projection_spec. split; [lia|]. rewrite Z.sub_0_r. apply Z.even_spec. exists (Z.of_nat n). reflexivity. }
  rewrite wigner_d_in by exact P. unfold pidx. rewrite Z.add_0_r, (Z.mul_comm 2), Z.div_mul by lia.
  replace (Z.to_nat (Z.of_nat n * 2)) with (2 * n)%nat by lia. rewrite Nat2Z.id.
  set (c := cos (x / 2)). set (s := sin (x / 2)).
  assert (CS : c * c + s * s = 1) by (unfold c, s; assert (E := sin2_cos2 (x / 2)); unfold Rsqr in E; lra).
  assert (CX : cos x = c * c + - (s * s)).
  { replace x with (2 * (x / 2)) at 1 by field. rewrite cos_2a. fold c s. ring. }
  rewrite CX, <- legendre_hom by lra.
  unfold wd. fold c s. replace (2 * n - n)%nat with n by lia.
  assert (F := fact_pos n).
  replace (INR (fact n) * INR (fact n) * INR (fact n) * INR (fact n)) with ((INR (fact n) * INR (fact n)) * (INR (fact n) * INR (fact n))) by ring.
  rewrite sqrt_square by (apply Rlt_le, Rmult_lt_0_compat; assumption).
  replace (seq 0 (S (2 * n))) with (seq 0 (S n) ++ seq (S n) n) by (rewrite <- seq_app; f_equal; lia).
  rewrite Rsum_app, (Rsum_zero (seq (S n) n)).
  2:{ intros i Hi. apply in_seq in Hi. unfold wd_term. destruct (Nat.leb_spec i n); [lia|reflexivity]. }
  rewrite Rplus_0_r, <- Rsum_scal_l. unfold hom. apply Rsum_ext. intros i Hi. apply seq_in in Hi.
  unfold wd_term. destruct (Nat.leb_spec i n); [|lia]. destruct (Nat.leb_spec (n + n) (2 * n + i)); [|lia]. cbn [andb].
  rewrite sq_in by exact Hi. unfold bin.
  replace (2 * i + 2 * n - n - n)%nat with (2 * i)%nat by lia. replace (n + n - 2 * i)%nat with (2 * (n - i))%nat by lia.
  replace (2 * n + i - n - n)%nat with i by lia. rewrite !pow_mult.
  replace (- (s * s)) with (-1 * s ^ 2) by ring. replace (c * c) with (c ^ 2) by ring.
  rewrite (Rpow_mult_distr (-1)).
  assert (G1 := fact_pos i). assert (G2 := fact_pos (n - i)). field. repeat split; lra.
Qed.
