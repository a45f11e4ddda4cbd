(** Representations of spinor matrices *)
From Coq Require Import ZArith Reals List Arith Bool Lra Lia Psatz.
From Coquelicot Require Import Complex.
From Verif Require Import Prelude Expr Spin SpinFacts Decay Sums Wigner WignerFacts SpecSpin SpecKin SpecDPD SpecWigner SpecCovariant.
Import ListNotations.
Local Open Scope R_scope.

Definition Qterm (n a b : nat) (l : mat2) (i : nat) : R :=
  if ((i <=? a) && (i <=? b) && (a - i <=? n - b))%nat
  then bin b i * m11 l ^ i * m21 l ^ (b - i) * (bin (n - b) (a - i) * m12 l ^ (a - i) * m22 l ^ (n - b - (a - i)))
  else 0.
Definition Q (n a b : nat) (l : mat2) : R := Rsum (seq 0 (S n)) (Qterm n a b l).

Lemma Q_poly n b l x y : (b <= n)%nat ->
  Rsum (seq 0 (S n)) (fun a => Q n a b l * (x ^ a * y ^ (n - a)))
  = (m11 l * x + m21 l * y) ^ b * (m12 l * x + m22 l * y) ^ (n - b).
Proof.
  intros Hb. rewrite !binom, Rsum_mult, regroup. replace (b + (n - b))%nat with n by lia.
  apply Rsum_ext. intros a Ha. apply seq_in in Ha. unfold Q. rewrite <- Rsum_scal_r.
  apply Rsum_ext. intros i Hi. apply seq_in in Hi. unfold Qterm.
  destruct (Nat.leb_spec i a) as [H1|H1]; [|simpl; ring].
  destruct (Nat.leb_spec i b) as [H2|H2]; [|simpl; ring].
  destruct (Nat.leb_spec (a - i) (n - b)) as [H4|H4]; [|simpl; ring]. cbn [andb].
  rewrite !Rpow_mult_distr.
  replace (x ^ a) with (x ^ i * x ^ (a - i)) by (rewrite <- pow_add; f_equal; lia).
  replace (y ^ (n - a)) with (y ^ (b - i) * y ^ (n - b - (a - i))) by (rewrite <- pow_add; f_equal; lia).
  ring.
Qed.

(** Uniqueness of homogeneous polynomials *)
Lemma homogeneous n (f g : nat -> R) :
  (forall x y, Rsum (seq 0 (S n)) (fun a => f a * (x ^ a * y ^ (n - a))) = Rsum (seq 0 (S n)) (fun a => g a * (x ^ a * y ^ (n - a)))) ->
  forall a, (a <= n)%nat -> f a = g a.
Proof.
  intros H. apply poly_unique. intros x. specialize (H x 1).
  etransitivity; [|etransitivity; [exact H|]]; apply Rsum_ext; intros; rewrite pow1; ring.
Qed.

Lemma Q_mul n e b l l' : (b <= n)%nat -> (e <= n)%nat ->
  Rsum (seq 0 (S n)) (fun a => Q n e a l * Q n a b l') = Q n e b (mul2 l l').
Proof.
  intros Hb He. apply (homogeneous n (fun e => Rsum (seq 0 (S n)) (fun a => Q n e a l * Q n a b l')) (fun e => Q n e b (mul2 l l'))); auto.
  intros x y. rewrite Q_poly by auto.
  transitivity (Rsum (seq 0 (S n)) (fun a => Q n a b l' * Rsum (seq 0 (S n)) (fun e => Q n e a l * (x ^ e * y ^ (n - e))))).
  - rewrite (Rsum_ext (seq 0 (S n)) _ (fun a => Rsum (seq 0 (S n)) (fun k => Q n a k l * Q n k b l' * (x ^ a * y ^ (n - a)))))
      by (intros; symmetry; apply Rsum_scal_r).
    rewrite Rsum_swap. apply Rsum_ext. intros a _. rewrite <- Rsum_scal_l. apply Rsum_ext. intros k _. ring.
  - rewrite (Rsum_ext _ _ (fun a => Q n a b l' * ((m11 l * x + m21 l * y) ^ a * (m12 l * x + m22 l * y) ^ (n - a)))).
    2:{ intros a Ha. apply seq_in in Ha. rewrite Q_poly by auto. reflexivity. }
    rewrite Q_poly by auto. cbn [mul2 m11 m12 m21 m22]. f_equal; f_equal; ring.
Qed.

Lemma Q_rot n a b beta : (b <= n)%nat -> Q n a b (spinor_rot beta) = M n a b (cos (beta / 2)) (sin (beta / 2)).
Proof.
  intros Hb. unfold Q, M. apply Rsum_ext. intros i Hi. apply seq_in in Hi. unfold Qterm, Mterm. cbn [spinor_rot m11 m12 m21 m22].
  destruct (Nat.leb_spec i a) as [H1|H1]; [|reflexivity]. destruct (Nat.leb_spec i b) as [H2|H2]; [|reflexivity].
  destruct (Nat.leb_spec (a - i) (n - b)), (Nat.leb_spec (a + b) (n + i)); cbn [andb]; try reflexivity; exfalso; lia.
Qed.
Lemma Q_scale n a b t l : (a <= n)%nat -> (b <= n)%nat -> Q n a b (scale2 t l) = t ^ n * Q n a b l.
Proof.
  intros Ha Hb. unfold Q. rewrite <- Rsum_scal_l. apply Rsum_ext. intros i Hi. apply seq_in in Hi. unfold Qterm.
  cbn [scale2 m11 m12 m21 m22].
  destruct (Nat.leb_spec i a) as [H1|H1]; [|simpl; ring]. destruct (Nat.leb_spec i b) as [H2|H2]; [|simpl; ring].
  destruct (Nat.leb_spec (a - i) (n - b)) as [H4|H4]; [|simpl; ring]. cbn [andb]. rewrite !Rpow_mult_distr.
  replace (t ^ n) with (t ^ i * t ^ (b - i) * t ^ (a - i) * t ^ (n - b - (a - i))); [ring|].
  rewrite <- !pow_add. f_equal. lia.
Qed.
Lemma W_sq n a : W n a * W n a = INR (fact a) * INR (fact (n - a)).
Proof. unfold W. apply sqrt_sqrt, Rlt_le, Rmult_lt_0_compat; apply fact_pos. Qed.
Definition transpose2 (l : mat2) : mat2 := M2 (m11 l) (m21 l) (m12 l) (m22 l).
Lemma Q_transpose n a b l : (a <= n)%nat -> (b <= n)%nat ->
  W n a / W n b * Q n a b (transpose2 l) = W n b / W n a * Q n b a l.
Proof.
  intros Ha Hb. pose proof (W_pos n a) as PA. pose proof (W_pos n b) as PB.
  apply (Rmult_eq_reg_l (W n a * W n b)); [|apply Rgt_not_eq, Rmult_lt_0_compat; lra].
  replace (W n a * W n b * (W n a / W n b * Q n a b (transpose2 l))) with (W n a * W n a * Q n a b (transpose2 l)) by (field; lra).
  replace (W n a * W n b * (W n b / W n a * Q n b a l)) with (W n b * W n b * Q n b a l) by (field; lra).
  rewrite !W_sq. unfold Q. rewrite <- !Rsum_scal_l. apply Rsum_ext. intros i Hi. apply seq_in in Hi. unfold Qterm.
  cbn [transpose2 m11 m12 m21 m22].
  destruct (Nat.leb_spec i a) as [H1|H1]; [|rewrite andb_false_r; simpl; ring].
  destruct (Nat.leb_spec i b) as [H2|H2]; [|simpl; ring].
  destruct (Nat.leb_spec (a - i) (n - b)) as [H4|H4], (Nat.leb_spec (b - i) (n - a)) as [H5|H5]; try (exfalso; lia); [|simpl; ring].
  cbn [andb]. unfold bin. replace (n - a - (b - i))%nat with (n - b - (a - i))%nat by lia.
  field. repeat split; apply INR_fact_neq_0.
Qed.

(** ** Doubled spins *)
Lemma up_pidx j m : up j m = pidx j m.
Proof. reflexivity. Qed.
Lemma down_up j m : is_projection j m = true -> down j m = (Z.to_nat j - pidx j m)%nat.
Proof.
  intros P. destruct (is_projection_ex j m P) as (k & Hk & -> & -> & Hj). unfold down.
  replace (j - (2 * Z.of_nat k - j))%Z with ((j - Z.of_nat k) * 2)%Z by lia. rewrite Z.div_mul by lia. lia.
Qed.
Lemma weight_W j m : is_projection j m = true -> weight j m = W (Z.to_nat j) (pidx j m).
Proof. intros P. unfold weight, W. rewrite (down_up j m P). reflexivity. Qed.
Lemma spin_matrix_Q j l m m' : is_projection j m = true -> is_projection j m' = true ->
  spin_matrix j l m m' = W (Z.to_nat j) (pidx j m) / W (Z.to_nat j) (pidx j m') * Q (Z.to_nat j) (pidx j m) (pidx j m') l.
Proof.
  intros P P'. unfold spin_matrix. rewrite !weight_W, (down_up j m' P') by auto. reflexivity.
Qed.

Lemma spin_matrix_mul j l l' m m' : is_projection j m = true -> is_projection j m' = true ->
  Rsum (spin_range2 j) (fun k => spin_matrix j l m k * spin_matrix j l' k m') = spin_matrix j (mul2 l l') m m'.
Proof.
  intros P P'. destruct (is_projection_ex j m P) as (a & Ha & _ & Ea & Hj). destruct (is_projection_ex j m' P') as (b & Hb & _ & Eb & _).
  rewrite Rsum_range2 by auto. rewrite (spin_matrix_Q j _ m m') by auto. rewrite Ea, Eb, <- Q_mul by auto. rewrite <- Rsum_scal_l.
  apply Rsum_ext. intros k Hk. apply seq_in in Hk. destruct (pidx_k j k Hj Hk) as [Pk Ek]. rewrite !spin_matrix_Q by auto.
  rewrite Ek, Ea, Eb. pose proof (W_pos (Z.to_nat j) k). pose proof (W_pos (Z.to_nat j) b). field. lra.
Qed.
Lemma spin_matrix_rot j a m m' : is_projection j m = true -> is_projection j m' = true ->
  spin_matrix j (spinor_rot a) m m' = wigner_d j m m' a.
Proof.
  intros P P'. destruct (is_projection_ex j m P) as (k & Hk & _ & Ek & _). destruct (is_projection_ex j m' P') as (k' & Hk' & _ & Ek' & _).
  rewrite spin_matrix_Q, wigner_d_in by auto. rewrite Ek, Ek', Q_rot, wd_M by auto. unfold Rdiv. ring.
Qed.
Lemma spin_matrix_scale j t l m m' : is_projection j m = true -> is_projection j m' = true ->
  spin_matrix j (scale2 t l) m m' = t ^ Z.to_nat j * spin_matrix j l m m'.
Proof.
  intros P P'. destruct (is_projection_ex j m P) as (k & Hk & _ & Ek & _). destruct (is_projection_ex j m' P') as (k' & Hk' & _ & Ek' & _).
  rewrite !spin_matrix_Q by auto. rewrite Ek, Ek', Q_scale by auto. ring.
Qed.
Lemma spin_matrix_transpose j l m m' : is_projection j m = true -> is_projection j m' = true ->
  spin_matrix j (transpose2 l) m m' = spin_matrix j l m' m.
Proof.
  intros P P'. destruct (is_projection_ex j m P) as (k & Hk & _ & Ek & _). destruct (is_projection_ex j m' P') as (k' & Hk' & _ & Ek' & _).
  rewrite !spin_matrix_Q by auto. rewrite Ek, Ek'. apply Q_transpose; auto.
Qed.
Lemma one_rot : one2 = spinor_rot 0.
Proof. unfold one2, spinor_rot. replace (0 / 2) with 0 by field. rewrite cos_0, sin_0. f_equal; ring. Qed.
Lemma spin_matrix_one j m m' : is_projection j m = true -> is_projection j m' = true ->
  spin_matrix j one2 m m' = if Z.eqb m m' then 1 else 0.
Proof.
  intros P P'. destruct (is_projection_ex j m P) as (k & Hk & Mk & Ek & _). destruct (is_projection_ex j m' P') as (k' & Hk' & Mk' & Ek' & _).
  rewrite one_rot, spin_matrix_rot, wigner_d_in by auto. rewrite Ek, Ek', wd_0 by auto.
  destruct (Nat.eqb_spec k k'), (Z.eqb_spec m m'); auto; subst; exfalso; lia.
Qed.
(** The matrix is the action on products of spinor components, and it is determined by that. *)
Lemma spin_state_mul j l m' x y : is_projection j m' = true ->
  spin_state j m' (m11 l * x + m21 l * y) (m12 l * x + m22 l * y)
  = Rsum (spin_range2 j) (fun m => spin_matrix j l m m' * spin_state j m x y).
Proof.
  intros P'. destruct (is_projection_ex j m' P') as (b & Hb & _ & Eb & Hj). unfold spin_state at 1.
  rewrite weight_W, (down_up j m' P'), up_pidx, Eb by auto. rewrite <- Q_poly by auto. rewrite Rsum_range2 by auto.
  unfold Rdiv at 1. rewrite <- Rsum_scal_r. apply Rsum_ext. intros k Hk. apply seq_in in Hk. destruct (pidx_k j k Hj Hk) as [Pk Ek].
  rewrite spin_matrix_Q by auto. unfold spin_state. rewrite weight_W, (down_up j _ Pk) by auto. unfold up. fold (pidx j (- j + 2 * Z.of_nat k)). rewrite Ek, Eb.
  pose proof (W_pos (Z.to_nat j) k). pose proof (W_pos (Z.to_nat j) b). field. lra.
Qed.
Lemma spin_state_unique j (f g : Z -> R) :
  (forall x y, Rsum (spin_range2 j) (fun m => f m * spin_state j m x y) = Rsum (spin_range2 j) (fun m => g m * spin_state j m x y)) ->
  forall m, is_projection j m = true -> f m = g m.
Proof.
  intros H m P. destruct (is_projection_ex j m P) as (a & Ha & Ma & Ea & Hj).
  set (h := fun (f : Z -> R) k => f (- j + 2 * Z.of_nat k)%Z / W (Z.to_nat j) k).
  assert (X : forall f x y, Rsum (spin_range2 j) (fun m => f m * spin_state j m x y)
    = Rsum (seq 0 (S (Z.to_nat j))) (fun a => h f a * (x ^ a * y ^ (Z.to_nat j - a)))).
  { intros f' x y. rewrite Rsum_range2 by auto. apply Rsum_ext. intros k Hk. apply seq_in in Hk. destruct (pidx_k j k Hj Hk) as [Pk Ek].
    unfold spin_state, h. rewrite weight_W, (down_up j _ Pk), up_pidx, Ek by auto. pose proof (W_pos (Z.to_nat j) k). field. lra. }
  assert (E : h f a = h g a).
  { apply (homogeneous (Z.to_nat j)); auto. intros x y. rewrite <- !X. apply H. }
  unfold h in E. replace (- j + 2 * Z.of_nat a)%Z with m in E by lia. pose proof (W_pos (Z.to_nat j) a).
  apply (Rmult_eq_reg_r (/ W (Z.to_nat j) a)); [exact E|]. apply Rinv_neq_0_compat. lra.
Qed.
