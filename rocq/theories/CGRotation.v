(** Clebsch-Gordan coefficients commute with the representations of spinor matrices *)
From Coq Require Import ZArith Reals List Arith Bool Lra Lia Psatz.
From Coquelicot Require Import Complex.
From Verif Require Import Prelude Expr Spin SpinFacts Decay Sums Wigner WignerFacts CG SpecSpin SpecKin SpecDPD SpecWigner WignerFrames SpecCovariant CovariantRep.
Import ListNotations.
Local Open Scope R_scope.

(** A sum with terms in a window only *)
Lemma Rsum_window n off b (h : nat -> R) : (off + b <= n)%nat ->
  (forall i, (i <= n)%nat -> (i < off \/ off + b < i)%nat -> h i = 0) ->
  Rsum (seq 0 (S n)) h = Rsum (seq 0 (S b)) (fun s => h (off + s)%nat).
Proof.
  intros Hn Z. replace (S n) with (off + (S b + (n - off - b)))%nat by lia. rewrite !seq_app, !Rsum_app.
  rewrite (Rsum_zero (seq 0 off)).
  2:{ intros i I. apply in_seq in I. apply Z; lia. }
  rewrite (Rsum_zero (seq _ (n - off - b))).
  2:{ intros i I. apply in_seq in I. apply Z; lia. }
  rewrite Rsum_seq_shift. simpl (0 + off)%nat. ring.
Qed.

Lemma div2 z w : z = (2 * w)%Z -> (z / 2)%Z = w.
Proof. intros ->. rewrite Z.mul_comm. apply Z.div_mul. lia. Qed.

Section Gen.
  Variables (a b c : nat).
  Let j1 := Z.of_nat (a + b).
  Let j2 := Z.of_nat (a + c).
  Let j3 := Z.of_nat (b + c).
  Definition proj (n i : nat) : Z := (- Z.of_nat n + 2 * Z.of_nat i)%Z.
  Definition cond (k i1 i2 : nat) : bool :=
    ((k <=? a) && (k <=? a + b - i1) && (k <=? i2) && (a <=? i1 + k) && (i2 <=? c + k))%nat.
  Definition G (x1 y1 x2 y2 p q : R) (k s t : nat) : R :=
    (-1) ^ k / (INR (fact k) * INR (fact (a - k)) * INR (fact s) * INR (fact (b - s)) * INR (fact t) * INR (fact (c - t)))
    * ((x1 * y2) ^ (a - k) * (y1 * x2) ^ k * ((p * x1) ^ s * (q * y1) ^ (b - s)) * ((p * x2) ^ t * (q * y2) ^ (c - t))).
  Definition KK : R := sqrt (IZR (j3 + 1) * INR (fact b) * INR (fact c) * INR (fact a) / INR (fact (a + b + c + 1))).

  Lemma fact_p n : 0 < INR (fact n).
  Proof. apply lt_0_INR, lt_O_fact. Qed.
  Lemma KK_pos : 0 < KK.
  Proof.
    unfold KK. apply sqrt_lt_R0. pose proof (fact_p a). pose proof (fact_p b). pose proof (fact_p c). pose proof (fact_p (a + b + c + 1)).
    assert (0 < IZR (j3 + 1)) by (apply IZR_lt; unfold j3; lia).
    apply Rdiv_lt_0_compat; auto. repeat apply Rmult_lt_0_compat; auto.
  Qed.
  Lemma fz_nat z n : z = Z.of_nat n -> fz z = INR (fact n).
  Proof. intros ->. unfold fz. rewrite Nat2Z.id. reflexivity. Qed.

  Lemma racah_cond k i1 i2 : (i1 <= a + b)%nat -> (i2 <= a + c)%nat ->
    racah_term j1 (proj (a + b) i1) j2 (proj (a + c) i2) j3 k
    = if cond k i1 i2 then (-1) ^ k / (INR (fact k) * INR (fact (a - k)) * INR (fact (i1 + k - a)) * INR (fact (b - (i1 + k - a)))
        * INR (fact (i2 - k)) * INR (fact (c - (i2 - k)))) else 0.
  Proof.
    intros H1 H2. unfold racah_term. cbv zeta. unfold j1, j2, j3, proj.
    rewrite (div2 _ (Z.of_nat a)) by lia. rewrite (div2 _ (Z.of_nat (a + b) - Z.of_nat i1)%Z) by lia.
    rewrite (div2 _ (Z.of_nat i2)) by lia. rewrite (div2 _ (Z.of_nat i1 - Z.of_nat a)%Z) by lia.
    rewrite (div2 _ (Z.of_nat c - Z.of_nat i2)%Z) by lia.
    destruct (cond k i1 i2) eqn:Cn.
    - unfold cond in Cn. rewrite !andb_true_iff, !Nat.leb_le in Cn.
      replace (_ && _)%bool with true by (symmetry; rewrite !andb_true_iff, !Z.leb_le; lia).
      rewrite (fz_nat (Z.of_nat k) k) by lia. rewrite (fz_nat _ (a - k)) by lia. rewrite (fz_nat _ (b - (i1 + k - a))) by lia.
      rewrite (fz_nat _ (i2 - k)) by lia. rewrite (fz_nat _ (i1 + k - a)) by lia. rewrite (fz_nat _ (c - (i2 - k))) by lia.
      f_equal. ring.
    - replace (_ && _)%bool with false; [reflexivity|]. symmetry. apply not_true_is_false. intros T.
      rewrite !andb_true_iff, !Z.leb_le in T. apply not_true_iff_false in Cn. apply Cn. unfold cond. rewrite !andb_true_iff, !Nat.leb_le. lia.
  Qed.
  Lemma proj_ok n i : (i <= n)%nat -> is_projection (Z.of_nat n) (proj n i) = true /\ up (Z.of_nat n) (proj n i) = i /\ down (Z.of_nat n) (proj n i) = (n - i)%nat.
  Proof.
    intros H. destruct (pidx_k (Z.of_nat n) i) as [P E]; [lia|rewrite Nat2Z.id; exact H|]. split; [exact P|]. split; [exact E|].
    rewrite down_up by exact P. unfold proj. rewrite E, Nat2Z.id. reflexivity.
  Qed.
  Lemma sqrt6 u1 v1 u2 v2 u3 v3 : 0 < u1 -> 0 < v1 -> 0 < u2 -> 0 < v2 -> 0 < u3 -> 0 < v3 ->
    sqrt (u3 * v3 * v1 * u1 * v2 * u2) = sqrt (u1 * v1) * sqrt (u2 * v2) * sqrt (u3 * v3).
  Proof.
    intros. rewrite <- !sqrt_mult; try (apply Rlt_le; repeat apply Rmult_lt_0_compat; assumption). f_equal. ring.
  Qed.
  Lemma cg_state i1 i2 x1 y1 x2 y2 p q : (i1 <= a + b)%nat -> (i2 <= a + c)%nat ->
    let m1 := proj (a + b) i1 in let m2 := proj (a + c) i2 in
    cg j1 m1 j2 m2 j3 (m1 + m2) * spin_state j1 m1 x1 y1 * spin_state j2 m2 x2 y2 * spin_state j3 (m1 + m2) p q
    = KK * Rsum (seq 0 (S a)) (fun k => if cond k i1 i2 then G x1 y1 x2 y2 p q k (i1 + k - a) (i2 - k) else 0).
  Proof.
    intros H1 H2 m1 m2.
    destruct (proj_ok _ _ H1) as (P1 & U1 & D1). destruct (proj_ok _ _ H2) as (P2 & U2 & D2). fold j1 m1 in P1, U1, D1. fold j2 m2 in P2, U2, D2.
    assert (E12 : (a <= i1 + i2 /\ i1 + i2 <= a + b + c)%nat \/ (i1 + i2 < a \/ a + b + c < i1 + i2)%nat) by lia.
    destruct E12 as [E12|E12].
    - assert (M3 : (m1 + m2)%Z = proj (b + c) (i1 + i2 - a)) by (unfold m1, m2, proj; lia).
      destruct (proj_ok (b + c) (i1 + i2 - a) ltac:(lia)) as (P3 & U3 & D3). rewrite <- M3 in P3, U3, D3. fold j3 in P3, U3, D3.
      unfold cg. replace (cg_couples j1 m1 j2 m2 j3 (m1 + m2)) with true.
      2:{ symmetry. unfold cg_couples. rewrite P1, P2, P3, Z.eqb_refl. cbn [andb]. unfold CG.triangle. rewrite !andb_true_iff, !Z.leb_le, Z.even_spec.
          unfold j1, j2, j3. split; [lia|]. exists (Z.of_nat a). lia. }
      rewrite (div2 (j3 + j1 - j2) (Z.of_nat b)) by (unfold j1, j2, j3; lia).
      rewrite (div2 (j3 - j1 + j2) (Z.of_nat c)) by (unfold j1, j2, j3; lia).
      rewrite (div2 (j1 + j2 - j3) (Z.of_nat a)) by (unfold j1, j2, j3; lia).
      rewrite (div2 (j1 + j2 + j3) (Z.of_nat (a + b + c))) by (unfold j1, j2, j3; lia).
      rewrite !(fz_nat (Z.of_nat _) _ eq_refl). rewrite (fz_nat (Z.of_nat (a + b + c) + 1) (a + b + c + 1)) by lia. fold KK. rewrite Nat2Z.id.
      unfold fz. fold (up j3 (m1 + m2)) (down j3 (m1 + m2)) (up j1 m1) (down j1 m1) (up j2 m2) (down j2 m2).
      pose proof (sqrt6 _ _ _ _ _ _ (fact_p (up j1 m1)) (fact_p (down j1 m1)) (fact_p (up j2 m2)) (fact_p (down j2 m2)) (fact_p (up j3 (m1 + m2))) (fact_p (down j3 (m1 + m2)))) as SQ.
      fold (weight j1 m1) (weight j2 m2) (weight j3 (m1 + m2)) in SQ. rewrite SQ. clear SQ.
      assert (WP : forall j m, 0 < weight j m).
      { intros j m. unfold weight. apply sqrt_lt_R0, Rmult_lt_0_compat; apply fact_p. }
      unfold spin_state. rewrite U1, D1, U2, D2, U3, D3.
      rewrite (Rsum_ext _ (racah_term _ _ _ _ _) (fun k => if cond k i1 i2 then (-1) ^ k / (INR (fact k) * INR (fact (a - k)) * INR (fact (i1 + k - a)) * INR (fact (b - (i1 + k - a)))
        * INR (fact (i2 - k)) * INR (fact (c - (i2 - k)))) else 0)) by (intros; apply racah_cond; assumption).
      transitivity (KK * (Rsum (seq 0 (S a)) (fun k => if cond k i1 i2 then (-1) ^ k / (INR (fact k) * INR (fact (a - k)) * INR (fact (i1 + k - a)) * INR (fact (b - (i1 + k - a)))
        * INR (fact (i2 - k)) * INR (fact (c - (i2 - k)))) else 0) * (x1 ^ i1 * y1 ^ (a + b - i1) * (x2 ^ i2 * y2 ^ (a + c - i2)) * (p ^ (i1 + i2 - a) * q ^ (b + c - (i1 + i2 - a)))))).
      { pose proof (WP j1 m1). pose proof (WP j2 m2). pose proof (WP j3 (m1 + m2)%Z). field. lra. }
      f_equal. rewrite <- Rsum_scal_r. apply Rsum_ext. intros k _. destruct (cond k i1 i2) eqn:Cn; [|ring]. unfold G. f_equal.
      unfold cond in Cn. rewrite !andb_true_iff, !Nat.leb_le in Cn. rewrite !Rpow_mult_distr.
      replace i1 with (a - k + (i1 + k - a))%nat at 1 by lia. replace (a + b - i1)%nat with (k + (b - (i1 + k - a)))%nat by lia.
      replace i2 with (k + (i2 - k))%nat at 1 by lia. replace (a + c - i2)%nat with ((a - k) + (c - (i2 - k)))%nat by lia.
      replace (i1 + i2 - a)%nat with ((i1 + k - a) + (i2 - k))%nat by lia.
      replace (b + c - (i1 + k - a + (i2 - k)))%nat with ((b - (i1 + k - a)) + (c - (i2 - k)))%nat by lia.
      rewrite !pow_add. ring.
    - rewrite Rsum_zero.
      2:{ intros k _. destruct (cond k i1 i2) eqn:Cn; [|reflexivity]. exfalso. unfold cond in Cn. rewrite !andb_true_iff, !Nat.leb_le in Cn. lia. }
      unfold cg. replace (cg_couples j1 m1 j2 m2 j3 (m1 + m2)) with false; [ring|]. symmetry. apply not_true_is_false. intros T.
      unfold cg_couples in T. rewrite !andb_true_iff in T. destruct T as [[[_ T] _] _]. apply is_projection_spec in T.
      unfold m1, m2, j3, proj in T. lia.
  Qed.

  (** The generating function *)
  Definition NN : R := KK / (INR (fact a) * INR (fact b) * INR (fact c)).
  Lemma G_sum x1 y1 x2 y2 p q :
    Rsum (seq 0 (S a)) (fun k => Rsum (seq 0 (S b)) (fun s => Rsum (seq 0 (S c)) (fun t => G x1 y1 x2 y2 p q k s t)))
    = / (INR (fact a) * INR (fact b) * INR (fact c)) * ((x1 * y2 - y1 * x2) ^ a * (p * x1 + q * y1) ^ b * (p * x2 + q * y2) ^ c).
  Proof.
    replace ((x1 * y2 - y1 * x2) ^ a) with ((- (y1 * x2) + x1 * y2) ^ a) by (f_equal; ring). rewrite !binom.
    set (f := fun k => bin a k * (- (y1 * x2)) ^ k * (x1 * y2) ^ (a - k)).
    set (g := fun s => bin b s * (p * x1) ^ s * (q * y1) ^ (b - s)).
    set (h := fun t => bin c t * (p * x2) ^ t * (q * y2) ^ (c - t)).
    transitivity (Rsum (seq 0 (S a)) (fun k => / (INR (fact a) * INR (fact b) * INR (fact c)) * (f k * (Rsum (seq 0 (S b)) g * Rsum (seq 0 (S c)) h)))).
    2:{ rewrite Rsum_scal_l, Rsum_scal_r. ring. }
    apply Rsum_ext. intros k Hk.
    transitivity (Rsum (seq 0 (S b)) (fun s => / (INR (fact a) * INR (fact b) * INR (fact c)) * (f k * (g s * Rsum (seq 0 (S c)) h)))).
    2:{ rewrite !Rsum_scal_l, Rsum_scal_r. ring. }
    apply Rsum_ext. intros s Hs.
    transitivity (Rsum (seq 0 (S c)) (fun t => / (INR (fact a) * INR (fact b) * INR (fact c)) * (f k * (g s * h t)))).
    2:{ rewrite !Rsum_scal_l. ring. }
    apply Rsum_ext. intros t Ht. unfold f, g, h, G, bin.
    replace (- (y1 * x2)) with ((-1) * (y1 * x2)) by ring. rewrite (Rpow_mult_distr (-1) (y1 * x2) k).
    pose proof (fact_p a). pose proof (fact_p b). pose proof (fact_p c). pose proof (fact_p k). pose proof (fact_p s). pose proof (fact_p t).
    pose proof (fact_p (a - k)). pose proof (fact_p (b - s)). pose proof (fact_p (c - t)). field. lra.
  Qed.
  Theorem generating x1 y1 x2 y2 p q :
    Rsum (seq 0 (S (a + b))) (fun i1 => Rsum (seq 0 (S (a + c))) (fun i2 =>
      let m1 := proj (a + b) i1 in let m2 := proj (a + c) i2 in
      cg j1 m1 j2 m2 j3 (m1 + m2) * spin_state j1 m1 x1 y1 * spin_state j2 m2 x2 y2 * spin_state j3 (m1 + m2) p q))
    = NN * ((x1 * y2 - y1 * x2) ^ a * (p * x1 + q * y1) ^ b * (p * x2 + q * y2) ^ c).
  Proof.
    transitivity (KK * Rsum (seq 0 (S (a + b))) (fun i1 => Rsum (seq 0 (S (a + c))) (fun i2 =>
      Rsum (seq 0 (S a)) (fun k => if cond k i1 i2 then G x1 y1 x2 y2 p q k (i1 + k - a) (i2 - k) else 0)))).
    { rewrite <- Rsum_scal_l. apply Rsum_ext. intros i1 H1. apply seq_in in H1. rewrite <- Rsum_scal_l. apply Rsum_ext. intros i2 H2. apply seq_in in H2.
      apply cg_state; assumption. }
    transitivity (KK * Rsum (seq 0 (S a)) (fun k => Rsum (seq 0 (S b)) (fun s => Rsum (seq 0 (S c)) (fun t => G x1 y1 x2 y2 p q k s t)))).
    2:{ rewrite G_sum. unfold NN. pose proof (fact_p a). pose proof (fact_p b). pose proof (fact_p c). field. lra. }
    f_equal.
    transitivity (Rsum (seq 0 (S (a + b))) (fun i1 => Rsum (seq 0 (S a)) (fun k => Rsum (seq 0 (S (a + c))) (fun i2 =>
      if cond k i1 i2 then G x1 y1 x2 y2 p q k (i1 + k - a) (i2 - k) else 0)))).
    { apply Rsum_ext. intros i1 _. apply Rsum_swap. }
    rewrite Rsum_swap. apply Rsum_ext. intros k Hk. apply seq_in in Hk.
    rewrite (Rsum_window (a + b) (a - k) b).
    - apply Rsum_ext. intros s Hs. apply seq_in in Hs. rewrite (Rsum_window (a + c) k c).
      + apply Rsum_ext. intros t Ht. apply seq_in in Ht.
        replace (cond k (a - k + s) (k + t)) with true by (symmetry; unfold cond; rewrite !andb_true_iff, !Nat.leb_le; lia).
        f_equal; lia.
      + lia.
      + intros i2 H2 O. destruct (cond k (a - k + s) i2) eqn:Cn; [|reflexivity]. exfalso. unfold cond in Cn. rewrite !andb_true_iff, !Nat.leb_le in Cn. lia.
    - lia.
    - intros i1 H1 O. apply Rsum_zero. intros i2 _. destruct (cond k i1 i2) eqn:Cn; [|reflexivity]. exfalso. unfold cond in Cn. rewrite !andb_true_iff, !Nat.leb_le in Cn. lia.
  Qed.
End Gen.

(** ** Covariance *)
Definition coupled (j1 j2 j3 : Z) (x1 y1 x2 y2 p q : R) : R :=
  Rsum (spin_range2 j1) (fun m1 => Rsum (spin_range2 j2) (fun m2 => Rsum (spin_range2 j3) (fun m3 =>
    cg j1 m1 j2 m2 j3 m3 * spin_state j1 m1 x1 y1 * spin_state j2 m2 x2 y2 * spin_state j3 m3 p q))).

Lemma cg_out3 j1 m1 j2 m2 j3 m3 : m3 <> (m1 + m2)%Z -> cg j1 m1 j2 m2 j3 m3 = 0.
Proof.
  intros N. unfold cg. replace (cg_couples j1 m1 j2 m2 j3 m3) with false; [reflexivity|]. symmetry. apply not_true_is_false. intros T.
  unfold cg_couples in T. rewrite !andb_true_iff, Z.eqb_eq in T. apply N. symmetry. tauto.
Qed.
Lemma cg_out_proj j1 m1 j2 m2 j3 m3 : is_projection j3 m3 = false -> cg j1 m1 j2 m2 j3 m3 = 0.
Proof. intros N. unfold cg, cg_couples. rewrite N, andb_false_r. reflexivity. Qed.
Lemma range2_NoDup j : NoDup (spin_range2 j).
Proof. unfold spin_range2. apply FinFun.Injective_map_NoDup; [intros x y H; lia|apply seq_NoDup]. Qed.
Lemma cg_sum3 j1 m1 j2 m2 j3 (f : Z -> R) : Rsum (spin_range2 j3) (fun m3 => cg j1 m1 j2 m2 j3 m3 * f m3) = cg j1 m1 j2 m2 j3 (m1 + m2) * f (m1 + m2)%Z.
Proof.
  destruct (is_projection j3 (m1 + m2)) eqn:P.
  - rewrite (Rsum_single _ (m1 + m2)%Z); [reflexivity|apply range2_NoDup|apply is_projection_In; exact P|].
    intros x _ N. rewrite cg_out3 by exact N. ring.
  - rewrite (cg_out_proj _ _ _ _ _ _ P). rewrite Rsum_zero; [ring|]. intros x I. apply is_projection_In in I. rewrite cg_out3; [ring|]. congruence.
Qed.
Lemma coupled_form a b c x1 y1 x2 y2 p q :
  coupled (Z.of_nat (a + b)) (Z.of_nat (a + c)) (Z.of_nat (b + c)) x1 y1 x2 y2 p q
  = NN a b c * ((x1 * y2 - y1 * x2) ^ a * (p * x1 + q * y1) ^ b * (p * x2 + q * y2) ^ c).
Proof.
  rewrite <- generating. unfold coupled. rewrite Rsum_range2, Nat2Z.id by lia. apply Rsum_ext. intros i1 _.
  rewrite Rsum_range2, Nat2Z.id by lia. apply Rsum_ext. intros i2 _. fold (proj (a + b) i1) (proj (a + c) i2). cbv zeta.
  rewrite (Rsum_ext _ _ (fun m3 => cg (Z.of_nat (a + b)) (proj (a + b) i1) (Z.of_nat (a + c)) (proj (a + c) i2) (Z.of_nat (b + c)) m3 *
    (spin_state (Z.of_nat (a + b)) (proj (a + b) i1) x1 y1 * spin_state (Z.of_nat (a + c)) (proj (a + c) i2) x2 y2 * spin_state (Z.of_nat (b + c)) m3 p q)))
    by (intros; ring).
  rewrite cg_sum3. ring.
Qed.
Lemma triangle_abc j1 j2 j3 : CG.triangle j1 j2 j3 = true ->
  exists a b c, j1 = Z.of_nat (a + b) /\ j2 = Z.of_nat (a + c) /\ j3 = Z.of_nat (b + c).
Proof.
  unfold CG.triangle. rewrite !andb_true_iff, !Z.leb_le, Z.even_spec. intros [[H1 H2] [q H3]].
  exists (Z.to_nat q), (Z.to_nat (j1 - q)), (Z.to_nat (j2 - q)). lia.
Qed.
Lemma coupled_turn j1 j2 j3 l x1 y1 x2 y2 p q : CG.triangle j1 j2 j3 = true ->
  coupled j1 j2 j3 (m11 l * x1 + m21 l * y1) (m12 l * x1 + m22 l * y1) (m11 l * x2 + m21 l * y2) (m12 l * x2 + m22 l * y2) p q
  = det2 l ^ Z.to_nat ((j1 + j2 - j3) / 2) * coupled j1 j2 j3 x1 y1 x2 y2 (m11 l * p + m12 l * q) (m21 l * p + m22 l * q).
Proof.
  intros T. destruct (triangle_abc _ _ _ T) as (a & b & c & -> & -> & ->). rewrite !coupled_form.
  rewrite (div2 (Z.of_nat (a + b) + Z.of_nat (a + c) - Z.of_nat (b + c)) (Z.of_nat a)) by lia.
  rewrite Nat2Z.id.
  replace ((m11 l * x1 + m21 l * y1) * (m12 l * x2 + m22 l * y2) - (m12 l * x1 + m22 l * y1) * (m11 l * x2 + m21 l * y2))
    with (det2 l * (x1 * y2 - y1 * x2)) by (unfold det2; ring).
  replace (p * (m11 l * x1 + m21 l * y1) + q * (m12 l * x1 + m22 l * y1)) with ((m11 l * p + m12 l * q) * x1 + (m21 l * p + m22 l * q) * y1) by ring.
  replace (p * (m11 l * x2 + m21 l * y2) + q * (m12 l * x2 + m22 l * y2)) with ((m11 l * p + m12 l * q) * x2 + (m21 l * p + m22 l * q) * y2) by ring.
  rewrite Rpow_mult_distr. ring.
Qed.

Lemma matvec {A B} (l : list A) (l' : list B) (D : A -> B -> R) g u :
  Rsum l (fun n => Rsum l' (fun m => D n m * g m) * u n) = Rsum l' (fun m => g m * Rsum l (fun n => D n m * u n)).
Proof.
  rewrite (Rsum_ext l _ (fun n => Rsum l' (fun m => D n m * g m * u n))) by (intros; rewrite <- Rsum_scal_r; reflexivity).
  rewrite Rsum_swap. apply Rsum_ext. intros m _. rewrite <- Rsum_scal_l. apply Rsum_ext. intros n _. ring.
Qed.

Theorem cg_covariance j1 j2 j3 l n1 n2 m3 : CG.triangle j1 j2 j3 = true ->
  is_projection j1 n1 = true -> is_projection j2 n2 = true -> is_projection j3 m3 = true ->
  Rsum (spin_range2 j1) (fun m1 => Rsum (spin_range2 j2) (fun m2 => spin_matrix j1 l n1 m1 * spin_matrix j2 l n2 m2 * cg j1 m1 j2 m2 j3 m3))
  = det2 l ^ Z.to_nat ((j1 + j2 - j3) / 2) * Rsum (spin_range2 j3) (fun n3 => cg j1 n1 j2 n2 j3 n3 * spin_matrix j3 l n3 m3).
Proof.
  intros T P1 P2 P3.
  set (F1 := fun n1 n2 m3 => Rsum (spin_range2 j1) (fun m1 => Rsum (spin_range2 j2) (fun m2 => spin_matrix j1 l n1 m1 * spin_matrix j2 l n2 m2 * cg j1 m1 j2 m2 j3 m3))).
  set (F2 := fun n1 n2 m3 => det2 l ^ Z.to_nat ((j1 + j2 - j3) / 2) * Rsum (spin_range2 j3) (fun n3 => cg j1 n1 j2 n2 j3 n3 * spin_matrix j3 l n3 m3)).
  change (F1 n1 n2 m3 = F2 n1 n2 m3).
  assert (E : forall x1 y1 x2 y2 p q,
    Rsum (spin_range2 j1) (fun n1 => Rsum (spin_range2 j2) (fun n2 => Rsum (spin_range2 j3) (fun m3 => F1 n1 n2 m3 * spin_state j3 m3 p q) * spin_state j2 n2 x2 y2) * spin_state j1 n1 x1 y1)
    = Rsum (spin_range2 j1) (fun n1 => Rsum (spin_range2 j2) (fun n2 => Rsum (spin_range2 j3) (fun m3 => F2 n1 n2 m3 * spin_state j3 m3 p q) * spin_state j2 n2 x2 y2) * spin_state j1 n1 x1 y1)).
  { intros x1 y1 x2 y2 p q. pose proof (coupled_turn j1 j2 j3 l x1 y1 x2 y2 p q T) as C. unfold coupled in C.
    etransitivity; [|etransitivity; [exact C|]]; clear C.
    - (* turned states *)
      rewrite (Rsum_ext _ _ (fun n1 => Rsum (spin_range2 j1) (fun m1 => spin_matrix j1 l n1 m1 *
        Rsum (spin_range2 j2) (fun m2 => Rsum (spin_range2 j3) (fun m3 => cg j1 m1 j2 m2 j3 m3 * spin_state j3 m3 p q)
          * Rsum (spin_range2 j2) (fun n2 => spin_matrix j2 l n2 m2 * spin_state j2 n2 x2 y2))) * spin_state j1 n1 x1 y1)).
      + rewrite matvec. apply Rsum_ext. intros m1 I1. apply is_projection_In in I1. rewrite <- spin_state_mul by exact I1. rewrite <- Rsum_scal_r.
        apply Rsum_ext. intros m2 I2. apply is_projection_In in I2. rewrite <- spin_state_mul by exact I2. rewrite <- !Rsum_scal_r.
        apply Rsum_ext. intros m3' _. ring.
      + intros k1 _. f_equal.
        transitivity (Rsum (spin_range2 j2) (fun n2 => Rsum (spin_range2 j2) (fun m2 => spin_matrix j2 l n2 m2 *
          Rsum (spin_range2 j1) (fun m1 => spin_matrix j1 l k1 m1 * Rsum (spin_range2 j3) (fun m3 => cg j1 m1 j2 m2 j3 m3 * spin_state j3 m3 p q))) * spin_state j2 n2 x2 y2)).
        * apply Rsum_ext. intros k2 _. f_equal. unfold F1.
          rewrite (Rsum_ext (spin_range2 j3) _ (fun m3 => Rsum (spin_range2 j1) (fun m1 => Rsum (spin_range2 j2) (fun m2 =>
            spin_matrix j1 l k1 m1 * spin_matrix j2 l k2 m2 * cg j1 m1 j2 m2 j3 m3 * spin_state j3 m3 p q))))
            by (intros; rewrite <- Rsum_scal_r; apply Rsum_ext; intros; rewrite <- Rsum_scal_r; reflexivity).
          rewrite Rsum_swap. 
          rewrite (Rsum_ext (spin_range2 j2) _ (fun m2 => Rsum (spin_range2 j1) (fun m1 => Rsum (spin_range2 j3) (fun m3 => 
            spin_matrix j1 l k1 m1 * spin_matrix j2 l k2 m2 * cg j1 m1 j2 m2 j3 m3 * spin_state j3 m3 p q)))).
          -- rewrite (Rsum_swap (spin_range2 j2)). apply Rsum_ext. intros m1 _. apply Rsum_swap.
          -- intros m2 _. rewrite <- Rsum_scal_l. apply Rsum_ext. intros m1 _. rewrite <- !Rsum_scal_l. apply Rsum_ext. intros; ring.
        * rewrite matvec.
          rewrite (Rsum_ext (spin_range2 j2) _ (fun m2 => Rsum (spin_range2 j1) (fun m1 => spin_matrix j1 l k1 m1 * (Rsum (spin_range2 j3) (fun m3 => cg j1 m1 j2 m2 j3 m3 * spin_state j3 m3 p q)
            * Rsum (spin_range2 j2) (fun n2 => spin_matrix j2 l n2 m2 * spin_state j2 n2 x2 y2)))))
            by (intros; rewrite <- Rsum_scal_r; apply Rsum_ext; intros; ring).
          rewrite Rsum_swap. apply Rsum_ext. intros m1 _. rewrite Rsum_scal_l. reflexivity.
    - (* turned coupled state *)
      rewrite <- Rsum_scal_l. apply Rsum_ext. intros k1 _. rewrite <- Rsum_scal_l, <- Rsum_scal_r. apply Rsum_ext. intros k2 _.
      assert (Q : Rsum (spin_range2 j3) (fun m3 => F2 k1 k2 m3 * spin_state j3 m3 p q)
        = det2 l ^ Z.to_nat ((j1 + j2 - j3) / 2) * Rsum (spin_range2 j3) (fun n3 => cg j1 k1 j2 k2 j3 n3 * spin_state j3 n3 (m11 l * p + m12 l * q) (m21 l * p + m22 l * q))).
      { unfold F2. 
        rewrite (Rsum_ext _ _ (fun m3 => det2 l ^ Z.to_nat ((j1 + j2 - j3) / 2) * (Rsum (spin_range2 j3) (fun n3 => spin_matrix j3 l n3 m3 * cg j1 k1 j2 k2 j3 n3) * spin_state j3 m3 p q))).
        2:{ intros m _. rewrite Rmult_assoc. f_equal. f_equal. apply Rsum_ext. intros; ring. }
        rewrite Rsum_scal_l. f_equal. rewrite (matvec _ _ (fun m3 n3 => spin_matrix j3 l n3 m3)). apply Rsum_ext. intros k3 I3. apply is_projection_In in I3. f_equal.
        pose proof (spin_state_mul j3 (transpose2 l) k3 p q I3) as S3. cbn [transpose2 m11 m12 m21 m22] in S3. rewrite S3.
        apply Rsum_ext. intros m I. apply is_projection_In in I. rewrite spin_matrix_transpose by assumption. reflexivity. }
      rewrite Q.
      rewrite (Rsum_ext (spin_range2 j3) _ (fun m3 => cg j1 k1 j2 k2 j3 m3 * spin_state j3 m3 (m11 l * p + m12 l * q) (m21 l * p + m22 l * q)
        * (spin_state j1 k1 x1 y1 * spin_state j2 k2 x2 y2))) by (intros; ring).
      rewrite Rsum_scal_r. ring. }
  refine (spin_state_unique j3 (fun m3 => F1 n1 n2 m3) (fun m3 => F2 n1 n2 m3) _ m3 P3). intros p q.
  refine (spin_state_unique j2 (fun n2 => Rsum (spin_range2 j3) (fun m3 => F1 n1 n2 m3 * spin_state j3 m3 p q)) (fun n2 => Rsum (spin_range2 j3) (fun m3 => F2 n1 n2 m3 * spin_state j3 m3 p q)) _ n2 P2). intros x2 y2.
  refine (spin_state_unique j1 (fun n1 => Rsum (spin_range2 j2) (fun n2 => Rsum (spin_range2 j3) (fun m3 => F1 n1 n2 m3 * spin_state j3 m3 p q) * spin_state j2 n2 x2 y2))
    (fun n1 => Rsum (spin_range2 j2) (fun n2 => Rsum (spin_range2 j3) (fun m3 => F2 n1 n2 m3 * spin_state j3 m3 p q) * spin_state j2 n2 x2 y2)) _ n1 P1). intros x1 y1.
  apply E.
Qed.
