(** Wigner d functions form a one-parameter group of orthogonal matrices. *)
From Coq Require Import ZArith List Bool Reals Arith Lra Lia Psatz.
From Verif Require Import Sums Wigner Prelude Spin SpinFacts.
Import ListNotations.
Local Open Scope R_scope.

Lemma sum_f_R0_Rsum f n : sum_f_R0 f n = Rsum (seq 0 (S n)) f.
Proof.
  induction n; [simpl; lra|]. rewrite tech5, IHn.
  rewrite (seq_S (S n)), Rsum_app. simpl. lra.
Qed.

Lemma seq_in n x : In x (seq 0 (S n)) <-> (x <= n)%nat.
Proof. rewrite in_seq. lia. Qed.
Lemma seq_in' n x : In x (seq 0 n) <-> (x < n)%nat.
Proof. rewrite in_seq. lia. Qed.

(** ** Uniqueness of polynomial coefficients *)
Lemma Rsum_bound l (f : nat -> R) x : -1 <= x <= 1 ->
  Rabs (Rsum l (fun a => f a * x ^ a)) <= Rsum l (fun a => Rabs (f a)).
Proof.
  intros Hx. induction l; simpl; [rewrite Rabs_R0; lra|].
  apply Rle_trans with (1 := Rabs_triang _ _). apply Rplus_le_compat; auto.
  rewrite Rabs_mult. rewrite <- (Rmult_1_r (Rabs (f a))) at 2.
  apply Rmult_le_compat_l; [apply Rabs_pos|]. rewrite <- RPow_abs.
  rewrite <- (pow1 a). apply pow_incr. split; [apply Rabs_pos|]. apply Rabs_le. lra.
Qed.
Lemma Rsum_shift n (f : nat -> R) x :
  Rsum (seq 0 (S n)) (fun a => f a * x ^ a)
  = f 0%nat + x * Rsum (seq 0 n) (fun a => f (S a) * x ^ a).
Proof.
  cbn [seq Rsum]. rewrite <- seq_shift, Rsum_map, <- Rsum_scal_l. simpl (x ^ 0).
  rewrite Rmult_1_r. f_equal. apply Rsum_ext. intros a _. simpl. ring.
Qed.
Lemma poly_zero n (f : nat -> R) :
  (forall x, x <> 0 -> Rsum (seq 0 n) (fun a => f a * x ^ a) = 0) ->
  forall a, (a < n)%nat -> f a = 0.
Proof.
  revert f. induction n; intros f H; [lia|].
  set (K := Rsum (seq 0 n) (fun a => Rabs (f (S a)))).
  assert (HK : 0 <= K) by (apply Rsum_nonneg; intros; apply Rabs_pos).
  assert (F0 : f 0%nat = 0).
  { destruct (Req_dec (f 0%nat) 0) as [E|E]; auto. exfalso.
    assert (P : 0 < Rabs (f 0%nat)) by (apply Rabs_pos_lt; auto).
    set (e := Rabs (f 0%nat)) in *.
    set (x := Rmin 1 (e / (2 * (K + 1)))).
    assert (D : 0 < e / (2 * (K + 1))) by (apply Rdiv_lt_0_compat; lra).
    assert (X0 : 0 < x) by (apply Rmin_glb_lt; lra).
    assert (X1 : x <= 1) by apply Rmin_l.
    assert (X2 : x <= e / (2 * (K + 1))) by apply Rmin_r.
    specialize (H x ltac:(lra)). rewrite Rsum_shift in H.
    assert (B := Rsum_bound (seq 0 n) (fun a => f (S a)) x ltac:(lra)). cbv beta in B. fold K in B.
    set (q := Rsum (seq 0 n) (fun a => f (S a) * x ^ a)) in *.
    assert (E1 : e = x * Rabs q).
    { unfold e. replace (f 0%nat) with (- (x * q)) by lra. rewrite Rabs_Ropp, Rabs_mult.
      rewrite (Rabs_pos_eq x); lra. }
    assert (x * Rabs q <= e / (2 * (K + 1)) * K).
    { apply Rmult_le_compat; try lra. apply Rabs_pos. }
    assert (e / (2 * (K + 1)) * K <= e / 2).
    { apply Rmult_le_reg_r with (2 * (K + 1)); [lra|]. field_simplify; [|lra]. nra. }
    lra. }
  intros [|a] Ha; auto.
  apply (IHn (fun a => f (S a))); [|lia]. intros x Hx.
  specialize (H x Hx). rewrite Rsum_shift, F0 in H.
  assert (x * Rsum (seq 0 n) (fun a => f (S a) * x ^ a) = 0) by lra.
  apply Rmult_integral in H0. tauto.
Qed.
Lemma poly_unique n (f g : nat -> R) :
  (forall x, Rsum (seq 0 (S n)) (fun a => f a * x ^ a) = Rsum (seq 0 (S n)) (fun a => g a * x ^ a)) ->
  forall a, (a <= n)%nat -> f a = g a.
Proof.
  intros H a Ha. apply Rminus_diag_uniq.
  apply (poly_zero (S n) (fun a => f a - g a)); [|lia]. intros x _.
  rewrite (Rsum_ext _ _ (fun a => f a * x ^ a + (-1) * (g a * x ^ a))) by (intros; ring).
  rewrite Rsum_plus, Rsum_scal_l, H. ring.
Qed.

(** ** The action on homogeneous polynomials *)
Definition bin (n i : nat) : R := INR (fact n) / (INR (fact i) * INR (fact (n - i))).
Definition Mterm (n a b : nat) (c s : R) (i : nat) : R :=
  if ((i <=? a) && (i <=? b) && (a + b <=? n + i))%nat
  then bin b i * c ^ i * s ^ (b - i) * (bin (n - b) (a - i) * (- s) ^ (a - i) * c ^ (n - b - (a - i)))
  else 0.
Definition M (n a b : nat) (c s : R) : R := Rsum (seq 0 (S n)) (Mterm n a b c s).

Lemma binom x y n : (x + y) ^ n = Rsum (seq 0 (S n)) (fun i => bin n i * x ^ i * y ^ (n - i)).
Proof. rewrite binomial, sum_f_R0_Rsum. reflexivity. Qed.

Lemma Rsum_seq_shift k n (f : nat -> R) : Rsum (seq k n) f = Rsum (seq 0 n) (fun i => f (k + i)%nat).
Proof.
  revert k f. induction n; intros k f; [reflexivity|].
  cbn [seq Rsum]. rewrite Nat.add_0_r. f_equal. rewrite IHn.
  rewrite (IHn 1%nat). apply Rsum_ext. intros i _. f_equal. lia.
Qed.

Lemma regroup (f : nat -> nat -> R) b m :
  Rsum (seq 0 (S b)) (fun i => Rsum (seq 0 (S m)) (fun k => f i k)) =
  Rsum (seq 0 (S (b + m))) (fun a => Rsum (seq 0 (S (b + m))) (fun i =>
    if ((i <=? a) && (i <=? b) && (a - i <=? m))%nat then f i (a - i)%nat else 0)).
Proof.
  rewrite (Rsum_swap (seq 0 (S (b + m))) (seq 0 (S (b + m)))).
  replace (seq 0 (S (b + m))) with (seq 0 (S b) ++ seq (S b) m) at 1
    by (rewrite <- seq_app; f_equal; lia).
  rewrite Rsum_app.
  rewrite (Rsum_zero (seq (S b) m)).
  2:{ intros i Hi. apply in_seq in Hi. apply Rsum_zero. intros a _.
      destruct (Nat.leb_spec i b); [lia|]. rewrite andb_false_r. reflexivity. }
  rewrite Rplus_0_r. apply Rsum_ext. intros i Hi. apply seq_in in Hi.
  replace (seq 0 (S (b + m))) with (seq 0 i ++ seq i (S m) ++ seq (i + S m) (b - i)).
  2:{ rewrite <- seq_app. rewrite <- (seq_app i). f_equal. lia. }
  rewrite !Rsum_app.
  rewrite (Rsum_zero (seq 0 i)), (Rsum_zero (seq (i + S m) (b - i))).
  - rewrite Rplus_0_l, Rplus_0_r, (Rsum_seq_shift i). apply Rsum_ext. intros k Hk.
    apply seq_in in Hk. destruct (Nat.leb_spec i (i + k)); [|lia].
    destruct (Nat.leb_spec i b); [|lia]. destruct (Nat.leb_spec (i + k - i) m); [|lia].
    simpl. f_equal. lia.
  - intros a Ha. apply in_seq in Ha. destruct (Nat.leb_spec (a - i) m); [lia|].
    rewrite andb_false_r. reflexivity.
  - intros a Ha. apply in_seq in Ha. destruct (Nat.leb_spec i a); [lia|]. reflexivity.
Qed.

Lemma Rsum_mult {A B} (l : list A) (l' : list B) f g :
  Rsum l f * Rsum l' g = Rsum l (fun x => Rsum l' (fun y => f x * g y)).
Proof.
  rewrite <- Rsum_scal_r. apply Rsum_ext. intros x _. rewrite Rsum_scal_l. reflexivity.
Qed.

Lemma M_poly n b c s x y : (b <= n)%nat ->
  Rsum (seq 0 (S n)) (fun a => M n a b c s * (x ^ a * y ^ (n - a)))
  = (c * x + s * y) ^ b * (c * y - s * x) ^ (n - b).
Proof.
  intros Hb.
  replace (c * y - s * x) with (- s * x + c * y) by ring.
  rewrite !binom, Rsum_mult, regroup.
  replace (b + (n - b))%nat with n by lia.
  apply Rsum_ext. intros a Ha. apply seq_in in Ha. unfold M. rewrite <- Rsum_scal_r.
  apply Rsum_ext. intros i Hi. apply seq_in in Hi. unfold Mterm.
  destruct (Nat.leb_spec i a) as [H1|H1]; [|simpl; ring].
  destruct (Nat.leb_spec i b) as [H2|H2]; [|simpl; ring].
  destruct (Nat.leb_spec (a + b) (n + i)) as [H3|H3].
  - destruct (Nat.leb_spec (a - i) (n - b)) as [H4|H4]; [|lia]. cbn [andb].
    rewrite !Rpow_mult_distr.
    replace (x ^ a) with (x ^ i * x ^ (a - i)) by (rewrite <- pow_add; f_equal; lia).
    replace (y ^ (n - a)) with (y ^ (b - i) * y ^ (n - b - (a - i)))
      by (rewrite <- pow_add; f_equal; lia).
    ring.
  - destruct (Nat.leb_spec (a - i) (n - b)) as [H4|H4]; [lia|]. simpl. ring.
Qed.

Lemma M_mult n e b c1 s1 c2 s2 : (b <= n)%nat -> (e <= n)%nat ->
  Rsum (seq 0 (S n)) (fun a => M n e a c2 s2 * M n a b c1 s1)
  = M n e b (c1 * c2 - s1 * s2) (c1 * s2 + s1 * c2).
Proof.
  intros Hb He.
  apply (poly_unique n (fun e => Rsum (seq 0 (S n)) (fun a => M n e a c2 s2 * M n a b c1 s1))
          (fun e => M n e b (c1 * c2 - s1 * s2) (c1 * s2 + s1 * c2))); auto.
  intros x.
  transitivity (Rsum (seq 0 (S n)) (fun e => M n e b (c1 * c2 - s1 * s2) (c1 * s2 + s1 * c2)
                                              * (x ^ e * 1 ^ (n - e)))).
  2:{ apply Rsum_ext. intros. rewrite pow1. ring. }
  rewrite M_poly by auto.
  transitivity (Rsum (seq 0 (S n)) (fun a => M n a b c1 s1 *
                  Rsum (seq 0 (S n)) (fun e => M n e a c2 s2 * (x ^ e * 1 ^ (n - e))))).
  - rewrite (Rsum_ext (seq 0 (S n)) _ (fun a => Rsum (seq 0 (S n)) (fun k => M n a k c2 s2 * M n k b c1 s1 * x ^ a)))
      by (intros; symmetry; apply Rsum_scal_r).
    rewrite Rsum_swap. apply Rsum_ext. intros a _. rewrite <- Rsum_scal_l.
    apply Rsum_ext. intros k _. rewrite pow1. ring.
  - rewrite (Rsum_ext _ _ (fun a => M n a b c1 s1 * ((c2 * x + s2 * 1) ^ a * (c2 * 1 - s2 * x) ^ (n - a)))).
    2:{ intros a Ha. apply seq_in in Ha. rewrite M_poly by auto. reflexivity. }
    rewrite M_poly by auto. f_equal; f_equal; ring.
Qed.

(** ** From M to d *)
Definition W (n a : nat) : R := sqrt (INR (fact a) * INR (fact (n - a))).
Lemma fact_pos n : 0 < INR (fact n).
Proof. apply lt_0_INR, lt_O_fact. Qed.
Lemma W_pos n a : 0 < W n a.
Proof. apply sqrt_lt_R0, Rmult_lt_0_compat; apply fact_pos. Qed.

Lemma wd_M n a b beta : (a <= n)%nat -> (b <= n)%nat ->
  wd n a b beta = W n a * M n a b (cos (beta / 2)) (sin (beta / 2)) / W n b.
Proof.
  intros Ha Hb. unfold wd, M.
  set (c := cos (beta / 2)). set (s := sin (beta / 2)).
  replace (sqrt (INR (fact a) * INR (fact (n - a)) * INR (fact b) * INR (fact (n - b))))
    with (W n a * (W n b)).
  2:{ unfold W. rewrite <- sqrt_mult_alt.
      - f_equal. ring.
      - apply Rlt_le, Rmult_lt_0_compat; apply fact_pos. }
  assert (WW : W n b * W n b = INR (fact b) * INR (fact (n - b))).
  { apply sqrt_sqrt. apply Rlt_le, Rmult_lt_0_compat; apply fact_pos. }
  pose proof (W_pos n b).
  replace (W n a * W n b * Rsum (seq 0 (S n)) (wd_term n a b c s))
    with (W n a * (W n b * W n b * Rsum (seq 0 (S n)) (wd_term n a b c s)) / W n b) by (field; lra).
  rewrite WW. f_equal. f_equal. rewrite <- Rsum_scal_l. apply Rsum_ext. intros i Hi. apply seq_in in Hi.
  unfold wd_term, Mterm.
  destruct (Nat.leb_spec i a) as [H1|H1]; [|simpl; ring].
  destruct (Nat.leb_spec i b) as [H2|H2]; [|simpl; ring].
  destruct (Nat.leb_spec (a + b) (n + i)) as [H3|H3]; [|simpl; ring]. cbn [andb].
  unfold bin.
  replace (n + i - a - b)%nat with (n - b - (a - i))%nat by lia.
  replace (c ^ (2 * i + n - a - b)) with (c ^ i * c ^ (n - b - (a - i)))
    by (rewrite <- pow_add; f_equal; lia).
  replace (s ^ (a + b - 2 * i)) with (s ^ (b - i) * s ^ (a - i)) by (rewrite <- pow_add; f_equal; lia).
  replace ((- s) ^ (a - i)) with ((-1) ^ (a - i) * s ^ (a - i))
    by (rewrite <- Rpow_mult_distr; f_equal; ring).
  field. repeat split; apply INR_fact_neq_0.
Qed.

Lemma wd_group n a b x y : (a <= n)%nat -> (b <= n)%nat ->
  Rsum (seq 0 (S n)) (fun k => wd n a k x * wd n k b y) = wd n a b (x + y).
Proof.
  intros Ha Hb.
  rewrite (Rsum_ext _ _ (fun k => W n a / W n b *
    (M n a k (cos (x / 2)) (sin (x / 2)) * M n k b (cos (y / 2)) (sin (y / 2))))).
  2:{ intros k Hk. apply seq_in in Hk. rewrite !wd_M by auto.
      pose proof (W_pos n k). pose proof (W_pos n b). field. lra. }
  rewrite Rsum_scal_l, M_mult by auto. rewrite wd_M by auto.
  replace ((x + y) / 2) with (x / 2 + y / 2) by field. rewrite cos_plus, sin_plus.
  pose proof (W_pos n b).
  replace (cos (y / 2) * cos (x / 2) - sin (y / 2) * sin (x / 2))
    with (cos (x / 2) * cos (y / 2) - sin (x / 2) * sin (y / 2)) by ring.
  replace (cos (y / 2) * sin (x / 2) + sin (y / 2) * cos (x / 2))
    with (sin (x / 2) * cos (y / 2) + cos (x / 2) * sin (y / 2)) by ring.
  field. lra.
Qed.

Lemma minus_one_pow_parity k l : Nat.even (k + l) = true -> (-1) ^ k = (-1) ^ l.
Proof.
  intros H. assert (E : (-1) ^ (k + l) = 1).
  { apply Nat.even_spec in H. destruct H as [q ->]. apply pow_1_even. }
  rewrite pow_add in E.
  assert (S : forall n, (-1) ^ n = 1 \/ (-1) ^ n = -1).
  { induction n; simpl; [auto|]. destruct IHn as [-> | ->]; [right|left]; lra. }
  destruct (S k) as [F|F], (S l) as [G|G]; rewrite F, G in *; lra.
Qed.

Lemma wd_transpose n a b x : (a <= n)%nat -> (b <= n)%nat -> wd n b a x = wd n a b (- x).
Proof.
  intros Ha Hb. unfold wd. f_equal.
  - f_equal. ring.
  - apply Rsum_ext. intros i Hi. apply seq_in in Hi. unfold wd_term.
    replace ((i <=? b) && (i <=? a) && (b + a <=? n + i))%nat
      with ((i <=? a) && (i <=? b) && (a + b <=? n + i))%nat.
    2:{ rewrite (Nat.add_comm b a). f_equal. apply andb_comm. }
    destruct (Nat.leb_spec i a) as [H1|H1]; [|reflexivity].
    destruct (Nat.leb_spec i b) as [H2|H2]; [|reflexivity].
    destruct (Nat.leb_spec (a + b) (n + i)) as [H3|H3]; [|reflexivity]. cbn [andb].
    replace (- x / 2) with (- (x / 2)) by field. rewrite cos_neg, sin_neg.
    replace (2 * i + n - b - a)%nat with (2 * i + n - a - b)%nat by lia.
    replace (n + i - b - a)%nat with (n + i - a - b)%nat by lia.
    rewrite (Nat.add_comm b a).
    replace ((- sin (x / 2)) ^ (a + b - 2 * i))
      with ((-1) ^ (a + b - 2 * i) * sin (x / 2) ^ (a + b - 2 * i))
      by (rewrite <- Rpow_mult_distr; f_equal; ring).
    assert (E : (-1) ^ (b - i) = (-1) ^ (a - i) * (-1) ^ (a + b - 2 * i)).
    { rewrite <- pow_add. apply minus_one_pow_parity. apply Nat.even_spec.
      exists (a - i + (b - i))%nat. lia. }
    rewrite E. unfold Rdiv.
    replace (INR (fact i) * INR (fact (b - i)) * INR (fact (a - i)) * INR (fact (n + i - a - b)))
      with (INR (fact i) * INR (fact (a - i)) * INR (fact (b - i)) * INR (fact (n + i - a - b))) by ring.
    ring.
Qed.

(** d at a multiple of 2 pi is +1 or -1 *)
Lemma wd_axis n a b x (e : R) : (a <= n)%nat -> (b <= n)%nat ->
  sin (x / 2) = 0 -> cos (x / 2) = e -> wd n a b x = if Nat.eqb a b then e ^ n else 0.
Proof.
  intros Ha Hb Hs Hc. unfold wd. rewrite Hs, Hc.
  destruct (Nat.eqb_spec a b) as [<- | D].
  - rewrite (Rsum_single _ a).
    + unfold wd_term. rewrite Nat.leb_refl. cbn [andb].
      destruct (Nat.leb_spec (a + a) (n + a)); [|lia].
      rewrite Nat.sub_diag. replace (a + a - 2 * a)%nat with 0%nat by lia.
      replace (2 * a + n - a - a)%nat with n by lia.
      replace (n + a - a - a)%nat with (n - a)%nat by lia.
      replace (INR (fact a) * INR (fact (n - a)) * INR (fact a) * INR (fact (n - a)))
        with ((INR (fact a) * INR (fact (n - a))) * (INR (fact a) * INR (fact (n - a)))) by ring.
      rewrite sqrt_square by (apply Rlt_le, Rmult_lt_0_compat; apply fact_pos).
      simpl (fact 0). simpl (_ ^ 0). simpl (INR 1). field. split; apply INR_fact_neq_0.
    + apply seq_NoDup.
    + apply seq_in; auto.
    + intros i Hi Hne. apply seq_in in Hi. unfold wd_term.
      destruct (Nat.leb_spec i a) as [H1|H1]; [|reflexivity].
      destruct (Nat.leb_spec (a + a) (n + i)) as [H3|H3]; [|reflexivity].
      cbn [andb]. rewrite (pow_i (a + a - 2 * i)) by lia. unfold Rdiv. ring.
  - rewrite Rsum_zero; [ring|]. intros i Hi. apply seq_in in Hi. unfold wd_term.
    destruct (Nat.leb_spec i a) as [H1|H1]; [|reflexivity].
    destruct (Nat.leb_spec i b) as [H2|H2]; [|reflexivity].
    destruct (Nat.leb_spec (a + b) (n + i)) as [H3|H3]; [|reflexivity].
    cbn [andb]. rewrite (pow_i (a + b - 2 * i)) by lia. unfold Rdiv. ring.
Qed.
Lemma wd_0 n a b : (a <= n)%nat -> (b <= n)%nat -> wd n a b 0 = if Nat.eqb a b then 1 else 0.
Proof.
  intros Ha Hb. rewrite (wd_axis n a b 0 1) by
    (auto; replace (0 / 2) with 0 by field; first [apply sin_0|apply cos_0]).
  destruct (Nat.eqb a b); auto. apply pow1.
Qed.
Lemma wd_2pi n a b : (a <= n)%nat -> (b <= n)%nat ->
  wd n a b (2 * PI) = if Nat.eqb a b then (-1) ^ n else 0.
Proof.
  intros Ha Hb. apply wd_axis; auto; replace (2 * PI / 2) with PI by field; [apply sin_PI|apply cos_PI].
Qed.

(** ** Statements for doubled spins *)
Definition pidx (j m : Z) : nat := Z.to_nat ((j + m) / 2).

Lemma is_projection_spec j m :
  is_projection j m = true <-> (- j <= m <= j /\ Z.even (j - m) = true)%Z.
Proof. unfold is_projection. rewrite !andb_true_iff, !Z.leb_le. tauto. Qed.
Lemma is_projection_ex j m : is_projection j m = true ->
  exists k, (k <= Z.to_nat j)%nat /\ m = (2 * Z.of_nat k - j)%Z /\ pidx j m = k /\ (0 <= j)%Z.
Proof.
  rewrite is_projection_spec. intros [H E]. apply Z.even_spec in E. destruct E as [q Hq].
  exists (Z.to_nat (j - q)). unfold pidx.
  assert (m = j - 2 * q)%Z by lia. subst m.
  replace (j + (j - 2 * q))%Z with ((j - q) * 2)%Z by lia. rewrite Z.div_mul by lia.
  repeat split; lia.
Qed.
Lemma is_projection_In j m : is_projection j m = true <-> In m (spin_range2 j).
Proof. rewrite is_projection_spec, spin_range2_In. tauto. Qed.
Lemma pidx_k j k : (0 <= j)%Z -> (k <= Z.to_nat j)%nat ->
  is_projection j (- j + 2 * Z.of_nat k) = true /\ pidx j (- j + 2 * Z.of_nat k) = k.
Proof.
  intros Hj Hk. rewrite is_projection_spec. unfold pidx.
  replace (j + (- j + 2 * Z.of_nat k))%Z with (Z.of_nat k * 2)%Z by lia. rewrite Z.div_mul by lia.
  repeat split; try lia. apply Z.even_spec. exists (j - Z.of_nat k)%Z. lia.
Qed.
Lemma wigner_d_in j m m' x : is_projection j m = true -> is_projection j m' = true ->
  wigner_d j m m' x = wd (Z.to_nat j) (pidx j m) (pidx j m') x.
Proof. intros H H'. unfold wigner_d. rewrite H, H'. reflexivity. Qed.
Lemma wigner_d_out_l j m m' x : is_projection j m = false -> wigner_d j m m' x = 0.
Proof. intros H. unfold wigner_d. rewrite H. reflexivity. Qed.
Lemma wigner_d_out_r j m m' x : is_projection j m' = false -> wigner_d j m m' x = 0.
Proof. intros H. unfold wigner_d. rewrite H, andb_false_r. reflexivity. Qed.

(** A sum over the projections of a spin, as a sum over naturals. *)
Lemma Rsum_range2 j f : (0 <= j)%Z ->
  Rsum (spin_range2 j) f = Rsum (seq 0 (S (Z.to_nat j))) (fun k => f (- j + 2 * Z.of_nat k)%Z).
Proof.
  intros Hj. unfold spin_range2. rewrite Rsum_map.
  replace (Z.to_nat (j + 1)) with (S (Z.to_nat j)) by lia. reflexivity.
Qed.

Lemma wigner_d_group j m m' x y :
  Rsum (spin_range2 j) (fun k => wigner_d j m k x * wigner_d j k m' y) = wigner_d j m m' (x + y).
Proof.
  destruct (is_projection j m) eqn:P.
  2:{ rewrite (wigner_d_out_l _ _ _ (x + y)) by auto. apply Rsum_zero. intros.
      rewrite wigner_d_out_l by auto. ring. }
  destruct (is_projection j m') eqn:P'.
  2:{ rewrite (wigner_d_out_r _ _ _ (x + y)) by auto. apply Rsum_zero. intros.
      rewrite (wigner_d_out_r j x0 m') by auto. ring. }
  rewrite (wigner_d_in j m m') by auto.
  destruct (is_projection_ex j m P) as (a & Ha & _ & Ea & Hj).
  destruct (is_projection_ex j m' P') as (b & Hb & _ & Eb & _).
  rewrite Rsum_range2 by auto. rewrite <- wd_group by lia.
  apply Rsum_ext. intros k Hk. apply seq_in in Hk.
  destruct (pidx_k j k Hj Hk) as [Pk Ek]. rewrite !wigner_d_in by auto. rewrite Ek. reflexivity.
Qed.

Lemma wigner_d_transpose j m m' x : wigner_d j m' m x = wigner_d j m m' (- x).
Proof.
  unfold wigner_d. rewrite andb_comm.
  destruct (is_projection j m) eqn:P; [|reflexivity].
  destruct (is_projection j m') eqn:P'; [|reflexivity]. cbn [andb].
  destruct (is_projection_ex j m P) as (a & Ha & _ & Ea & Hj).
  destruct (is_projection_ex j m' P') as (b & Hb & _ & Eb & _).
  apply wd_transpose; unfold pidx in *; lia.
Qed.

Lemma wigner_d_axis j m m' x e : sin (x / 2) = 0 -> cos (x / 2) = e ->
  wigner_d j m m' x = if (is_projection j m && (m =? m')%Z)%bool then e ^ Z.to_nat j else 0.
Proof.
  intros Hs Hc. destruct (is_projection j m) eqn:P; [|apply wigner_d_out_l; auto].
  destruct (is_projection j m') eqn:P'.
  - rewrite wigner_d_in by auto.
    destruct (is_projection_ex j m P) as (a & Ha & Ma & Ea & Hj).
    destruct (is_projection_ex j m' P') as (b & Hb & Mb & Eb & _).
    rewrite Ea, Eb, (wd_axis _ a b x e) by auto. cbn [andb].
    destruct (Nat.eqb_spec a b), (Z.eqb_spec m m'); auto; subst; lia.
  - rewrite wigner_d_out_r by auto. cbn [andb]. destruct (Z.eqb_spec m m'); auto. congruence.
Qed.
Lemma wigner_d_0 j m m' :
  wigner_d j m m' 0 = if (is_projection j m && (m =? m')%Z)%bool then 1 else 0.
Proof.
  rewrite (wigner_d_axis j m m' 0 1) by (replace (0 / 2) with 0 by field; first [apply sin_0|apply cos_0]).
  destruct (is_projection j m && (m =? m')%Z)%bool; auto. apply pow1.
Qed.
Lemma wigner_d_2pi j m m' :
  wigner_d j m m' (2 * PI) = if (is_projection j m && (m =? m')%Z)%bool then (-1) ^ Z.to_nat j else 0.
Proof.
  apply wigner_d_axis; replace (2 * PI / 2) with PI by field; [apply sin_PI|apply cos_PI].
Qed.
Lemma wigner_d_plus_2pi j m m' x :
  wigner_d j m m' (x + 2 * PI) = (-1) ^ Z.to_nat j * wigner_d j m m' x.
Proof.
  rewrite <- wigner_d_group.
  rewrite (Rsum_ext _ _ (fun k => (-1) ^ Z.to_nat j * (wigner_d j m k x * wigner_d j k m' 0))).
  - rewrite Rsum_scal_l, wigner_d_group, Rplus_0_r. reflexivity.
  - intros k _. rewrite wigner_d_2pi, wigner_d_0.
    destruct (is_projection j k && (k =? m')%Z)%bool; ring.
Qed.

Lemma wigner_d_orthogonal_l j m m' x :
  Rsum (spin_range2 j) (fun k => wigner_d j k m x * wigner_d j k m' x)
  = if (is_projection j m && (m =? m')%Z)%bool then 1 else 0.
Proof.
  rewrite <- wigner_d_0. replace 0 with (- x + x) at 1 by ring. rewrite <- wigner_d_group.
  apply Rsum_ext. intros k _. rewrite (wigner_d_transpose j m k x). reflexivity.
Qed.
Lemma wigner_d_orthogonal_r j m m' x :
  Rsum (spin_range2 j) (fun k => wigner_d j m k x * wigner_d j m' k x)
  = if (is_projection j m && (m =? m')%Z)%bool then 1 else 0.
Proof.
  rewrite <- wigner_d_0. replace 0 with (x + - x) at 1 by ring. rewrite <- wigner_d_group.
  apply Rsum_ext. intros k _. rewrite (wigner_d_transpose j k m' x). reflexivity.
Qed.

(** The convention: spin 1/2. *)
Lemma wigner_d_half_pm beta : wigner_d 1 1 (-1) beta = - sin (beta / 2).
Proof.
  unfold wigner_d. cbn [is_projection]. change (is_projection 1 1 && is_projection 1 (-1))%bool with true.
  cbv iota. change (Z.to_nat ((1 + 1) / 2)) with 1%nat. change (Z.to_nat ((1 + -1) / 2)) with 0%nat.
  change (Z.to_nat 1) with 1%nat. unfold wd, wd_term. cbn. rewrite !Rmult_1_r, sqrt_1. field.
Qed.
Lemma wigner_d_half_pp beta : wigner_d 1 1 1 beta = cos (beta / 2).
Proof.
  unfold wigner_d. change (is_projection 1 1 && is_projection 1 1)%bool with true.
  cbv iota. change (Z.to_nat ((1 + 1) / 2)) with 1%nat.
  change (Z.to_nat 1) with 1%nat. unfold wd, wd_term. cbn. rewrite !Rmult_1_r, sqrt_1. field.
Qed.
Lemma wigner_d_1_00 beta : wigner_d 2 0 0 beta = cos beta.
Proof.
  unfold wigner_d. change (is_projection 2 0 && is_projection 2 0)%bool with true.
  cbv iota. change (Z.to_nat ((2 + 0) / 2)) with 1%nat.
  change (Z.to_nat 2) with 2%nat. unfold wd, wd_term. cbn. rewrite !Rmult_1_r, sqrt_1.
  replace beta with (2 * (beta / 2)) at 5 by field. rewrite cos_2a. field.
Qed.
Lemma wigner_d_spin0 beta : wigner_d 0 0 0 beta = 1.
Proof.
  unfold wigner_d. change (is_projection 0 0 && is_projection 0 0)%bool with true.
  cbv iota. change (Z.to_nat ((0 + 0) / 2)) with 0%nat.
  change (Z.to_nat 0) with 0%nat. unfold wd, wd_term. cbn. rewrite !Rmult_1_r, sqrt_1. field.
Qed.
