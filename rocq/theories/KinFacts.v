(** Real algebra of the three-body kinematics. *)
From Coq Require Import String Reals Lra Psatz.
From Verif Require Import Expr SpecKin.
Local Open Scope R_scope.

(** ** Gram determinant *)
(** In terms of squared masses [xi] and invariants [si]. *)
Definition gram (x1 x2 x3 s1 s2 s3 : R) : R :=
  let c12 := (s3 - x1 - x2) / 2 in
  let c13 := (s2 - x1 - x3) / 2 in
  let c23 := (s1 - x2 - x3) / 2 in
  x1 * (x2 * x3 - c23 * c23) - c12 * (c12 * x3 - c23 * c13) + c13 * (c12 * c23 - x2 * c13).

Lemma cauchy3 a b c d e f :
  (a * d + b * e + c * f) * (a * d + b * e + c * f) <=
  (a * a + b * b + c * c) * (d * d + e * e + f * f).
Proof.
  assert (H : (a * a + b * b + c * c) * (d * d + e * e + f * f) -
    (a * d + b * e + c * f) * (a * d + b * e + c * f) =
    (a * e - b * d) * (a * e - b * d) + (a * f - c * d) * (a * f - c * d)
    + (b * f - c * e) * (b * f - c * e)) by ring.
  pose proof (Rle_0_sqr (a * e - b * d)) as H1. pose proof (Rle_0_sqr (a * f - c * d)) as H2.
  pose proof (Rle_0_sqr (b * f - c * e)) as H3. unfold Rsqr in *. lra.
Qed.

(** Two causal, future-directed vectors have a non-negative product. *)
Lemma future_mdot p q mp mq : on_shell mp p -> on_shell mq q ->
  0 <= vE p * vE q - dot (vp p) (vp q).
Proof.
  intros (Hm & HE & HP) (Hm' & HE' & HQ). unfold msq in *.
  destruct p as [Ep [a b c]], q as [Eq [d e f]]. unfold dot in *; simpl in *.
  assert (HX : 0 <= a * a + b * b + c * c) by nra.
  assert (HY : 0 <= d * d + e * e + f * f) by nra.
  assert (P2 : a * a + b * b + c * c <= Ep * Ep) by nra.
  assert (Q2 : d * d + e * e + f * f <= Eq * Eq) by nra.
  pose proof (cauchy3 a b c d e f) as CS.
  assert (B : (a * d + b * e + c * f) * (a * d + b * e + c * f) <= (Ep * Eq) * (Ep * Eq)).
  { apply Rle_trans with (1 := CS).
    replace (Ep * Eq * (Ep * Eq)) with ((Ep * Ep) * (Eq * Eq)) by ring.
    apply Rmult_le_compat; assumption. }
  assert (N : 0 <= Ep * Eq) by (apply Rmult_le_pos; assumption).
  destruct (Rle_dec (a * d + b * e + c * f) (Ep * Eq)) as [L|L]; [lra|].
  exfalso. apply Rnot_le_lt in L. nra.
Qed.

Lemma gram_momenta p1 p2 p3 :
  gram (msq p1) (msq p2) (msq p3) (msq (add4 p2 p3)) (msq (add4 p3 p1)) (msq (add4 p1 p2)) =
  let '(V4 e1 (V3 a1 b1 c1)) := p1 in
  let '(V4 e2 (V3 a2 b2 c2)) := p2 in
  let '(V4 e3 (V3 a3 b3 c3)) := p3 in
  let Dabc := a1 * (b2 * c3 - b3 * c2) - b1 * (a2 * c3 - a3 * c2) + c1 * (a2 * b3 - a3 * b2) in
  let Deab := e1 * (a2 * b3 - a3 * b2) - a1 * (e2 * b3 - e3 * b2) + b1 * (e2 * a3 - e3 * a2) in
  let Deac := e1 * (a2 * c3 - a3 * c2) - a1 * (e2 * c3 - e3 * c2) + c1 * (e2 * a3 - e3 * a2) in
  let Debc := e1 * (b2 * c3 - b3 * c2) - b1 * (e2 * c3 - e3 * c2) + c1 * (e2 * b3 - e3 * b2) in
  Deab * Deab + Deac * Deac + Debc * Debc - Dabc * Dabc.
Proof.
  destruct p1 as [e1 [a1 b1 c1]], p2 as [e2 [a2 b2 c2]], p3 as [e3 [a3 b3 c3]].
  unfold gram, msq, add4, add3, dot; simpl. field.
Qed.

Lemma gram_nonneg env p1 p2 p3 : momenta_of env p1 p2 p3 ->
  0 <= gram (msq p1) (msq p2) (msq p3) (msq (add4 p2 p3)) (msq (add4 p3 p1)) (msq (add4 p1 p2)).
Proof.
  intros (O1 & O2 & O3 & O0 & _). rewrite gram_momenta.
  destruct p1 as [e1 [a1 b1 c1]], p2 as [e2 [a2 b2 c2]], p3 as [e3 [a3 b3 c3]].
  set (Dabc := a1 * (b2 * c3 - b3 * c2) - b1 * (a2 * c3 - a3 * c2) + c1 * (a2 * b3 - a3 * b2)).
  set (Deab := e1 * (a2 * b3 - a3 * b2) - a1 * (e2 * b3 - e3 * b2) + b1 * (e2 * a3 - e3 * a2)).
  set (Deac := e1 * (a2 * c3 - a3 * c2) - a1 * (e2 * c3 - e3 * c2) + c1 * (e2 * a3 - e3 * a2)).
  set (Debc := e1 * (b2 * c3 - b3 * c2) - b1 * (e2 * c3 - e3 * c2) + c1 * (e2 * b3 - e3 * b2)).
  cbv zeta.
  destruct O1 as (M1 & E1 & Q1), O2 as (M2 & E2 & Q2), O3 as (M3 & E3 & Q3), O0 as (M0 & E0 & Q0).
  unfold msq, add4, add3, dot in *; simpl in *.
  set (E := e1 + (e2 + e3)) in *. set (A := a1 + (a2 + a3)) in *.
  set (B := b1 + (b2 + b3)) in *. set (C := c1 + (c2 + c3)) in *.
  assert (Ort : Dabc * E = A * Debc + B * (- Deac) + C * Deab).
  { unfold Dabc, Debc, Deac, Deab, A, B, C, E. ring. }
  pose proof (cauchy3 A B C Debc (- Deac) Deab) as CS. rewrite <- Ort in CS.
  assert (PE : A * A + B * B + C * C <= E * E) by nra.
  set (S := Debc * Debc + - Deac * - Deac + Deab * Deab) in *.
  assert (HS : 0 <= S).
  { unfold S. pose proof (Rle_0_sqr Debc). pose proof (Rle_0_sqr (- Deac)).
    pose proof (Rle_0_sqr Deab). unfold Rsqr in *. lra. }
  replace (Deab * Deab + Deac * Deac + Debc * Debc - Dabc * Dabc) with (S - Dabc * Dabc)
    by (unfold S; ring).
  destruct (Rle_lt_or_eq_dec 0 E E0) as [Ep|Ez].
  - assert (X : Dabc * Dabc * (E * E) <= S * (E * E)).
    { replace (Dabc * Dabc * (E * E)) with (Dabc * E * (Dabc * E)) by ring.
      apply Rle_trans with (1 := CS). rewrite Rmult_comm. apply Rmult_le_compat_l; auto. }
    assert (Y : 0 < E * E) by (apply Rmult_lt_0_compat; assumption).
    apply Rmult_le_reg_r in X; auto. lra.
  - assert (Z1 : e1 = 0) by (unfold E in *; lra). assert (Z2 : e2 = 0) by (unfold E in *; lra).
    assert (Z3 : e3 = 0) by (unfold E in *; lra).
    assert (N1 : a1 * a1 + b1 * b1 + c1 * c1 <= 0) by (rewrite Z1 in Q1; nra).
    assert (a1 = 0) by nra. assert (b1 = 0) by nra. assert (c1 = 0) by nra.
    unfold S, Dabc, Debc, Deac, Deab. rewrite Z1, Z2, Z3, H, H0, H1. nra.
Qed.

(** ** Identities *)
Section Identities.
  Variables x0 x1 x2 x3 s1 s2 s3 : R.
  Hypothesis Mand : x0 = s1 + s2 + s3 - x1 - x2 - x3.
  Let G := gram x1 x2 x3 s1 s2 s3.

  (** scattering angle: numerator for (i,j;k) *)
  Definition n_theta x0 xi xj xk sj sk :=
    2 * sk * (sj - xk - xi) - (sk + xi - xj) * (x0 - sk - xk).
  Definition n_hat x0 xi xj si sj sk :=
    (x0 + xi - si) * (x0 + xj - sj) - 2 * x0 * (sk - xi - xj).
  (** zeta: angle of 0 and [b] in the rest frame of [a]; [c] is the third particle *)
  Definition n_zeta0 x0 xa xb sa sb sc :=
    2 * xa * (sb - x0 - xb) + (x0 + xa - sa) * (sc - xa - xb).
  (** zeta: angle of [b] and [c] in the rest frame of [a] *)
  Definition n_zeta xa xb xc sa sb sc :=
    2 * xa * (xb + xc - sa) + (sb - xa - xc) * (sc - xa - xb).

  Lemma id_theta12 : kallen x0 x3 s3 * kallen s3 x1 x2 -
    n_theta x0 x1 x2 x3 s2 s3 * n_theta x0 x1 x2 x3 s2 s3 = 16 * s3 * G.
  Proof. unfold G, gram, n_theta, kallen; rewrite Mand; field. Qed.
  Lemma id_theta23 : kallen x0 x1 s1 * kallen s1 x2 x3 -
    n_theta x0 x2 x3 x1 s3 s1 * n_theta x0 x2 x3 x1 s3 s1 = 16 * s1 * G.
  Proof. unfold G, gram, n_theta, kallen; rewrite Mand; field. Qed.
  Lemma id_theta31 : kallen x0 x2 s2 * kallen s2 x3 x1 -
    n_theta x0 x3 x1 x2 s1 s2 * n_theta x0 x3 x1 x2 s1 s2 = 16 * s2 * G.
  Proof. unfold G, gram, n_theta, kallen; rewrite Mand; field. Qed.

  Lemma id_hat31 : kallen x0 x1 s1 * kallen x0 s3 x3 -
    n_hat x0 x3 x1 s3 s1 s2 * n_hat x0 x3 x1 s3 s1 s2 = 16 * x0 * G.
  Proof. unfold G, gram, n_hat, kallen; rewrite Mand; field. Qed.
  Lemma id_hat12 : kallen x0 x2 s2 * kallen x0 s1 x1 -
    n_hat x0 x1 x2 s1 s2 s3 * n_hat x0 x1 x2 s1 s2 s3 = 16 * x0 * G.
  Proof. unfold G, gram, n_hat, kallen; rewrite Mand; field. Qed.
  Lemma id_hat23 : kallen x0 x3 s3 * kallen x0 s2 x2 -
    n_hat x0 x2 x3 s2 s3 s1 * n_hat x0 x2 x3 s2 s3 s1 = 16 * x0 * G.
  Proof. unfold G, gram, n_hat, kallen; rewrite Mand; field. Qed.
  Lemma id_hat_prod : n_hat x0 x3 x1 s3 s1 s2 * n_hat x0 x1 x2 s1 s2 s3 - 16 * x0 * G =
    n_hat x0 x2 x3 s2 s3 s1 * kallen x0 x1 s1.
  Proof. unfold G, gram, n_hat, kallen; rewrite Mand; field. Qed.
  Lemma id_hat_sum : n_hat x0 x3 x1 s3 s1 s2 + n_hat x0 x1 x2 s1 s2 s3 = - kallen x0 x1 s1.
  Proof. unfold n_hat, kallen; rewrite Mand; ring. Qed.

  (** zeta of particle 1 *)
  Lemma id_z1_12 : kallen x0 x1 s1 * kallen s3 x1 x2 -
    n_zeta0 x0 x1 x2 s1 s2 s3 * n_zeta0 x0 x1 x2 s1 s2 s3 = 16 * x1 * G.
  Proof. unfold G, gram, n_zeta0, kallen; rewrite Mand; field. Qed.
  Lemma id_z1_13 : kallen x0 x1 s1 * kallen s2 x1 x3 -
    n_zeta0 x0 x1 x3 s1 s3 s2 * n_zeta0 x0 x1 x3 s1 s3 s2 = 16 * x1 * G.
  Proof. unfold G, gram, n_zeta0, kallen; rewrite Mand; field. Qed.
  Lemma id_z1_23 : kallen s2 x3 x1 * kallen s3 x1 x2 -
    n_zeta x1 x2 x3 s1 s2 s3 * n_zeta x1 x2 x3 s1 s2 s3 = 16 * x1 * G.
  Proof. unfold G, gram, n_zeta, kallen; field. Qed.
  Lemma id_z1_prod : n_zeta0 x0 x1 x3 s1 s3 s2 * n_zeta0 x0 x1 x2 s1 s2 s3 - 16 * x1 * G =
    n_zeta x1 x2 x3 s1 s2 s3 * kallen x0 x1 s1.
  Proof. unfold G, gram, n_zeta0, n_zeta, kallen; rewrite Mand; field. Qed.
  Lemma id_z1_sum : n_zeta0 x0 x1 x3 s1 s3 s2 + n_zeta0 x0 x1 x2 s1 s2 s3 = kallen x0 x1 s1.
  Proof. unfold n_zeta0, kallen; rewrite Mand; ring. Qed.
End Identities.

Lemma id_theta_swap x0 xi xj xk si sj sk : x0 = si + sj + sk - xi - xj - xk ->
  n_theta x0 xj xi xk si sk = - n_theta x0 xi xj xk sj sk.
Proof. intros ->. unfold n_theta. ring. Qed.

Lemma gram_cycle x1 x2 x3 s1 s2 s3 : gram x2 x3 x1 s2 s3 s1 = gram x1 x2 x3 s1 s2 s3.
Proof. unfold gram; field. Qed.
Lemma kallen_rot x y z : kallen y z x = kallen x y z.
Proof. unfold kallen; ring. Qed.
Lemma kallen_swap x y z : kallen x z y = kallen x y z.
Proof. unfold kallen; ring. Qed.

(** ** Arc cosines *)
Lemma acos_ratio N A B : 0 < A -> 0 < B -> N * N <= A * B -> -1 <= N / (sqrt A * sqrt B) <= 1.
Proof.
  intros HA HB HN.
  assert (D : 0 < sqrt A * sqrt B) by (apply Rmult_lt_0_compat; apply sqrt_lt_R0; auto).
  assert (D2 : (sqrt A * sqrt B) * (sqrt A * sqrt B) = A * B).
  { replace ((sqrt A * sqrt B) * (sqrt A * sqrt B)) with ((sqrt A * sqrt A) * (sqrt B * sqrt B)) by ring.
    rewrite !sqrt_sqrt; lra. }
  set (d := sqrt A * sqrt B) in *. clearbody d.
  assert (- d <= N <= d) by nra.
  split.
  - apply Rmult_le_reg_r with d; auto. unfold Rdiv. rewrite Rmult_assoc, Rinv_l; lra.
  - apply Rmult_le_reg_r with d; auto. unfold Rdiv. rewrite Rmult_assoc, Rinv_l; lra.
Qed.

Lemma sin_acos_ratio N A B T : 0 < A -> 0 < B -> 0 <= T -> A * B - N * N = T ->
  sin (acos (N / (sqrt A * sqrt B))) = sqrt T / (sqrt A * sqrt B).
Proof.
  intros HA HB HT E.
  assert (I : -1 <= N / (sqrt A * sqrt B) <= 1) by (apply acos_ratio; auto; lra).
  rewrite sin_acos by auto.
  assert (D : 0 < sqrt A * sqrt B) by (apply Rmult_lt_0_compat; apply sqrt_lt_R0; auto).
  assert (D2 : (sqrt A * sqrt B) * (sqrt A * sqrt B) = A * B).
  { replace ((sqrt A * sqrt B) * (sqrt A * sqrt B)) with ((sqrt A * sqrt A) * (sqrt B * sqrt B)) by ring.
    rewrite !sqrt_sqrt; lra. }
  set (d := sqrt A * sqrt B) in *. clearbody d.
  unfold Rsqr. replace (1 - N / d * (N / d)) with (T / (d * d)).
  - rewrite sqrt_div_alt by nra. rewrite sqrt_square by lra. reflexivity.
  - rewrite <- E, <- D2. field. lra.
Qed.

Lemma cos_acos_sum A B C T na nb nc :
  0 < A -> 0 < B -> 0 < C -> 0 <= T ->
  A * B - na * na = T -> A * C - nb * nb = T -> B * C - nc * nc = T ->
  na * nb - T = nc * A ->
  cos (acos (na / (sqrt A * sqrt B)) + acos (nb / (sqrt A * sqrt C))) = nc / (sqrt B * sqrt C) /\
  sin (acos (na / (sqrt A * sqrt B)) + acos (nb / (sqrt A * sqrt C))) =
    sqrt T * (na + nb) / (A * (sqrt B * sqrt C)).
Proof.
  intros HA HB HC HT Ea Eb Ec Ep.
  assert (Ia : -1 <= na / (sqrt A * sqrt B) <= 1) by (apply acos_ratio; auto; lra).
  assert (Ib : -1 <= nb / (sqrt A * sqrt C) <= 1) by (apply acos_ratio; auto; lra).
  assert (SA : sqrt A * sqrt A = A) by (apply sqrt_sqrt; lra).
  assert (ST : sqrt T * sqrt T = T) by (apply sqrt_sqrt; lra).
  pose proof (sqrt_lt_R0 A HA). pose proof (sqrt_lt_R0 B HB). pose proof (sqrt_lt_R0 C HC).
  split.
  - rewrite cos_plus, !cos_acos by auto.
    rewrite (sin_acos_ratio na A B T), (sin_acos_ratio nb A C T) by auto.
    replace (na / (sqrt A * sqrt B) * (nb / (sqrt A * sqrt C)) -
      sqrt T / (sqrt A * sqrt B) * (sqrt T / (sqrt A * sqrt C)))
      with ((na * nb - sqrt T * sqrt T) / (sqrt A * sqrt A * (sqrt B * sqrt C))) by (field; lra).
    rewrite ST, SA, Ep. field. lra.
  - rewrite sin_plus, !cos_acos by auto.
    rewrite (sin_acos_ratio na A B T), (sin_acos_ratio nb A C T) by auto.
    replace (sqrt T / (sqrt A * sqrt B) * (nb / (sqrt A * sqrt C)) +
      na / (sqrt A * sqrt B) * (sqrt T / (sqrt A * sqrt C)))
      with (sqrt T * (na + nb) / (sqrt A * sqrt A * (sqrt B * sqrt C))) by (field; lra).
    rewrite SA. reflexivity.
Qed.

(** Eq. (A9): the angle between [b] and [c] is the sum of the angles to 0. *)
Lemma acos_sum A B C T na nb nc :
  0 < A -> 0 < B -> 0 < C -> 0 <= T ->
  A * B - na * na = T -> A * C - nb * nb = T -> B * C - nc * nc = T ->
  na * nb - T = nc * A -> na + nb = A ->
  acos (nc / (sqrt B * sqrt C)) =
  acos (na / (sqrt A * sqrt B)) + acos (nb / (sqrt A * sqrt C)).
Proof.
  intros HA HB HC HT Ea Eb Ec Ep Es.
  destruct (cos_acos_sum A B C T na nb nc) as [HC1 HS1]; auto.
  set (a := acos (na / (sqrt A * sqrt B))) in *.
  set (b := acos (nb / (sqrt A * sqrt C))) in *.
  rewrite <- HC1. rewrite acos_cos; auto.
  assert (Ba : 0 <= a <= PI) by apply acos_bound.
  assert (Bb : 0 <= b <= PI) by apply acos_bound.
  split; [lra|].
  pose proof (sqrt_lt_R0 A HA). pose proof (sqrt_lt_R0 B HB). pose proof (sqrt_lt_R0 C HC).
  assert (HS : 0 <= sin (a + b)).
  { rewrite HS1, Es. apply Rmult_le_pos; [apply Rmult_le_pos; [apply sqrt_pos|lra]|].
    apply Rlt_le, Rinv_0_lt_compat. apply Rmult_lt_0_compat; [auto|].
    apply Rmult_lt_0_compat; auto. }
  destruct (Rle_dec (a + b) PI) as [L|L]; auto. exfalso. apply Rnot_le_lt in L.
  destruct (Rle_lt_or_eq_dec (a + b) (2 * PI)) as [L2|L2]; [lra| |].
  - pose proof (sin_lt_0 (a + b) L L2). lra.
  - assert (a = PI) by lra. assert (b = PI) by lra.
    assert (Ca : cos a = -1) by (rewrite H2; apply cos_PI).
    assert (Cb : cos b = -1) by (rewrite H3; apply cos_PI).
    unfold a in Ca. rewrite cos_acos in Ca by (apply acos_ratio; auto; lra).
    unfold b in Cb. rewrite cos_acos in Cb by (apply acos_ratio; auto; lra).
    assert (Na : na < 0).
    { apply Rmult_lt_reg_r with (/ (sqrt A * sqrt B)).
      - apply Rinv_0_lt_compat, Rmult_lt_0_compat; auto.
      - unfold Rdiv in Ca. lra. }
    assert (Nb : nb < 0).
    { apply Rmult_lt_reg_r with (/ (sqrt A * sqrt C)).
      - apply Rinv_0_lt_compat, Rmult_lt_0_compat; auto.
      - unfold Rdiv in Cb. lra. }
    lra.
Qed.

(** Three vectors that sum to zero: the angles close to a full turn. *)
Lemma acos_turn A B C T na nb nc :
  0 < A -> 0 < B -> 0 < C -> 0 <= T ->
  A * B - na * na = T -> A * C - nb * nb = T -> B * C - nc * nc = T ->
  na * nb - T = nc * A -> na + nb = - A ->
  acos (na / (sqrt A * sqrt B)) + acos (nb / (sqrt A * sqrt C)) + acos (nc / (sqrt B * sqrt C))
    = 2 * PI.
Proof.
  intros HA HB HC HT Ea Eb Ec Ep Es.
  destruct (cos_acos_sum A B C T na nb nc) as [HC1 HS1]; auto.
  set (a := acos (na / (sqrt A * sqrt B))) in *.
  set (b := acos (nb / (sqrt A * sqrt C))) in *.
  assert (Ba : 0 <= a <= PI) by apply acos_bound.
  assert (Bb : 0 <= b <= PI) by apply acos_bound.
  pose proof (sqrt_lt_R0 A HA). pose proof (sqrt_lt_R0 B HB). pose proof (sqrt_lt_R0 C HC).
  assert (HS : sin (a + b) <= 0).
  { rewrite HS1, Es. unfold Rdiv.
    assert (0 < / (A * (sqrt B * sqrt C))).
    { apply Rinv_0_lt_compat. apply Rmult_lt_0_compat; [auto|]. apply Rmult_lt_0_compat; auto. }
    assert (0 <= sqrt T * A) by (apply Rmult_le_pos; [apply sqrt_pos|lra]).
    nra. }
  assert (G : PI <= a + b).
  { destruct (Rle_dec PI (a + b)) as [L|L]; auto. exfalso. apply Rnot_le_lt in L.
    destruct (Rle_lt_or_eq_dec 0 (a + b)) as [L2|L2]; [lra| |].
    - pose proof (sin_gt_0 (a + b) L2 L). lra.
    - assert (Ha : a = 0) by lra. assert (Hb : b = 0) by lra.
      assert (Ca : cos a = 1) by (rewrite Ha; apply cos_0).
      assert (Cb : cos b = 1) by (rewrite Hb; apply cos_0).
      unfold a in Ca. rewrite cos_acos in Ca by (apply acos_ratio; auto; lra).
      unfold b in Cb. rewrite cos_acos in Cb by (apply acos_ratio; auto; lra).
      assert (Na : 0 < na).
      { apply Rmult_lt_reg_r with (/ (sqrt A * sqrt B)).
        - apply Rinv_0_lt_compat, Rmult_lt_0_compat; auto.
        - unfold Rdiv in Ca. lra. }
      assert (Nb : 0 < nb).
      { apply Rmult_lt_reg_r with (/ (sqrt A * sqrt C)).
        - apply Rinv_0_lt_compat, Rmult_lt_0_compat; auto.
        - unfold Rdiv in Cb. lra. }
      lra. }
  rewrite <- HC1.
  replace (cos (a + b)) with (cos (2 * PI - (a + b))).
  - rewrite acos_cos; [lra|]. split; lra.
  - rewrite cos_minus, cos_2PI, sin_2PI. ring.
Qed.
