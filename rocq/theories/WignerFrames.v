(** Helicity frames: a triangle of boosts and rotations (C131) *)
From Coq Require Import ZArith Reals List Lra Lia Psatz.
From Verif Require Import Prelude Expr SpecKin Angles KinFacts AnglesFacts AnglesProofs SpecWigner.
Import ListNotations.
Local Open Scope R_scope.

Definition det2 (a : mat2) : R := m11 a * m22 a - m12 a * m21 a.
Lemma det2_mul a b : det2 (mul2 a b) = det2 a * det2 b.
Proof. unfold det2, mul2; cbn [m11 m12 m21 m22]. ring. Qed.
Lemma mul2_assoc a b c : mul2 a (mul2 b c) = mul2 (mul2 a b) c.
Proof. unfold mul2; cbn [m11 m12 m21 m22]. f_equal; ring. Qed.
Lemma mul2_scale t a b : mul2 (scale2 t a) b = scale2 t (mul2 a b).
Proof. unfold mul2, scale2; cbn [m11 m12 m21 m22]. f_equal; ring. Qed.
Lemma mul2_scale_r t a b : mul2 a (scale2 t b) = scale2 t (mul2 a b).
Proof. unfold mul2, scale2; cbn [m11 m12 m21 m22]. f_equal; ring. Qed.
Lemma scale2_scale t u a : scale2 t (scale2 u a) = scale2 (t * u) a.
Proof. unfold scale2; cbn [m11 m12 m21 m22]. f_equal; ring. Qed.
Lemma scale2_1 a : scale2 1 a = a.
Proof. destruct a as [pa qa ra ua]. unfold scale2; cbn [m11 m12 m21 m22]. f_equal; ring. Qed.
Lemma rot_add a b : mul2 (spinor_rot a) (spinor_rot b) = spinor_rot (a + b).
Proof.
  unfold mul2, spinor_rot; cbn [m11 m12 m21 m22]. replace ((a + b) / 2) with (a / 2 + b / 2) by lra.
  rewrite cos_plus, sin_plus. f_equal; ring.
Qed.
Lemma rot_0 a : mul2 (spinor_rot 0) a = a.
Proof.
  destruct a as [pa qa ra ua]. unfold mul2, spinor_rot; cbn [m11 m12 m21 m22]. replace (0 / 2) with 0 by lra. rewrite cos_0, sin_0.
  f_equal; ring.
Qed.
Lemma rot_0r a : mul2 a (spinor_rot 0) = a.
Proof.
  destruct a as [pa qa ra ua]. unfold mul2, spinor_rot; cbn [m11 m12 m21 m22]. replace (0 / 2) with 0 by lra. rewrite cos_0, sin_0.
  f_equal; ring.
Qed.
Lemma rot_turn a : spinor_rot (a + 2 * PI) = scale2 (-1) (spinor_rot a).
Proof.
  unfold spinor_rot, scale2; cbn [m11 m12 m21 m22]. replace ((a + 2 * PI) / 2) with (a / 2 + PI) by lra.
  rewrite neg_cos, neg_sin. f_equal; ring.
Qed.
Lemma det_rot a : det2 (spinor_rot a) = 1.
Proof.
  unfold det2, spinor_rot; cbn [m11 m12 m21 m22]. pose proof (sin2_cos2 (a / 2)) as E. unfold Rsqr in E. lra.
Qed.

(** Two matrices with the same products with their transposed matrices *)
Lemma same_products p q r u p' q' r' u' :
  p * u - q * r = 1 -> p' * u' - q' * r' = 1 ->
  p * p + q * q = p' * p' + q' * q' -> p * r + q * u = p' * r' + q' * u' -> r * r + u * u = r' * r' + u' * u' ->
  p * p + r * r = p' * p' + r' * r' -> p * q + r * u = p' * q' + r' * u' -> q * q + u * u = q' * q' + u' * u' ->
  (p' * p' + r' * r' <> q' * q' + u' * u' \/ p' * q' + r' * u' <> 0) ->
  (p = p' /\ q = q' /\ r = r' /\ u = u') \/ (p = - p' /\ q = - q' /\ r = - r' /\ u = - u').
Proof.
  intros D D' A1 A2 A3 B1 B2 B3 NS.
  set (x := u' * p - q' * r). set (y := p' * r - r' * p). set (z := u' * q - q' * u). set (w := p' * u - r' * q).
  assert (X1 : x * x + z * z = 1).
  { unfold x, z. replace ((u' * p - q' * r) * (u' * p - q' * r) + (u' * q - q' * u) * (u' * q - q' * u))
      with (u' * u' * (p * p + q * q) - 2 * (u' * q') * (p * r + q * u) + q' * q' * (r * r + u * u)) by ring.
    rewrite A1, A2, A3. replace 1 with ((p' * u' - q' * r') * (p' * u' - q' * r')) by (rewrite D'; ring). ring. }
  assert (X2 : y * y + w * w = 1).
  { unfold y, w. replace ((p' * r - r' * p) * (p' * r - r' * p) + (p' * u - r' * q) * (p' * u - r' * q))
      with (r' * r' * (p * p + q * q) - 2 * (p' * r') * (p * r + q * u) + p' * p' * (r * r + u * u)) by ring.
    rewrite A1, A2, A3. replace 1 with ((p' * u' - q' * r') * (p' * u' - q' * r')) by (rewrite D'; ring). ring. }
  assert (X3 : x * y + z * w = 0).
  { unfold x, y, z, w.
    replace ((u' * p - q' * r) * (p' * r - r' * p) + (u' * q - q' * u) * (p' * u - r' * q))
      with (- (u' * r') * (p * p + q * q) + (u' * p' + q' * r') * (p * r + q * u) - q' * p' * (r * r + u * u)) by ring.
    rewrite A1, A2, A3. ring. }
  assert (X4 : x * w - y * z = 1).
  { unfold x, y, z, w. replace ((u' * p - q' * r) * (p' * u - r' * q) - (p' * r - r' * p) * (u' * q - q' * u))
      with ((p' * u' - q' * r') * (p * u - q * r)) by ring. rewrite D, D'. ring. }
  assert (W : w = x).
  { replace w with (w * (x * x + z * z)) by (rewrite X1; ring).
    replace (w * (x * x + z * z)) with (x * (x * w - y * z) + z * (x * y + z * w)) by ring. rewrite X4, X3. ring. }
  assert (Z0 : z = - y).
  { replace z with (z * (y * y + w * w)) by (rewrite X2; ring).
    replace (z * (y * y + w * w)) with (w * (x * y + z * w) - y * (x * w - y * z)) by ring. rewrite X4, X3. ring. }
  assert (P : p = p' * x + q' * y).
  { unfold x, y. replace (p' * (u' * p - q' * r) + q' * (p' * r - r' * p)) with ((p' * u' - q' * r') * p) by ring. rewrite D'. ring. }
  assert (Q : q = q' * x - p' * y).
  { rewrite <- W. replace (- p' * y) with (p' * z) by (rewrite Z0; ring).
    replace (q' * w - p' * y) with (q' * w + p' * z) by (rewrite Z0; ring).
    unfold z, w. replace (q' * (p' * u - r' * q) + p' * (u' * q - q' * u)) with ((p' * u' - q' * r') * q) by ring. rewrite D'. ring. }
  assert (Rr : r = r' * x + u' * y).
  { unfold x, y. replace (r' * (u' * p - q' * r) + u' * (p' * r - r' * p)) with ((p' * u' - q' * r') * r) by ring. rewrite D'. ring. }
  assert (U : u = u' * x - r' * y).
  { rewrite <- W. replace (u' * w - r' * y) with (u' * w + r' * z) by (rewrite Z0; ring).
    unfold z, w. replace (u' * (p' * u - r' * q) + r' * (u' * q - q' * u)) with ((p' * u' - q' * r') * u) by ring. rewrite D'. ring. }
  rewrite Z0 in X1. clearbody x y z w. clear X2 X3 X4 W Z0 z w.
  set (a := p' * p' + r' * r') in *. set (b := p' * q' + r' * u') in *. set (c := q' * q' + u' * u') in *.
  assert (E1 : y * ((c - a) * y + 2 * b * x) = 0).
  { assert (E : a * (x * x) + 2 * b * (x * y) + c * (y * y) = a).
    { rewrite <- B1 at 2. rewrite P, Rr. unfold a, b, c. ring. }
    replace (y * ((c - a) * y + 2 * b * x)) with (a * (x * x) + 2 * b * (x * y) + c * (y * y) - a * (x * x + - y * - y)) by ring.
    rewrite E, X1. ring. }
  assert (E2 : y * ((c - a) * x - 2 * b * y) = 0).
  { assert (E : (c - a) * (x * y) + b * (x * x - y * y) = b).
    { rewrite <- B2 at 2. rewrite P, Rr, Q, U. unfold a, b, c. ring. }
    replace (y * ((c - a) * x - 2 * b * y)) with ((c - a) * (x * y) + b * (x * x - y * y) - b * (x * x + - y * - y)) by ring.
    rewrite E, X1. ring. }
  assert (Y : y = 0).
  { apply Rmult_integral in E1. apply Rmult_integral in E2. destruct E1 as [E1|E1]; auto. destruct E2 as [E2|E2]; auto.
    exfalso. assert (S : (c - a) * (c - a) + 4 * (b * b) = 0).
    { replace ((c - a) * (c - a) + 4 * (b * b)) with (((c - a) * (c - a) + 4 * (b * b)) * (x * x + - y * - y)) by (rewrite X1; ring).
      replace (((c - a) * (c - a) + 4 * (b * b)) * (x * x + - y * - y))
        with (((c - a) * y + 2 * b * x) * ((c - a) * y + 2 * b * x) + ((c - a) * x - 2 * b * y) * ((c - a) * x - 2 * b * y)) by ring.
      rewrite E1, E2. ring. }
    clear -S NS. assert (c - a = 0) by nra. assert (b = 0) by nra. lra. }
  subst y. assert (X : (x - 1) * (x + 1) = 0) by lra. apply Rmult_integral in X.
  destruct X as [X|X]; [left|right]; [replace x with 1 in * by lra|replace x with (-1) in * by lra];
    repeat split; lra.
Qed.

(** ** The triangle of boosts *)
(** Boost with cosh = [g], sinh = [h] *)
Definition boost_gh (g h : R) : mat2 := M2 (sqrt (g + h)) 0 0 (sqrt (g - h)).
Lemma half_angle a : 0 <= a <= PI ->
  0 <= cos (a / 2) /\ 0 <= sin (a / 2) /\ cos (a / 2) * cos (a / 2) + sin (a / 2) * sin (a / 2) = 1 /\
  cos a = cos (a / 2) * cos (a / 2) - sin (a / 2) * sin (a / 2) /\ sin a = 2 * (sin (a / 2) * cos (a / 2)).
Proof.
  intros B. pose proof (sin2_cos2 (a / 2)) as E. unfold Rsqr in E.
  repeat split; [apply cos_ge_0; lra|apply sin_ge_0; lra|lra| |].
  - replace a with (2 * (a / 2)) at 1 by lra. rewrite cos_2a. ring.
  - replace a with (2 * (a / 2)) at 1 by lra. rewrite sin_2a. ring.
Qed.
Lemma gh_pos g h : 0 < g -> g * g - h * h = 1 -> 0 < g + h /\ 0 < g - h.
Proof. intros G E. split; nra. Qed.

Lemma unit_one c s : 0 <= c -> c * c + s * s = 1 -> s = 0 -> c = 1.
Proof. intros A E ->. nra. Qed.
Lemma unit_nonzero x y : x * x + y * y = 1 -> x * x - y * y = 0 -> x <> 0 /\ y <> 0.
Proof. intros A B. split; intros ->; lra. Qed.

Section Triangle.
  Variables gi hi gk hk gq hq th hat w : R.
  Hypothesis Gi : 0 < gi. Hypothesis Gk : 0 < gk. Hypothesis Gq : 0 < gq.
  Hypothesis Hi : 0 < hi. Hypothesis Hk : 0 < hk. Hypothesis Hq : 0 < hq.
  Hypothesis Ei : gi * gi - hi * hi = 1. Hypothesis Ek : gk * gk - hk * hk = 1. Hypothesis Eq : gq * gq - hq * hq = 1.
  Hypothesis Bth : 0 <= th <= PI. Hypothesis Bhat : 0 <= hat <= PI. Hypothesis Bw : 0 <= w <= PI.
  Hypothesis T1 : gk * gq + hk * hq * cos th = gi.
  Hypothesis T2 : hk * gq + gk * hq * cos th = - (hi * cos hat).
  Hypothesis T3 : hq * sin th = hi * sin hat.
  Hypothesis T4 : gk * hq + hk * gq * cos th = hi * cos w.
  Hypothesis T5 : hk * sin th = hi * sin w.

  Lemma triangle : mul2 (spinor_rot (PI - hat)) (mul2 (boost_gh gi hi) (spinor_rot w))
    = mul2 (boost_gh gk hk) (mul2 (spinor_rot th) (boost_gh gq hq)).
  Proof.
    destruct (gh_pos gi hi Gi Ei) as [Pi Mi]. destruct (gh_pos gk hk Gk Ek) as [Pk Mk]. destruct (gh_pos gq hq Gq Eq) as [Pq Mq].
    assert (Bphi : 0 <= PI - hat <= PI) by lra.
    destruct (half_angle th Bth) as (ct & st & Nt & Ct & St). destruct (half_angle (PI - hat) Bphi) as (cf & sf & Nf & Cf & Sf).
    destruct (half_angle w Bw) as (cw & sw & Nw & Cw & Sw).
    assert (T2' : hk * gq + gk * hq * cos th = hi * cos (PI - hat)).
    { rewrite T2. rewrite cos_minus, cos_PI, sin_PI. ring. }
    assert (T3' : hq * sin th = hi * sin (PI - hat)).
    { rewrite T3. rewrite sin_minus, cos_PI, sin_PI. ring. }
    assert (QI : forall g h, 0 < g + h -> 0 < g - h -> g * g - h * h = 1 ->
      0 < sqrt (g + h) /\ 0 < sqrt (g - h) /\ sqrt (g + h) * sqrt (g + h) = g + h /\ sqrt (g - h) * sqrt (g - h) = g - h /\
      sqrt (g + h) * sqrt (g - h) = 1).
    { clear. intros g h P M E. repeat split; try (apply sqrt_lt_R0; assumption); try (apply sqrt_sqrt; lra).
      rewrite <- sqrt_mult by lra. replace ((g + h) * (g - h)) with 1 by lra. apply sqrt_1. }
    destruct (QI gi hi Pi Mi Ei) as (e1 & e2 & e3 & e4 & e5). destruct (QI gk hk Pk Mk Ek) as (a1 & a2 & a3 & a4 & a5).
    destruct (QI gq hq Pq Mq Eq) as (b1 & b2 & b3 & b4 & b5). clear QI.
    unfold mul2, spinor_rot, boost_gh; cbn [m11 m12 m21 m22].
    set (c := cos (th / 2)) in *. set (s := sin (th / 2)) in *. set (C := cos ((PI - hat) / 2)) in *. set (S := sin ((PI - hat) / 2)) in *.
    set (X := cos (w / 2)) in *. set (Y := sin (w / 2)) in *.
    set (e := sqrt (gi + hi)) in *. set (e' := sqrt (gi - hi)) in *. set (a := sqrt (gk + hk)) in *. set (a' := sqrt (gk - hk)) in *.
    set (b := sqrt (gq + hq)) in *. set (b' := sqrt (gq - hq)) in *.
    rewrite Ct in T1, T2', T4. rewrite Cf in T2'. rewrite Cw in T4. rewrite St in T3', T5. rewrite Sf in T3'. rewrite Sw in T5.
    assert (NI : C = 0 -> s = 0 -> False).
    { intros Z1 Z2. rewrite Z2 in Nt. rewrite Z1 in Nf. rewrite Z1, Z2 in T2'.
      replace (c * c) with 1 in T2' by lra. replace (S * S) with 1 in T2' by lra.
      assert (0 < hk * gq) by (apply Rmult_lt_0_compat; auto). assert (0 < gk * hq) by (apply Rmult_lt_0_compat; auto). lra. }
    clearbody c s C S X Y e e' a a' b b'. clear Ct Cf Cw St Sf Sw T2 T3 Bth Bhat Bw Bphi.
    assert (F1 : gi = (a * a + a' * a') / 2 * ((b * b + b' * b') / 2) + (a * a - a' * a') / 2 * ((b * b - b' * b') / 2) * (c * c - s * s)).
    { rewrite a3, a4, b3, b4. rewrite <- T1. field. }
    assert (F2 : hi * (C * C - S * S) = (a * a - a' * a') / 2 * ((b * b + b' * b') / 2) + (a * a + a' * a') / 2 * ((b * b - b' * b') / 2) * (c * c - s * s)).
    { rewrite a3, a4, b3, b4. rewrite <- T2'. field. }
    assert (F4 : hi * (X * X - Y * Y) = (a * a + a' * a') / 2 * ((b * b - b' * b') / 2) + (a * a - a' * a') / 2 * ((b * b + b' * b') / 2) * (c * c - s * s)).
    { rewrite a3, a4, b3, b4. rewrite <- T4. field. }
    assert (F3 : hi * (2 * (S * C)) = (b * b - b' * b') / 2 * (2 * (s * c))).
    { rewrite b3, b4. rewrite <- T3'. field. }
    assert (F5 : hi * (2 * (Y * X)) = (a * a - a' * a') / 2 * (2 * (s * c))).
    { rewrite a3, a4. rewrite <- T5. field. }
    assert (E3 : e * e = gi + hi) by exact e3. assert (E4 : e' * e' = gi - hi) by exact e4.
    destruct (same_products
      (C * (e * X + 0 * Y) + - S * (0 * X + e' * Y)) (C * (e * - Y + 0 * X) + - S * (0 * - Y + e' * X))
      (S * (e * X + 0 * Y) + C * (0 * X + e' * Y)) (S * (e * - Y + 0 * X) + C * (0 * - Y + e' * X))
      (a * (c * b + - s * 0) + 0 * (s * b + c * 0)) (a * (c * 0 + - s * b') + 0 * (s * 0 + c * b'))
      (0 * (c * b + - s * 0) + a' * (s * b + c * 0)) (0 * (c * 0 + - s * b') + a' * (s * 0 + c * b')))
      as [(R1 & R2 & R3 & R4)|(R1 & R2 & R3 & R4)].
    - replace 1 with ((C * C + S * S) * ((X * X + Y * Y) * (e * e'))) by (rewrite Nf, Nw, e5; ring). ring.
    - replace 1 with ((c * c + s * s) * (a * a' * (b * b'))) by (rewrite Nt, a5, b5; ring). ring.
    - replace ((C * (e * X + 0 * Y) + - S * (0 * X + e' * Y)) * (C * (e * X + 0 * Y) + - S * (0 * X + e' * Y)) +
        (C * (e * - Y + 0 * X) + - S * (0 * - Y + e' * X)) * (C * (e * - Y + 0 * X) + - S * (0 * - Y + e' * X)))
        with ((X * X + Y * Y) * (C * C * (e * e) + S * S * (e' * e'))) by ring.
      rewrite Nw, E3, E4. replace (1 * (C * C * (gi + hi) + S * S * (gi - hi))) with (gi * (C * C + S * S) + hi * (C * C - S * S)) by ring.
      rewrite Nf, F2, F1. replace 1 with (c * c + s * s) by exact Nt.
      match goal with |- ?l = ?r => replace r with (a * a * (c * c * (b * b) + s * s * (b' * b'))) by ring end.
      match goal with |- ?l = ?r => replace r with (a * a * ((c * c + s * s) * ((b * b + b' * b') / 2) + (c * c - s * s) * ((b * b - b' * b') / 2))) by field end.
      rewrite Nt. field.
    - match goal with |- ?l = ?r => replace l with ((X * X + Y * Y) * ((S * C) * (e * e) - (S * C) * (e' * e'))) by ring;
        replace r with (a * a' * (s * c * (b * b - b' * b'))) by ring end.
      rewrite Nw, E3, E4, a5. replace (1 * (S * C * (gi + hi) - S * C * (gi - hi))) with (hi * (2 * (S * C))) by ring. rewrite F3. field.
    - match goal with |- ?l = ?r => replace l with ((X * X + Y * Y) * (S * S * (e * e) + C * C * (e' * e'))) by ring;
        replace r with (a' * a' * ((c * c + s * s) * ((b * b + b' * b') / 2) - (c * c - s * s) * ((b * b - b' * b') / 2))) by field end.
      rewrite Nw, E3, E4, Nt. replace (1 * (S * S * (gi + hi) + C * C * (gi - hi))) with (gi * (C * C + S * S) - hi * (C * C - S * S)) by ring.
      rewrite Nf, F2, F1. field.
    - match goal with |- ?l = ?r => replace l with ((C * C + S * S) * (X * X * (e * e) + Y * Y * (e' * e'))) by ring;
        replace r with (b * b * ((c * c + s * s) * ((a * a + a' * a') / 2) + (c * c - s * s) * ((a * a - a' * a') / 2))) by field end.
      rewrite Nf, E3, E4, Nt. replace (1 * (X * X * (gi + hi) + Y * Y * (gi - hi))) with (gi * (X * X + Y * Y) + hi * (X * X - Y * Y)) by ring.
      rewrite Nw, F4, F1. field.
    - match goal with |- ?l = ?r => replace l with ((C * C + S * S) * (- (Y * X) * (e * e - e' * e'))) by ring;
        replace r with (b * b' * (- (s * c) * (a * a - a' * a'))) by ring end.
      rewrite Nf, E3, E4, b5. replace (1 * (- (Y * X) * (gi + hi - (gi - hi)))) with (- (hi * (2 * (Y * X)))) by ring. rewrite F5. field.
    - match goal with |- ?l = ?r => replace l with ((C * C + S * S) * (Y * Y * (e * e) + X * X * (e' * e'))) by ring;
        replace r with (b' * b' * ((c * c + s * s) * ((a * a + a' * a') / 2) - (c * c - s * s) * ((a * a - a' * a') / 2))) by field end.
      rewrite Nf, E3, E4, Nt. replace (1 * (Y * Y * (gi + hi) + X * X * (gi - hi))) with (gi * (X * X + Y * Y) - hi * (X * X - Y * Y)) by ring.
      rewrite Nw, F4, F1. field.
    - assert (0 < hi * hi) by (apply Rmult_lt_0_compat; auto).
      match goal with |- ?l <> ?r \/ ?o <> 0 =>
        assert (V1 : l - r = 2 * (hi * (X * X - Y * Y))); [|assert (V2 : o = - (hi * (2 * (Y * X))))] end.
      + rewrite F4.
        match goal with |- ?l = _ => replace l with (b * b * ((c * c + s * s) * ((a * a + a' * a') / 2) + (c * c - s * s) * ((a * a - a' * a') / 2))
          - b' * b' * ((c * c + s * s) * ((a * a + a' * a') / 2) - (c * c - s * s) * ((a * a - a' * a') / 2))) by field end.
        rewrite Nt. field.
      + rewrite F5. match goal with |- ?l = _ => replace l with (b * b' * (- (s * c) * (a * a - a' * a'))) by ring end. rewrite b5. field.
      + destruct (Req_dec (X * X - Y * Y) 0) as [Z|Z].
        * right. rewrite V2. destruct (unit_nonzero X Y Nw Z) as [NX NY]. intros Q.
          assert (H2 : hi * (2 * (Y * X)) = 0) by lra. apply Rmult_integral in H2. destruct H2 as [H2|H2]; [lra|].
          assert (H3 : Y * X = 0) by lra. apply Rmult_integral in H3. tauto.
        * left. intros Q. assert (2 * (hi * (X * X - Y * Y)) = 0) by lra. apply Z.
          assert (H1 : hi * (X * X - Y * Y) = 0) by lra. apply Rmult_integral in H1. destruct H1; lra.
    - rewrite R1, R2, R3, R4. reflexivity.
    - exfalso.
      assert (N1 : 0 <= S * (e * X)) by (repeat apply Rmult_le_pos; lra). assert (N2 : 0 <= C * (e' * Y)) by (repeat apply Rmult_le_pos; lra).
      assert (N3 : 0 <= a' * (s * b)) by (repeat apply Rmult_le_pos; lra).
      assert (Z1 : S * (e * X) = 0) by lra. assert (Z2 : C * (e' * Y) = 0) by lra. assert (Z3 : a' * (s * b) = 0) by lra.
      assert (s0 : s = 0).
      { apply Rmult_integral in Z3. destruct Z3 as [Z3|Z3]; [lra|]. apply Rmult_integral in Z3. destruct Z3; lra. }
      assert (c1 : c = 1) by (exact (unit_one c s ct Nt s0)).
      assert (P : 0 < a * b) by (apply Rmult_lt_0_compat; auto).
      rewrite c1, s0 in R1. assert (R1' : C * (e * X) - S * (e' * Y) = - (a * b)) by lra.
      apply Rmult_integral in Z1. destruct Z1 as [Z1|Z1].
      + assert (C1 : C = 1) by (exact (unit_one C S cf Nf Z1)). rewrite C1, Z1 in R1'.
        assert (0 <= e * X) by (apply Rmult_le_pos; lra). lra.
      + apply Rmult_integral in Z1. destruct Z1 as [Z1|Z1]; [lra|].
        assert (Y1 : Y = 1) by (apply (unit_one Y X sw); [lra|exact Z1]). rewrite Y1 in Z2.
        apply Rmult_integral in Z2. destruct Z2 as [Z2|Z2]; [|lra]. exact (NI Z2 s0).
  Qed.
End Triangle.

(** ** The triangle of a point in phase space *)
Lemma sqrt_of a b : 0 <= b -> b * b = a -> sqrt a = b.
Proof. intros B <-. apply sqrt_square. exact B. Qed.
Lemma boost_values m p e : 0 < m -> 0 <= e -> e * e = m * m + p * p ->
  energy m p = e /\ spinor_boost m p = boost_gh (e / m) (p / m).
Proof.
  intros M E Q. assert (X : energy m p = e) by (apply sqrt_of; [exact E|exact Q]).
  split; [exact X|]. unfold spinor_boost, boost_gh. rewrite X. f_equal; f_equal; field; lra.
Qed.
Lemma acos_parts n a b u T : 0 < a -> 0 < b -> 0 <= u -> u * u = T -> a * a * (b * b) - n * n = T ->
  cos (acos (n / (a * b))) = n / (a * b) /\ sin (acos (n / (a * b))) = u / (a * b) /\ 0 <= acos (n / (a * b)) <= PI.
Proof.
  intros A B U Q E.
  assert (A2 : 0 < a * a) by (apply Rmult_lt_0_compat; auto). assert (B2 : 0 < b * b) by (apply Rmult_lt_0_compat; auto).
  assert (Sa : sqrt (a * a) = a) by (apply sqrt_square; lra). assert (Sb : sqrt (b * b) = b) by (apply sqrt_square; lra).
  assert (T0 : 0 <= T) by (rewrite <- Q; apply Rle_0_sqr).
  pose proof (sin_acos_ratio n (a * a) (b * b) T A2 B2 T0 E) as S.
  pose proof (acos_ratio n (a * a) (b * b) A2 B2 ltac:(lra)) as C.
  rewrite Sa, Sb in S, C. rewrite (sqrt_of T u U Q) in S.
  split; [apply cos_acos; exact C|]. split; [exact S|]. apply acos_bound.
Qed.

Section Base.
  Variables m0 mi mj mk si sj sk : R.
  Notation x0 := (m0 * m0). Notation xi := (mi * mi). Notation xj := (mj * mj). Notation xk := (mk * mk).
  Hypothesis M0 : 0 < m0. Hypothesis Mi : 0 < mi. Hypothesis K : 0 < sk.
  Hypothesis PF : phys_facts x0 xi xj xk si sj sk.
  Hypothesis N1 : 0 < kallen x0 xi si. Hypothesis N2 : 0 < kallen x0 xk sk. Hypothesis N3 : 0 < kallen sk xi xj.
  Hypothesis P1 : 0 <= sk + xi - xj. Hypothesis P2 : 0 <= x0 + sk - xk. Hypothesis P3 : 0 <= x0 + xi - si.

  Let t := sqrt sk.
  Let A := sqrt (kallen x0 xk sk). Let B := sqrt (kallen sk xi xj). Let D := sqrt (kallen x0 xi si).
  Let g := sqrt (gram xi xj xk si sj sk).

  Lemma base_triangle :
    mul2 (spinor_rot (PI - hat_ x0 xk xi sk si sj)) (mul2 (spinor_boost mi (D / (2 * m0))) (spinor_rot (z0_ x0 xi xj si sj sk)))
    = mul2 (spinor_boost t (A / (2 * m0))) (mul2 (spinor_rot (th_ x0 xi xj xk sj sk)) (spinor_boost mi (B / (2 * t)))).
  Proof.
    destruct PF as [Md G X0 X1 X2 X3 Y1 Y2 Y3].
    assert (T : 0 < t) by (apply sqrt_lt_R0; exact K). assert (TT : t * t = sk) by (apply sqrt_sqrt; lra).
    assert (A0 : 0 < A) by (apply sqrt_lt_R0; exact N2). assert (AA : A * A = kallen x0 xk sk) by (apply sqrt_sqrt; lra).
    assert (B0 : 0 < B) by (apply sqrt_lt_R0; exact N3). assert (BB : B * B = kallen sk xi xj) by (apply sqrt_sqrt; lra).
    assert (D0 : 0 < D) by (apply sqrt_lt_R0; exact N1). assert (DD : D * D = kallen x0 xi si) by (apply sqrt_sqrt; lra).
    assert (g0 : 0 <= g) by apply sqrt_pos. assert (gg : g * g = gram xi xj xk si sj sk) by (apply sqrt_sqrt; exact G).
    destruct (acos_parts (n_theta x0 xi xj xk sj sk) A B (4 * t * g) (16 * sk * (g * g)) A0 B0) as (Ct & St & Bt).
    { repeat apply Rmult_le_pos; lra. } { rewrite <- TT. ring. }
    { rewrite AA, BB, gg. apply id_theta12. exact Md. }
    destruct (acos_parts (n_hat x0 xk xi sk si sj) D A (4 * m0 * g) (16 * x0 * (g * g)) D0 A0) as (Ch & Sh & Bh).
    { repeat apply Rmult_le_pos; lra. } { ring. }
    { rewrite AA, DD, gg. rewrite <- (kallen_swap x0 xk sk). apply (id_hat31 x0 xi xj xk si sj sk). exact Md. }
    destruct (acos_parts (n_zeta0 x0 xi xj si sj sk) D B (4 * mi * g) (16 * xi * (g * g)) D0 B0) as (Cz & Sz & Bz).
    { repeat apply Rmult_le_pos; lra. } { ring. }
    { rewrite BB, DD, gg. apply (id_z1_12 x0 xi xj xk si sj sk). exact Md. }
    replace (hat_ x0 xk xi sk si sj) with (acos (n_hat x0 xk xi sk si sj / (D * A)))
      by (unfold hat_, D, A; rewrite (kallen_swap x0 xk sk); reflexivity).
    change (z0_ x0 xi xj si sj sk) with (acos (n_zeta0 x0 xi xj si sj sk / (D * B))).
    change (th_ x0 xi xj xk sj sk) with (acos (n_theta x0 xi xj xk sj sk / (A * B))).
    destruct (boost_values mi (D / (2 * m0)) ((x0 + xi - si) / (2 * m0)) Mi) as [_ Bi].
    { apply Rmult_le_pos; [lra|]. apply Rlt_le, Rinv_0_lt_compat. lra. }
    { replace (D / (2 * m0) * (D / (2 * m0))) with (D * D / (4 * x0)) by (field; lra). rewrite DD. unfold kallen. field. lra. }
    destruct (boost_values t (A / (2 * m0)) ((x0 + sk - xk) / (2 * m0)) T) as [_ Bk].
    { apply Rmult_le_pos; [lra|]. apply Rlt_le, Rinv_0_lt_compat. lra. }
    { replace (A / (2 * m0) * (A / (2 * m0))) with (A * A / (4 * x0)) by (field; lra). rewrite AA, TT. unfold kallen. field. lra. }
    destruct (boost_values mi (B / (2 * t)) ((sk + xi - xj) / (2 * t)) Mi) as [_ Bq].
    { apply Rmult_le_pos; [lra|]. apply Rlt_le, Rinv_0_lt_compat. lra. }
    { replace (B / (2 * t) * (B / (2 * t))) with (B * B / (4 * (t * t))) by (field; lra). rewrite BB.
      replace ((sk + xi - xj) / (2 * t) * ((sk + xi - xj) / (2 * t))) with ((sk + xi - xj) * (sk + xi - xj) / (4 * (t * t))) by (field; lra).
      rewrite TT. unfold kallen. field. lra. }
    rewrite Bi, Bk, Bq.
    assert (QQ : forall e m p, 0 < m -> 0 < p -> 0 <= e -> e * e = m * m + p * p -> 0 < e / m /\ 0 < p / m /\ e / m * (e / m) - p / m * (p / m) = 1).
    { clear. intros e m p M P E Q. assert (0 < e) by nra. repeat split.
      - apply Rdiv_lt_0_compat; auto.
      - apply Rdiv_lt_0_compat; auto.
      - replace (e / m * (e / m) - p / m * (p / m)) with ((e * e - p * p) / (m * m)) by (field; lra). rewrite Q. field. lra. }
    destruct (QQ ((x0 + xi - si) / (2 * m0)) mi (D / (2 * m0))) as (gi & hi & ei); auto.
    { apply Rdiv_lt_0_compat; lra. } { apply Rmult_le_pos; [lra|]. apply Rlt_le, Rinv_0_lt_compat. lra. }
    { replace (D / (2 * m0) * (D / (2 * m0))) with (D * D / (4 * x0)) by (field; lra). rewrite DD. unfold kallen. field. lra. }
    destruct (QQ ((x0 + sk - xk) / (2 * m0)) t (A / (2 * m0))) as (gk & hk & ek); auto.
    { apply Rdiv_lt_0_compat; lra. } { apply Rmult_le_pos; [lra|]. apply Rlt_le, Rinv_0_lt_compat. lra. }
    { replace (A / (2 * m0) * (A / (2 * m0))) with (A * A / (4 * x0)) by (field; lra). rewrite AA, TT. unfold kallen. field. lra. }
    destruct (QQ ((sk + xi - xj) / (2 * t)) mi (B / (2 * t))) as (gq & hq & eq); auto.
    { apply Rdiv_lt_0_compat; lra. } { apply Rmult_le_pos; [lra|]. apply Rlt_le, Rinv_0_lt_compat. lra. }
    { replace (B / (2 * t) * (B / (2 * t))) with (B * B / (4 * (t * t))) by (field; lra). rewrite BB.
      replace ((sk + xi - xj) / (2 * t) * ((sk + xi - xj) / (2 * t))) with ((sk + xi - xj) * (sk + xi - xj) / (4 * (t * t))) by (field; lra).
      rewrite TT. unfold kallen. field. lra. }
    clear QQ.
    apply triangle; auto.
    - rewrite Ct.
      match goal with |- ?l = _ => replace l with (((x0 + sk - xk) * (sk + xi - xj) + n_theta x0 xi xj xk sj sk) / (4 * m0 * mi * (t * t)))
        by (field; repeat split; lra) end.
      rewrite TT. unfold n_theta. rewrite Md. field. repeat split; lra.
    - rewrite Ct, Ch.
      match goal with |- ?l = _ => replace l with ((A * A * (sk + xi - xj) + (x0 + sk - xk) * n_theta x0 xi xj xk sj sk) / (4 * m0 * mi * (t * t) * A))
        by (field; repeat split; lra) end.
      match goal with |- _ = ?r => replace r with (- (n_hat x0 xk xi sk si sj) / (2 * m0 * mi * A)) by (field; repeat split; lra) end.
      rewrite TT, AA. unfold n_theta, n_hat, kallen. rewrite Md. field. repeat split; lra.
    - rewrite St, Sh. field. repeat split; lra.
    - rewrite Ct, Cz.
      match goal with |- ?l = _ => replace l with ((B * B * (x0 + sk - xk) + (sk + xi - xj) * n_theta x0 xi xj xk sj sk) / (4 * m0 * mi * (t * t) * B))
        by (field; repeat split; lra) end.
      match goal with |- _ = ?r => replace r with (n_zeta0 x0 xi xj si sj sk / (2 * m0 * mi * B)) by (field; repeat split; lra) end.
      rewrite TT, BB. unfold n_theta, n_zeta0, kallen. rewrite Md. field. repeat split; lra.
    - rewrite St, Sz. field. repeat split; lra.
  Qed.
End Base.

(** ** The frames of a particle in its own chain and in another chain *)
(** The mirror image in the plane x = 0 *)
Definition mirror (a : mat2) : mat2 := M2 (m11 a) (- m12 a) (- m21 a) (m22 a).
Lemma mirror_mul a b : mirror (mul2 a b) = mul2 (mirror a) (mirror b).
Proof. unfold mirror, mul2; cbn [m11 m12 m21 m22]. f_equal; ring. Qed.
Lemma mirror_rot a : mirror (spinor_rot a) = spinor_rot (- a).
Proof.
  unfold mirror, spinor_rot; cbn [m11 m12 m21 m22]. replace (- a / 2) with (- (a / 2)) by lra. rewrite cos_neg, sin_neg.
  f_equal; ring.
Qed.
Lemma mirror_boost m p : mirror (spinor_boost m p) = spinor_boost m p.
Proof. unfold mirror, spinor_boost; cbn [m11 m12 m21 m22]. f_equal; ring. Qed.
Lemma rot_back a b : spinor_rot (a - PI) = scale2 (-1) (mul2 (spinor_rot b) (spinor_rot (a - b + PI))).
Proof.
  rewrite rot_add. replace (b + (a - b + PI)) with (a - PI + 2 * PI) by lra. rewrite rot_turn, scale2_scale.
  replace (-1 * -1) with 1 by lra. rewrite scale2_1. reflexivity.
Qed.
Lemma solve_frame a x b y : mul2 (spinor_rot (- a)) (mul2 x (spinor_rot b)) = y ->
  x = mul2 (spinor_rot a) (mul2 y (spinor_rot (- b))).
Proof.
  intros <-. rewrite <- !mul2_assoc, rot_add, !mul2_assoc, rot_add. replace (a + - a) with 0 by lra. replace (b + - b) with 0 by lra.
  rewrite rot_0, rot_0r. reflexivity.
Qed.

Section Own.
  Variables m0 mi mj mk si sj sk : R.
  Notation x0 := (m0 * m0). Notation xi := (mi * mi). Notation xj := (mj * mj). Notation xk := (mk * mk).
  Hypothesis M0 : 0 < m0. Hypothesis Mi : 0 < mi. Hypothesis K : 0 < sk.
  Hypothesis PF : phys_facts x0 xi xj xk si sj sk.
  Hypothesis N1 : 0 < kallen x0 xi si. Hypothesis N2 : 0 < kallen x0 xk sk. Hypothesis N3 : 0 < kallen sk xi xj.
  Hypothesis P1 : 0 <= sk + xi - xj. Hypothesis P2 : 0 <= x0 + sk - xk. Hypothesis P3 : 0 <= x0 + xi - si.

  Let B1 := spinor_boost mi (momentum x0 mi (sqrt si)).
  Let B2 := spinor_boost (sqrt sk) (momentum x0 mk (sqrt sk)).
  Let B3 := spinor_boost mi (momentum sk mi mj).
  Lemma own_core :
    mul2 (spinor_rot (PI - hat_ x0 xk xi sk si sj)) (mul2 B1 (spinor_rot (z0_ x0 xi xj si sj sk)))
    = mul2 B2 (mul2 (spinor_rot (th_ x0 xi xj xk sj sk)) B3).
  Proof.
    unfold B1, B2, B3, momentum. rewrite sqrt_square by lra.
    rewrite (sqrt_sqrt si) by (apply (pf_s1 _ _ _ _ _ _ _ PF)). rewrite (sqrt_sqrt sk) by lra.
    exact (base_triangle m0 mi mj mk si sj sk M0 Mi K PF N1 N2 N3 P1 P2 P3).
  Qed.
  Lemma own_first :
    mul2 (spinor_rot PI) B1
    = mul2 (spinor_rot (hat_ x0 xk xi sk si sj))
        (mul2 (mul2 B2 (mul2 (spinor_rot (th_ x0 xi xj xk sj sk)) B3)) (spinor_rot (- z0_ x0 xi xj si sj sk))).
  Proof.
    apply solve_frame. rewrite <- own_core. rewrite !mul2_assoc, rot_add. do 3 f_equal. lra.
  Qed.
  Lemma own_second :
    mul2 (spinor_rot PI) B1
    = mul2 (spinor_rot (- hat_ x0 xk xi sk si sj))
        (mul2 (mul2 B2 (mul2 (spinor_rot (PI - th_ x0 xi xj xk sj sk)) (mul2 (spinor_rot PI) B3))) (spinor_rot (z0_ x0 xi xj si sj sk))).
  Proof.
    pose proof (f_equal mirror own_core) as E. rewrite !mirror_mul, !mirror_rot in E.
    unfold B1, B2, B3 in E. rewrite !mirror_boost in E. fold B1 in E. fold B2 in E. fold B3 in E.
    rewrite <- (Ropp_involutive (z0_ x0 xi xj si sj sk)). apply solve_frame. rewrite !Ropp_involutive.
    rewrite (mul2_assoc (spinor_rot (PI - _)) (spinor_rot PI)), rot_add.
    replace (PI - th_ x0 xi xj xk sj sk + PI) with (- th_ x0 xi xj xk sj sk + 2 * PI) by lra.
    rewrite rot_turn, mul2_scale, mul2_scale_r, <- E.
    replace (- (PI - hat_ x0 xk xi sk si sj)) with (hat_ x0 xk xi sk si sj - PI) by lra.
    rewrite (rot_back _ (hat_ x0 xk xi sk si sj)), mul2_scale, scale2_scale. replace (-1 * -1) with 1 by lra. rewrite scale2_1.
    rewrite !mul2_assoc. do 4 f_equal. lra.
  Qed.
End Own.

Lemma hat_sym x0 xi xj si sj sk : hat_ x0 xi xj si sj sk = hat_ x0 xj xi sj si sk.
Proof.
  unfold hat_. rewrite (kallen_swap x0 xi si), (kallen_swap x0 xj sj), (Rmult_comm (sqrt (kallen x0 xj sj))).
  f_equal. f_equal. unfold n_hat. ring.
Qed.
Lemma phys_swap x0 x1 x2 x3 s1 s2 s3 : phys_facts x0 x1 x2 x3 s1 s2 s3 -> phys_facts x0 x1 x3 x2 s1 s3 s2.
Proof.
  intros []. constructor; auto; [lra|]. replace (gram x1 x3 x2 s1 s3 s2) with (gram x1 x2 x3 s1 s2 s3); [auto|]. unfold gram. field.
Qed.
Lemma phys_pos env p1 p2 p3 : momenta_of env p1 p2 p3 ->
  (at_m1 env * at_m1 env + at_m2 env * at_m2 env <= at_s3 env /\
   at_m2 env * at_m2 env + at_m3 env * at_m3 env <= at_s1 env /\
   at_m3 env * at_m3 env + at_m1 env * at_m1 env <= at_s2 env) /\
  (at_s1 env + at_m1 env * at_m1 env <= at_m0 env * at_m0 env /\
   at_s2 env + at_m2 env * at_m2 env <= at_m0 env * at_m0 env /\
   at_s3 env + at_m3 env * at_m3 env <= at_m0 env * at_m0 env) /\ 0 <= at_m0 env.
Proof.
  intros H. pose proof (physical_facts _ _ _ _ H) as F. destruct H as (O1 & O2 & O3 & O0 & S1 & S2 & S3).
  pose proof (future_mdot _ _ _ _ O1 O2) as D12.
  pose proof (future_mdot _ _ _ _ O2 O3) as D23.
  pose proof (future_mdot _ _ _ _ O3 O1) as D31.
  destruct O1 as (N1 & E1 & Q1), O2 as (N2 & E2 & Q2), O3 as (N3 & E3 & Q3), O0 as (N0 & E0 & Q0).
  pose proof (pf_mand _ _ _ _ _ _ _ F) as M. rewrite msq_add in S1, S2, S3. rewrite S1, S2, S3 in *.
  rewrite Q1, Q2, Q3 in *. repeat split; lra.
Qed.
