(** Helicity frames of the chains (C131) *)
From Coq Require Import ZArith Reals List Lra Lia Psatz.
From Verif Require Import Prelude Expr SpecKin Angles KinFacts AnglesFacts AnglesProofs SpecWigner WignerFrames.
Import ListNotations.
Local Open Scope R_scope.

Lemma theta_turn x0 xi xj xk si sj sk : x0 = si + sj + sk - xi - xj - xk ->
  th_ x0 xj xi xk si sk = PI - th_ x0 xi xj xk sj sk.
Proof.
  intros M. unfold th_. rewrite (id_theta_swap x0 xi xj xk si sj sk) by lra. rewrite (kallen_swap sk xi xj).
  rewrite <- acos_opp. f_equal. unfold Rdiv. ring.
Qed.
Lemma momentum_swap s a b : momentum s a b = momentum s b a.
Proof. unfold momentum. rewrite kallen_swap. reflexivity. Qed.

Section Point.
  Variable env : symbol -> R.
  Hypothesis PH : physical env.
  Hypothesis NS : nonsingular env.
  Notation HAT a b := (rv env (formulate_theta_hat_angle a b)).
  Notation ZETA a b c := (rv env (formulate_zeta_angle a b c)).
  Notation TH k := (rv env (formulate_scattering_angle (next_label k) (next_label (next_label k)))).
  Notation FR k i := (spinor_frame env k (TH k) i).
  Notation m0 := (at_m0 env). Notation m1 := (at_m1 env). Notation m2 := (at_m2 env). Notation m3 := (at_m3 env).
  Notation s1 := (at_s1 env). Notation s2 := (at_s2 env). Notation s3 := (at_s3 env).

  Lemma own_frame i k : (1 <= i <= 3)%Z -> (1 <= k <= 3)%Z -> 0 < mass_at env i ->
    FR i i = mul2 (spinor_rot (HAT k i)) (mul2 (FR k i) (spinor_rot (ZETA i k i))).
  Proof.
    intros Hi Hk M. destruct (Z.eq_dec i k) as [<-|D].
    { rewrite (zeta_diag env i i) by lia. rewrite <- zeta_rot0 by lia. rewrite (zeta_diag env 0 i) by lia.
      rewrite rot_0, rot_0r. reflexivity. }
    destruct PH as (p1 & p2 & p3 & P). pose proof (phys_pos _ _ _ _ P) as ((A1 & A2 & A3) & (C1 & C2 & C3) & Z0).
    pose proof (physical_facts _ _ _ _ P) as F1. pose proof (phys_cycle _ _ _ _ _ _ _ F1) as F2.
    pose proof (phys_cycle _ _ _ _ _ _ _ F2) as F3.
    pose proof (nonsing_of _ NS) as [N01 N02 N03 N1 N2 N3].
    pose proof (pf_mand _ _ _ _ _ _ _ F1) as Md.
    pose proof (pf_x1 _ _ _ _ _ _ _ F1) as Y1. pose proof (pf_x2 _ _ _ _ _ _ _ F1) as Y2. pose proof (pf_x3 _ _ _ _ _ _ _ F1) as Y3.
    pose proof (pf_s1 _ _ _ _ _ _ _ F1) as W1. pose proof (pf_s2 _ _ _ _ _ _ _ F1) as W2. pose proof (pf_s3 _ _ _ _ _ _ _ F1) as W3.
    assert (MM : 0 < mass_at env i * mass_at env i) by (apply Rmult_lt_0_compat; exact M).
    destruct (in123 i Hi) as [-> | [-> | ->]], (in123 k Hk) as [-> | [-> | ->]]; try (exfalso; lia); clear D Hi Hk;
      cbn [mass_at Z.eqb Pos.eqb pick] in M, MM; (assert (M0 : 0 < m0) by (destruct Z0 as [Z0|Z0]; [exact Z0|rewrite <- Z0 in *; lra])).
    - refine (eq_trans (own_second m0 m1 m3 m2 s1 s3 s2 M0 M ltac:(lra) (phys_swap _ _ _ _ _ _ _ F1) N01 N02 _ _ _ _) _);
        [rewrite kallen_swap; exact N2|lra|lra|lra|].
      rewrite <- (theta_turn (m0 * m0) (m1 * m1) (m3 * m3) (m2 * m2) s1 s3 s2) by lra.
      rewrite <- hat_sym, (momentum_swap s2). reflexivity.
    - exact (own_first m0 m1 m2 m3 s1 s2 s3 M0 M ltac:(lra) F1 N01 N03 N3 ltac:(lra) ltac:(lra) ltac:(lra)).
    - exact (own_first m0 m2 m3 m1 s2 s3 s1 M0 M ltac:(lra) F2 N02 N01 N1 ltac:(lra) ltac:(lra) ltac:(lra)).
    - refine (eq_trans (own_second m0 m2 m1 m3 s2 s1 s3 M0 M ltac:(lra) (phys_swap _ _ _ _ _ _ _ F2) N02 N03 _ _ _ _) _);
        [rewrite kallen_swap; exact N3|lra|lra|lra|].
      rewrite <- (theta_turn (m0 * m0) (m2 * m2) (m1 * m1) (m3 * m3) s2 s1 s3) by lra.
      rewrite <- hat_sym, (momentum_swap s3). reflexivity.
    - refine (eq_trans (own_second m0 m3 m2 m1 s3 s2 s1 M0 M ltac:(lra) (phys_swap _ _ _ _ _ _ _ F3) N03 N01 _ _ _ _) _);
        [rewrite kallen_swap; exact N1|lra|lra|lra|].
      rewrite <- (theta_turn (m0 * m0) (m3 * m3) (m2 * m2) (m1 * m1) s3 s2 s1) by lra.
      rewrite <- hat_sym, (momentum_swap s1). reflexivity.
    - exact (own_first m0 m3 m1 m2 s3 s1 s2 M0 M ltac:(lra) F3 N03 N02 N2 ltac:(lra) ltac:(lra) ltac:(lra)).
  Qed.

  Lemma hat_sum i k r : (1 <= i <= 3)%Z -> (1 <= k <= 3)%Z -> (1 <= r <= 3)%Z ->
    spinor_rot (HAT k i - HAT r i) = scale2 (frame_sign i k r) (spinor_rot (HAT k r)).
  Proof.
    intros Hi Hk Hr.
    assert (T : HAT 3 1 + HAT 1 2 + HAT 2 3 = 2 * PI).
    { destruct PH as (p1 & p2 & p3 & P). rewrite hat_31, hat_12, hat_23. apply hat_turn.
      - eapply physical_facts; eauto.
      - apply nonsing_of; auto. }
    assert (D : forall a, (1 <= a <= 3)%Z -> HAT a a = 0).
    { intros a Ha. rewrite <- zeta_rot0 by lia. apply zeta_diag; lia. }
    assert (A : forall a b, (1 <= a <= 3)%Z -> (1 <= b <= 3)%Z -> HAT a b = - HAT b a).
    { intros a b Ha Hb. rewrite <- !zeta_rot0 by lia. apply zeta_antisym; lia. }
    pose proof (A 1%Z 3%Z ltac:(lia) ltac:(lia)) as A13. pose proof (A 2%Z 1%Z ltac:(lia) ltac:(lia)) as A21.
    pose proof (A 3%Z 2%Z ltac:(lia) ltac:(lia)) as A32.
    pose proof (D 1%Z ltac:(lia)) as D1. pose proof (D 2%Z ltac:(lia)) as D2. pose proof (D 3%Z ltac:(lia)) as D3. clear A D.
    assert (S : forall a b, a = b -> spinor_rot a = scale2 1 (spinor_rot b)) by (intros a b ->; rewrite scale2_1; reflexivity).
    assert (U : forall a b, a = b + 2 * PI -> spinor_rot a = scale2 (-1) (spinor_rot b)) by (intros a b ->; apply rot_turn).
    assert (V : forall a b, a + 2 * PI = b -> spinor_rot a = scale2 (-1) (spinor_rot b)).
    { intros a b <-. rewrite rot_turn, scale2_scale. replace (-1 * -1) with 1 by lra. rewrite scale2_1. reflexivity. }
    destruct (in123 i Hi) as [-> | [-> | ->]], (in123 k Hk) as [-> | [-> | ->]], (in123 r Hr) as [-> | [-> | ->]];
      cbn [frame_sign Z.eqb Pos.eqb]; first [apply S; lra|apply U; lra|apply V; lra].
  Qed.
  Lemma any_frame i k r : (1 <= i <= 3)%Z -> (1 <= k <= 3)%Z -> (1 <= r <= 3)%Z -> 0 < mass_at env i ->
    FR r i = scale2 (frame_sign i k r) (mul2 (spinor_rot (HAT k r)) (mul2 (FR k i) (spinor_rot (ZETA i k r)))).
  Proof.
    intros Hi Hk Hr M. pose proof (own_frame i k Hi Hk M) as A. rewrite (own_frame i r Hi Hr M) in A.
    rewrite <- mul2_scale, <- hat_sum by assumption.
    rewrite (zeta_cocycle env i k r i PH NS Hi Hk Hr Hi), (zeta_antisym env i i r) by lia.
    rewrite <- (Ropp_involutive (HAT r i)), <- (Ropp_involutive (ZETA i r i)) in A.
    assert (B : forall a x b y, mul2 (spinor_rot (- a)) (mul2 x (spinor_rot (- b))) = y ->
      x = mul2 (spinor_rot a) (mul2 y (spinor_rot b))).
    { intros a x b y E. apply solve_frame in E. rewrite Ropp_involutive in E. exact E. }
    apply B in A. rewrite A at 1.
    replace (HAT k i - HAT r i) with (- HAT r i + HAT k i) by lra. rewrite <- !rot_add, !mul2_assoc. reflexivity.
  Qed.
End Point.

(** ** The Lorentz transformations of the spinor matrices *)
Definition herm (v : vec4) : mat2 := M2 (vE v + vz (vp v)) (vx (vp v)) (vx (vp v)) (vE v - vz (vp v)).
Definition unherm (y : R) (q : mat2) : vec4 := V4 ((m11 q + m22 q) / 2) (V3 (m12 q) y ((m11 q - m22 q) / 2)).
Definition tr2 (l : mat2) : mat2 := M2 (m11 l) (m21 l) (m12 l) (m22 l).
Lemma transform_herm l v : transform l v = unherm (vy (vp v)) (mul2 (mul2 l (herm v)) (tr2 l)).
Proof. reflexivity. Qed.
Lemma herm_unherm y q : m12 q = m21 q -> herm (unherm y q) = q.
Proof.
  intros E. destruct q as [a b c d]. cbn [m12 m21] in E. subst c. unfold herm, unherm; cbn [m11 m12 m21 m22 vE vp vx vy vz]. f_equal; field.
Qed.
Lemma sym_product l v : m12 (mul2 (mul2 l (herm v)) (tr2 l)) = m21 (mul2 (mul2 l (herm v)) (tr2 l)).
Proof. destruct l as [a b c d]. unfold mul2, herm, tr2; cbn [m11 m12 m21 m22]. ring. Qed.
Lemma tr2_mul a b : tr2 (mul2 a b) = mul2 (tr2 b) (tr2 a).
Proof. unfold mul2, tr2; cbn [m11 m12 m21 m22]. f_equal; ring. Qed.
Lemma transform_mul a b v : transform (mul2 a b) v = transform a (transform b v).
Proof.
  rewrite (transform_herm (mul2 a b)), (transform_herm a), (transform_herm b).
  rewrite herm_unherm by apply sym_product. cbn [unherm vp vy]. f_equal. rewrite tr2_mul, !mul2_assoc. reflexivity.
Qed.
Lemma transform_scale t a v : t * t = 1 -> transform (scale2 t a) v = transform a v.
Proof.
  intros E. unfold transform, mul2, scale2; cbn [m11 m12 m21 m22 vE vp vx vy vz].
  f_equal; [|f_equal].
  all: match goal with |- ?l = ?r => replace l with (t * t * r) by field; rewrite E; ring end.
Qed.
Lemma transform_rot a v : transform (spinor_rot a) v = rot_y a v.
Proof.
  unfold transform, mul2, spinor_rot, rot_y; cbn [m11 m12 m21 m22 vE vp vx vy vz].
  assert (C : cos a = cos (a / 2) * cos (a / 2) - sin (a / 2) * sin (a / 2)) by (rewrite <- cos_2a; f_equal; lra).
  assert (S : sin a = 2 * sin (a / 2) * cos (a / 2)) by (rewrite <- sin_2a; f_equal; lra).
  pose proof (sin2_cos2 (a / 2)) as E. unfold Rsqr in E. rewrite C, S.
  set (c := cos (a / 2)) in *. set (s := sin (a / 2)) in *. clearbody c s. f_equal; [|f_equal].
  - match goal with |- ?l = _ => replace l with ((s * s + c * c) * vE v) by field end. rewrite E. ring.
  - field.
  - field.
Qed.
Lemma transform_boost m p v : 0 < m -> transform (spinor_boost m p) v = boost_z m p v.
Proof.
  intros M. unfold transform, mul2, spinor_boost, boost_z; cbn [m11 m12 m21 m22 vE vp vx vy vz].
  assert (E0 : 0 < m * m) by (apply Rmult_lt_0_compat; auto).
  assert (E : energy m p * energy m p = m * m + p * p) by (apply sqrt_sqrt; pose proof (Rle_0_sqr p) as X; unfold Rsqr in X; lra).
  assert (E1 : 0 <= energy m p) by apply sqrt_pos.
  assert (U : 0 < energy m p + p /\ 0 < energy m p - p).
  { set (e := energy m p) in *. clearbody e. clear -E E0 E1. split; nra. }
  destruct U as [U1 U2].
  assert (Q1 : 0 < (energy m p + p) / m) by (apply Rdiv_lt_0_compat; auto).
  assert (Q2 : 0 < (energy m p - p) / m) by (apply Rdiv_lt_0_compat; auto).
  assert (R1 : sqrt ((energy m p + p) / m) * sqrt ((energy m p + p) / m) = (energy m p + p) / m) by (apply sqrt_sqrt; lra).
  assert (R2 : sqrt ((energy m p - p) / m) * sqrt ((energy m p - p) / m) = (energy m p - p) / m) by (apply sqrt_sqrt; lra).
  assert (R3 : sqrt ((energy m p + p) / m) * sqrt ((energy m p - p) / m) = 1).
  { rewrite <- sqrt_mult by lra. replace ((energy m p + p) / m * ((energy m p - p) / m)) with 1; [apply sqrt_1|].
    replace ((energy m p + p) / m * ((energy m p - p) / m)) with ((energy m p * energy m p - p * p) / (m * m)) by (field; lra).
    rewrite E. field. lra. }
  set (a := sqrt ((energy m p + p) / m)) in *. set (b := sqrt ((energy m p - p) / m)) in *.
  f_equal; [|f_equal].
  - match goal with |- ?l = _ => replace l with ((a * a * (vE v + vz (vp v)) + b * b * (vE v - vz (vp v))) / 2) by field end.
    rewrite R1, R2. field. lra.
  - match goal with |- ?l = _ => replace l with (a * b * vx (vp v)) by ring end. rewrite R3. ring.
  - match goal with |- ?l = _ => replace l with ((a * a * (vE v + vz (vp v)) - b * b * (vE v - vz (vp v))) / 2) by field end.
    rewrite R1, R2. field. lra.
Qed.
Lemma transform_frame env k theta i v : 0 < mass_at env i -> (i = k \/ 0 < sigma_val env k) ->
  transform (spinor_frame env k theta i) v = helicity_frame env k theta i v.
Proof.
  intros M S. unfold spinor_frame, helicity_frame. destruct (Z.eqb_spec i k) as [<-|N].
  - rewrite transform_mul, transform_rot, transform_boost by exact M. reflexivity.
  - destruct S as [S|S]; [contradiction|]. assert (0 < sqrt (sigma_val env k)) by (apply sqrt_lt_R0; exact S).
    rewrite transform_mul, transform_boost by assumption. f_equal. rewrite transform_mul, transform_rot. f_equal.
    destruct (i =? next_label k)%Z.
    + apply transform_boost; exact M.
    + rewrite transform_mul, transform_rot, transform_boost by exact M. reflexivity.
Qed.

(** ** The momenta in the rest frame of particle 0 *)
Lemma rot_rest a m : rot_y a (at_rest m) = at_rest m.
Proof. unfold rot_y, at_rest, zero3; cbn [vE vp vx vy vz]. f_equal. f_equal; ring. Qed.
Lemma msq_rot a v : msq (rot_y a v) = msq v.
Proof.
  destruct v as [e [x y z]]. unfold msq, rot_y, dot; cbn [vE vp vx vy vz]. pose proof (sin2_cos2 a) as E. unfold Rsqr in E.
  replace ((cos a * x + sin a * z) * (cos a * x + sin a * z) + y * y + (cos a * z - sin a * x) * (cos a * z - sin a * x))
    with ((sin a * sin a + cos a * cos a) * (x * x + z * z) + y * y) by ring. rewrite E. ring.
Qed.
Lemma rot_plus a v w : rot_y a (add4 v w) = add4 (rot_y a v) (rot_y a w).
Proof. unfold rot_y, add4, add3; cbn [vE vp vx vy vz]. f_equal. f_equal; ring. Qed.
Lemma boost_plus m p v w : boost_z m p (add4 v w) = add4 (boost_z m p v) (boost_z m p w).
Proof. unfold boost_z, add4, add3; cbn [vE vp vx vy vz]. f_equal; [ring|]. f_equal; ring. Qed.
Lemma energy_sq m p : energy m p * energy m p = m * m + p * p.
Proof.
  apply sqrt_sqrt. pose proof (Rle_0_sqr p) as X. pose proof (Rle_0_sqr m) as Y. unfold Rsqr in *. lra.
Qed.
Lemma msq_boost m p v : 0 < m -> msq (boost_z m p v) = msq v.
Proof.
  intros M. destruct v as [e [x y z]]. unfold msq, boost_z, dot; cbn [vE vp vx vy vz].
  match goal with |- ?l = _ => replace l with ((energy m p * energy m p - p * p) / (m * m) * (e * e - z * z) - x * x - y * y) by (field; lra) end.
  rewrite energy_sq. field. lra.
Qed.
(** Vectors of the forward light cone *)
Definition forward (v : vec4) : Prop := 0 < vE v /\ 0 <= msq v.
Lemma forward_rot a v : forward v -> forward (rot_y a v).
Proof. intros [A B]. split; [exact A|rewrite msq_rot; exact B]. Qed.
Lemma forward_boost m p v : 0 < m -> forward v -> forward (boost_z m p v).
Proof.
  intros M [A B]. split; [|rewrite msq_boost by exact M; exact B].
  destruct v as [e [x y z]]. unfold msq, dot, boost_z in *; cbn [vE vp vx vy vz] in *.
  pose proof (energy_sq m p) as E. assert (E1 : 0 <= energy m p) by apply sqrt_pos.
  set (h := energy m p) in *. clearbody h.
  assert (Z : z * z <= e * e) by nra.
  assert (P : p * p < h * h) by nra.
  assert (Z1 : - e <= z <= e) by (split; nra).
  assert (P1 : - h < p < h) by (split; nra).
  replace (h / m * e + p / m * z) with ((h * e + p * z) / m) by (field; lra).
  apply Rdiv_lt_0_compat; [|exact M].
  assert (0 < (h + p) * (e + z) + (h - p) * (e - z)); [|lra].
  clear -Z1 P1 A. assert (0 <= (h + p) * (e + z)) by (apply Rmult_le_pos; lra).
  assert (0 <= (h - p) * (e - z)) by (apply Rmult_le_pos; lra).
  destruct (Rle_lt_dec z 0) as [L|L].
  - assert (0 < (h - p) * (e - z)) by (apply Rmult_lt_0_compat; lra). lra.
  - assert (0 < (h + p) * (e + z)) by (apply Rmult_lt_0_compat; lra). lra.
Qed.
Lemma forward_rest m : 0 < m -> forward (at_rest m).
Proof. intros M. split; [exact M|]. unfold msq, at_rest, zero3, dot; cbn [vE vp vx vy vz]. nra. Qed.
Lemma msq_rest m : msq (at_rest m) = m * m.
Proof. unfold msq, at_rest, zero3, dot; cbn [vE vp vx vy vz]. ring. Qed.
Lemma boost_rest m p : 0 < m -> boost_z m p (at_rest m) = V4 (energy m p) (V3 0 0 p).
Proof. intros M. unfold boost_z, at_rest, zero3; cbn [vE vp vx vy vz]. f_equal; [field; lra|]. f_equal. field. lra. Qed.
Lemma rot_pi v : rot_y PI v = V4 (vE v) (V3 (- vx (vp v)) (vy (vp v)) (- vz (vp v))).
Proof. unfold rot_y. rewrite cos_PI, sin_PI. f_equal. f_equal; ring. Qed.

(** Energies of the products of a two-body decay *)
Lemma two_body t a b : 0 < t -> 0 <= a -> 0 <= b -> 0 <= kallen (t * t) (a * a) (b * b) ->
  0 <= t * t + a * a - b * b -> 0 <= t * t + b * b - a * a ->
  energy a (momentum (t * t) a b) + energy b (momentum (t * t) a b) = t.
Proof.
  intros T A B N P Q.
  assert (M : momentum (t * t) a b * momentum (t * t) a b = kallen (t * t) (a * a) (b * b) / (4 * (t * t))).
  { unfold momentum. rewrite sqrt_square by lra.
    replace (sqrt (kallen (t * t) (a * a) (b * b)) / (2 * t) * (sqrt (kallen (t * t) (a * a) (b * b)) / (2 * t)))
      with (sqrt (kallen (t * t) (a * a) (b * b)) * sqrt (kallen (t * t) (a * a) (b * b)) / (4 * (t * t))) by (field; lra).
    rewrite sqrt_sqrt by exact N. reflexivity. }
  assert (I : 0 < / (2 * t)) by (apply Rinv_0_lt_compat; lra).
  assert (EA : energy a (momentum (t * t) a b) = (t * t + a * a - b * b) / (2 * t)).
  { apply sqrt_of; [apply Rmult_le_pos; lra|]. rewrite M. unfold kallen. field. lra. }
  assert (EB : energy b (momentum (t * t) a b) = (t * t + b * b - a * a) / (2 * t)).
  { apply sqrt_of; [apply Rmult_le_pos; lra|]. rewrite M. unfold kallen. field. lra. }
  rewrite EA, EB. field. lra.
Qed.

Section Chain.
  Variable env : symbol -> R.
  Hypothesis PH : physical env.
  Hypothesis NS : nonsingular env.
  Hypothesis M : forall i, (1 <= i <= 3)%Z -> 0 < mass_at env i.
  Let X (i : Z) := mass_at env i * mass_at env i.

  Lemma point_facts k : (1 <= k <= 3)%Z ->
    0 < mass_at env 0 /\ 0 < sigma_val env k /\
    X (next_label k) + X (next_label (next_label k)) <= sigma_val env k /\ sigma_val env k + X k <= X 0 /\
    0 < kallen (X 0) (X k) (sigma_val env k) /\ 0 < kallen (sigma_val env k) (X (next_label k)) (X (next_label (next_label k))).
  Proof.
    intros Hk. destruct PH as (p1 & p2 & p3 & P). pose proof (phys_pos _ _ _ _ P) as ((A1 & A2 & A3) & (C1 & C2 & C3) & Z0).
    pose proof (nonsing_of _ NS) as [N01 N02 N03 N1 N2 N3].
    pose proof (M 1 ltac:(lia)) as M1. pose proof (M 2 ltac:(lia)) as M2. pose proof (M 3 ltac:(lia)) as M3.
    unfold X. unfold mass_at, sigma_val, pick in *. cbn [Z.eqb Pos.eqb] in M1, M2, M3.
    pose proof (Rmult_lt_0_compat _ _ M1 M1) as Q1. pose proof (Rmult_lt_0_compat _ _ M2 M2) as Q2.
    pose proof (Rmult_lt_0_compat _ _ M3 M3) as Q3.
    assert (M0 : 0 < at_m0 env) by (destruct Z0 as [Z0|Z0]; [exact Z0|rewrite <- Z0 in *; lra]).
    destruct (in123 k Hk) as [-> | [-> | ->]]; cbn; repeat split; try assumption; lra.
  Qed.

  Variable k : Z.
  Hypothesis Hk : (1 <= k <= 3)%Z.
  Variable theta : R.
  Let Q (i : Z) := helicity_frame env k theta i (at_rest (mass_at env i)).
  Let t := sqrt (sigma_val env k).
  Let p := spectator_momentum env k.
  Let q := product_momentum env k.
  Let a := next_label k.
  Let b := next_label (next_label k).
  Lemma labels_k : (1 <= a <= 3)%Z /\ (1 <= b <= 3)%Z /\ (a =? k)%Z = false /\ (b =? k)%Z = false /\ (b =? a)%Z = false.
  Proof. unfold a, b. destruct (in123 k Hk) as [-> | [-> | ->]]; cbn; repeat split; lia. Qed.

  Lemma Q_spectator : Q k = V4 (energy (mass_at env k) p) (V3 0 0 (- p)).
  Proof.
    unfold Q, helicity_frame. rewrite Z.eqb_refl. rewrite boost_rest by (apply M; exact Hk). rewrite rot_pi. cbn [vE vp vx vy vz].
    f_equal. f_equal. ring.
  Qed.
  Lemma Q_first : Q a = boost_z t p (V4 (energy (mass_at env a) q) (V3 (sin theta * q) 0 (cos theta * q))).
  Proof.
    destruct labels_k as (Ha & Hb & N1 & N2 & N3). unfold Q, helicity_frame. rewrite N1. fold a. rewrite Z.eqb_refl.
    rewrite boost_rest by (apply M; exact Ha). fold t p. f_equal. unfold rot_y; cbn [vE vp vx vy vz]. fold q. f_equal. f_equal; ring.
  Qed.
  Lemma Q_second : Q b = boost_z t p (V4 (energy (mass_at env b) q) (V3 (- (sin theta * q)) 0 (- (cos theta * q)))).
  Proof.
    destruct labels_k as (Ha & Hb & N1 & N2 & N3). unfold Q, helicity_frame. rewrite N2. fold a. rewrite N3.
    rewrite boost_rest by (apply M; exact Hb). fold t p. f_equal. rewrite rot_pi. unfold rot_y; cbn [vE vp vx vy vz]. fold q.
    f_equal. f_equal; ring.
  Qed.
  Lemma Q_pair : add4 (Q a) (Q b) = boost_z t p (at_rest t).
  Proof.
    rewrite Q_first, Q_second, <- boost_plus. f_equal. unfold add4, add3, at_rest, zero3; cbn [vE vp vx vy vz].
    f_equal; [|f_equal; ring].
    destruct (point_facts k Hk) as (M0 & S0 & I1 & I2 & N1 & N2). fold b in I1, N2. fold a in I1, N2.
    assert (TT : t * t = sigma_val env k) by (apply sqrt_sqrt; lra).
    unfold q, product_momentum. fold b a. rewrite <- TT. destruct labels_k as (Ha & Hb & _).
    pose proof (M a Ha) as Ma. pose proof (M b Hb) as Mb.
    pose proof (Rmult_lt_0_compat _ _ Ma Ma). pose proof (Rmult_lt_0_compat _ _ Mb Mb). unfold X in *.
    apply two_body; rewrite ?TT; try lra. apply sqrt_lt_R0. exact S0.
  Qed.
  Lemma Q_total : add4 (Q k) (add4 (Q a) (Q b)) = at_rest (mass_at env 0).
  Proof.
    destruct (point_facts k Hk) as (M0 & S0 & I1 & I2 & N1 & N2).
    assert (T : 0 < t) by (apply sqrt_lt_R0; exact S0).
    assert (TT : t * t = sigma_val env k) by (apply sqrt_sqrt; lra).
    rewrite Q_pair, boost_rest by exact T. rewrite Q_spectator. unfold add4, add3, at_rest, zero3; cbn [vE vp vx vy vz].
    f_equal; [|f_equal; ring].
    unfold p, spectator_momentum. fold t. pose proof (M k Hk) as Mk. pose proof (Rmult_lt_0_compat _ _ Mk Mk).
    pose proof (Rmult_lt_0_compat _ _ T T). unfold X in *.
    apply two_body; rewrite ?TT; lra.
  Qed.
  Lemma Q_pair_mass : msq (add4 (Q a) (Q b)) = sigma_val env k.
  Proof.
    destruct (point_facts k Hk) as (M0 & S0 & I1 & I2 & N1 & N2).
    rewrite Q_pair, msq_boost, msq_rest by (apply sqrt_lt_R0; exact S0). apply sqrt_sqrt. lra.
  Qed.
  Lemma Q_shell i : (1 <= i <= 3)%Z -> on_shell (mass_at env i) (Q i).
  Proof.
    intros Hi. destruct (point_facts k Hk) as (M0 & S0 & I1 & I2 & N1 & N2). pose proof (M i Hi) as Mi.
    assert (T : 0 < t) by (apply sqrt_lt_R0; exact S0). pose proof (M k Hk) as Mk.
    assert (F : forward (Q i)).
    { unfold Q, helicity_frame. destruct (Z.eqb_spec i k) as [->|].
      - apply forward_rot, forward_boost; [exact Mk|apply forward_rest; exact Mk].
      - apply forward_boost; [exact T|]. apply forward_rot. destruct (i =? next_label k)%Z.
        + apply forward_boost; [exact Mi|apply forward_rest; exact Mi].
        + apply forward_rot, forward_boost; [exact Mi|apply forward_rest; exact Mi]. }
    split; [lra|]. split; [apply Rlt_le, F|].
    unfold Q, helicity_frame. destruct (Z.eqb_spec i k) as [->|].
    - rewrite msq_rot, msq_boost, msq_rest by exact Mk. reflexivity.
    - fold t. rewrite msq_boost, msq_rot by exact T. destruct (i =? next_label k)%Z.
      + rewrite msq_boost, msq_rest by exact Mi. reflexivity.
      + rewrite msq_rot, msq_boost, msq_rest by exact Mi. reflexivity.
  Qed.
  Lemma Q_plane i : vy (vp (Q i)) = 0.
  Proof.
    unfold Q, helicity_frame. destruct (i =? k)%Z; [reflexivity|]. destruct (i =? next_label k)%Z; reflexivity.
  Qed.
  Lemma Q_side : 0 <= sin theta -> 0 <= vx (vp (Q a)).
  Proof.
    intros S. rewrite Q_first. cbn [boost_z vE vp vx vy vz]. apply Rmult_le_pos; [exact S|].
    destruct (point_facts k Hk) as (M0 & S0 & I1 & I2 & N1 & N2).
    unfold q, product_momentum, momentum. apply Rmult_le_pos; [apply sqrt_pos|]. apply Rlt_le, Rinv_0_lt_compat.
    assert (0 < sqrt (sigma_val env k)) by (apply sqrt_lt_R0; exact S0). lra.
  Qed.
End Chain.

(** ** C131 *)
Lemma angle_of env k theta : scattering_angle env k theta ->
  theta = rv env (formulate_scattering_angle (next_label k) (next_label (next_label k))).
Proof. intros (x & e & E & ->). apply (rv_of env _ _ _ E). Qed.
Lemma c131_spinor env i k r tk tr x e y f : physical env -> nonsingular env ->
  (1 <= i <= 3)%Z -> (1 <= k <= 3)%Z -> (1 <= r <= 3)%Z -> 0 < mass_at env i ->
  scattering_angle env k tk -> scattering_angle env r tr ->
  formulate_theta_hat_angle k r = Ok (x, e) -> formulate_zeta_angle i k r = Ok (y, f) ->
  spinor_frame env r tr i
  = scale2 (frame_sign i k r) (mul2 (spinor_rot (reval env e)) (mul2 (spinor_frame env k tk i) (spinor_rot (reval env f)))).
Proof.
  intros PH NS Hi Hk Hr M Tk Tr H Z. rewrite (angle_of _ _ _ Tk), (angle_of _ _ _ Tr), (rv_of env _ _ _ H), (rv_of env _ _ _ Z).
  apply any_frame; assumption.
Qed.
Lemma sigma_pos env i k : physical env -> (1 <= i <= 3)%Z -> (1 <= k <= 3)%Z -> 0 < mass_at env i -> i = k \/ 0 < sigma_val env k.
Proof.
  intros (p1 & p2 & p3 & P) Hi Hk M. pose proof (phys_pos _ _ _ _ P) as ((A1 & A2 & A3) & _).
  pose proof (Rmult_lt_0_compat _ _ M M) as MM. destruct (physical_facts _ _ _ _ P) as [_ _ _ Y1 Y2 Y3 _ _ _].
  destruct (Z.eq_dec i k) as [E|N]; [left; exact E|right].
  destruct (in123 i Hi) as [-> | [-> | ->]], (in123 k Hk) as [-> | [-> | ->]]; try (exfalso; lia);
    cbn [mass_at sigma_val Z.eqb Pos.eqb pick] in *; lra.
Qed.
Lemma c131_frames env i k r tk tr x e y f : physical env -> nonsingular env ->
  (1 <= i <= 3)%Z -> (1 <= k <= 3)%Z -> (1 <= r <= 3)%Z -> 0 < mass_at env i ->
  scattering_angle env k tk -> scattering_angle env r tr ->
  formulate_theta_hat_angle k r = Ok (x, e) -> formulate_zeta_angle i k r = Ok (y, f) ->
  forall v, helicity_frame env r tr i v = rot_y (reval env e) (helicity_frame env k tk i (rot_y (reval env f) v)).
Proof.
  intros PH NS Hi Hk Hr M Tk Tr H Z v.
  rewrite <- !transform_frame by (auto using sigma_pos).
  rewrite (c131_spinor env i k r tk tr x e y f PH NS Hi Hk Hr M Tk Tr H Z).
  rewrite transform_scale by (unfold frame_sign; repeat match goal with |- context [if ?c then _ else _] => destruct c end; lra).
  rewrite !transform_mul, !transform_rot. reflexivity.
Qed.
Lemma c131_momenta env k theta : physical env -> nonsingular env ->
  (forall i, (1 <= i <= 3)%Z -> 0 < mass_at env i) -> (1 <= k <= 3)%Z -> scattering_angle env k theta ->
  let q i := helicity_frame env k theta i (at_rest (mass_at env i)) in
  momenta_of env (q 1%Z) (q 2%Z) (q 3%Z) /\ add4 (q 1%Z) (add4 (q 2%Z) (q 3%Z)) = at_rest (mass_at env 0) /\
  vp (q k) = V3 0 0 (- spectator_momentum env k) /\ 0 <= vx (vp (q (next_label k))) /\ (forall i, vy (vp (q i)) = 0).
Proof.
  intros PH NS M Hk T q.
  assert (SA : forall r, (1 <= r <= 3)%Z -> exists tr, scattering_angle env r tr).
  { intros r Hr. destruct (in123 r Hr) as [-> | [-> | ->]]; eexists; eexists; eexists; split; reflexivity. }
  assert (S : forall r, (1 <= r <= 3)%Z -> msq (add4 (q (next_label r)) (q (next_label (next_label r)))) = sigma_val env r).
  { intros r Hr. destruct (SA r Hr) as [tr Tr].
    assert (AH : exists x e, formulate_theta_hat_angle k r = Ok (x, e)).
    { destruct (in123 r Hr) as [-> | [-> | ->]], (in123 k Hk) as [-> | [-> | ->]]; eexists; eexists; reflexivity. }
    destruct AH as (x & e & H).
    assert (E : forall i, (1 <= i <= 3)%Z -> helicity_frame env r tr i (at_rest (mass_at env i)) = rot_y (reval env e) (q i)).
    { intros i Hi. assert (AZ : exists y f, formulate_zeta_angle i k r = Ok (y, f)).
      { destruct (in123 i Hi) as [-> | [-> | ->]], (in123 r Hr) as [-> | [-> | ->]], (in123 k Hk) as [-> | [-> | ->]]; eexists; eexists; reflexivity. }
      destruct AZ as (y & f & Z). rewrite (c131_frames env i k r theta tr x e y f PH NS Hi Hk Hr (M i Hi) T Tr H Z).
      rewrite rot_rest. reflexivity. }
    pose proof (Q_pair_mass env PH NS M r Hr tr) as PM. cbv zeta beta in PM. rewrite <- PM. destruct (labels_k env r Hr tr) as (Ha & Hb & _).
    rewrite !E by assumption. rewrite <- rot_plus, msq_rot. reflexivity. }
  pose proof (Q_total env PH NS M k Hk theta) as TO. cbv zeta beta in TO.
  assert (TO' : add4 (q 1%Z) (add4 (q 2%Z) (q 3%Z)) = at_rest (mass_at env 0)).
  { rewrite <- TO. unfold q. generalize (fun i => helicity_frame env k theta i (at_rest (mass_at env i))). intros w.
    unfold add4, add3; destruct (in123 k Hk) as [-> | [-> | ->]]; cbn [next_label Z.eqb Pos.eqb Z.add Pos.add Pos.succ vE vp vx vy vz];
      f_equal; try ring; f_equal; ring. }
  destruct (point_facts env PH NS M k Hk) as (M0 & _).
  split; [|split; [exact TO'|split; [|split]]].
  - split; [exact (Q_shell env PH NS M k Hk theta 1%Z ltac:(lia))|]. split; [exact (Q_shell env PH NS M k Hk theta 2%Z ltac:(lia))|].
    split; [exact (Q_shell env PH NS M k Hk theta 3%Z ltac:(lia))|]. split.
    + rewrite TO'. split; [apply Rlt_le; exact M0|]. split; [apply Rlt_le; exact M0|]. apply msq_rest.
    + split; [|split]; symmetry; [exact (S 1%Z ltac:(lia))|exact (S 2%Z ltac:(lia))|exact (S 3%Z ltac:(lia))].
  - unfold q. rewrite (Q_spectator env M k Hk theta). reflexivity.
  - apply (Q_side env PH NS M k Hk theta). rewrite (angle_of _ _ _ T).
    assert (B : 0 <= rv env (formulate_scattering_angle (next_label k) (next_label (next_label k))) <= PI).
    { destruct (in123 k Hk) as [-> | [-> | ->]]; apply acos_bound. }
    apply sin_ge_0; apply B.
  - intros i. apply Q_plane.
Qed.
