(** Angles have derivatives inside the Dalitz plot (proofs for C139) *)
From Coq Require Import String ZArith List Bool Reals Lia Lra Psatz.
From Coquelicot Require Import Coquelicot.
From Verif Require Import Prelude Expr Angles SpecKin SpecDPD SpecFinite SpecWigner KinFacts AnglesFacts AnglesProofs FiniteShapes SpecSmooth SmoothFacts.
Import ListNotations.
Local Open Scope R_scope.

Lemma rest_gram p1 p2 p3 : add3 (vp p1) (add3 (vp p2) (vp p3)) = zero3 ->
  gram (msq p1) (msq p2) (msq p3) (msq (add4 p2 p3)) (msq (add4 p3 p1)) (msq (add4 p1 p2)) =
  (vE p1 + vE p2 + vE p3) ^ 2 * dot (cross (vp p1) (vp p2)) (cross (vp p1) (vp p2)).
Proof.
  destruct p1 as [e1 [a1 b1 c1]], p2 as [e2 [a2 b2 c2]], p3 as [e3 [a3 b3 c3]].
  unfold add3, zero3. cbn [vp vE vx vy vz]. intros E. injection E as E1 E2 E3.
  assert (A : a3 = - a1 - a2) by lra. assert (B : b3 = - b1 - b2) by lra. assert (K : c3 = - c1 - c2) by lra. subst a3 b3 c3.
  rewrite gram_momenta. unfold dot, cross. cbn [vp vE vx vy vz]. ring.
Qed.
Lemma cross_pos v : v <> zero3 -> 0 < dot v v.
Proof.
  intros N. destruct v as [a b c]. unfold dot. cbn [vx vy vz].
  destruct (Rle_lt_or_eq_dec 0 (a * a + b * b + c * c)) as [|E]; auto; [nra|]. destruct N.
  assert (a = 0) by nra. assert (b = 0) by nra. assert (c = 0) by nra. subst. reflexivity.
Qed.
Lemma inside_physical env : inside env -> physical env.
Proof. intros (p1 & p2 & p3 & M & _). exists p1, p2, p3. exact M. Qed.
Lemma inside_gram env : inside env ->
  0 < gram (at_m1 env * at_m1 env) (at_m2 env * at_m2 env) (at_m3 env * at_m3 env) (at_s1 env) (at_s2 env) (at_s3 env).
Proof.
  intros (p1 & p2 & p3 & ((N1 & E1 & Q1) & (N2 & E2 & Q2) & (N3 & E3 & Q3) & O0 & S1 & S2 & S3) & Z & X).
  rewrite S1, S2, S3, <- Q1, <- Q2, <- Q3, (rest_gram _ _ _ Z). pose proof (cross_pos _ X) as C0.
  apply Rmult_lt_0_compat; auto.
  assert (P : 0 < vE p1).
  { destruct (Rle_lt_or_eq_dec 0 (vE p1) E1) as [|E]; auto. exfalso.
    unfold msq in Q1. rewrite <- E in Q1. assert (D : dot (vp p1) (vp p1) = 0).
    { assert (0 <= dot (vp p1) (vp p1)) by (destruct (vp p1); unfold dot; cbn; nra). nra. }
    apply X. destruct (vp p1) as [a b c], (vp p2) as [a' b' c']. unfold dot in D. cbn [vx vy vz] in D.
    assert (a = 0) by nra. assert (b = 0) by nra. assert (c = 0) by nra. subst. unfold cross, zero3. cbn [vx vy vz]. f_equal; ring. }
  apply pow_lt. lra.
Qed.

Lemma acos_ratio_strict n a b : 0 < a -> 0 < b -> n * n < a * b -> -1 < n / (sqrt a * sqrt b) < 1.
Proof.
  intros A B L. pose proof (sqrt_lt_R0 _ A) as Qa. pose proof (sqrt_lt_R0 _ B) as Qb.
  assert (Sa : sqrt a * sqrt a = a) by (apply sqrt_sqrt; lra). assert (Sb : sqrt b * sqrt b = b) by (apply sqrt_sqrt; lra).
  set (q := sqrt a * sqrt b) in *. assert (Q : 0 < q) by (apply Rmult_lt_0_compat; auto).
  assert (Q2 : n * n < q * q) by (unfold q; replace (sqrt a * sqrt b * (sqrt a * sqrt b)) with ((sqrt a * sqrt a) * (sqrt b * sqrt b)) by ring; rewrite Sa, Sb; exact L).
  assert (- q < n < q) by (clear -Q Q2; split; nra).
  split; apply (Rmult_lt_reg_r q); auto; unfold Rdiv; rewrite ?Rmult_assoc, Rinv_l, ?Rmult_1_r by lra; lra.
Qed.
Lemma smooth_acos env n a b : smooth_valued env n -> smooth_valued env a -> smooth_valued env b ->
  0 < reval env a -> 0 < reval env b -> reval env n * reval env n < reval env a * reval env b ->
  smooth_valued env (RAcos (RDiv n (RMul (RSqrt a) (RSqrt b)))).
Proof.
  intros Hn Ha Hb Pa Pb L. cbn [smooth_valued reval].
  pose proof (sqrt_lt_R0 _ Pa) as Qa. pose proof (sqrt_lt_R0 _ Pb) as Qb.
  pose proof (acos_ratio_strict _ _ _ Pa Pb L) as [X1 X2]. repeat split; auto. nra.
Qed.

Section Strict.
  Variables x0 x1 x2 x3 s1 s2 s3 : R.
  Hypothesis Mand : x0 = s1 + s2 + s3 - x1 - x2 - x3.
  Hypothesis G : 0 < gram x1 x2 x3 s1 s2 s3.
  Lemma gram_scaled x : 0 < x -> 0 < 16 * x * gram x1 x2 x3 s1 s2 s3.
  Proof. intros H. apply Rmult_lt_0_compat; auto. lra. Qed.
  Lemma theta12_lt : 0 < s3 -> n_theta x0 x1 x2 x3 s2 s3 * n_theta x0 x1 x2 x3 s2 s3 < kallen x0 x3 s3 * kallen s3 x1 x2.
  Proof. intros H. pose proof (id_theta12 x0 x1 x2 x3 s1 s2 s3 Mand) as E. pose proof (gram_scaled _ H). lra. Qed.
  Lemma theta21_lt : 0 < s3 -> n_theta x0 x2 x1 x3 s1 s3 * n_theta x0 x2 x1 x3 s1 s3 < kallen x0 x3 s3 * kallen s3 x2 x1.
  Proof. intros H. pose proof (theta12_lt H) as L. rewrite (id_theta_swap x0 x1 x2 x3 s1 s2 s3) by lra. rewrite (kallen_swap s3 x1 x2). lra. Qed.
  Lemma hat31_lt : 0 < x0 -> n_hat x0 x3 x1 s3 s1 s2 * n_hat x0 x3 x1 s3 s1 s2 < kallen x0 x1 s1 * kallen x0 s3 x3.
  Proof. intros H. pose proof (id_hat31 x0 x1 x2 x3 s1 s2 s3 Mand) as E. pose proof (gram_scaled _ H). lra. Qed.
  Lemma z113_lt : 0 < x1 -> n_zeta0 x0 x1 x2 s1 s2 s3 * n_zeta0 x0 x1 x2 s1 s2 s3 < kallen x0 x1 s1 * kallen s3 x1 x2.
  Proof. intros H. pose proof (id_z1_12 x0 x1 x2 x3 s1 s2 s3 Mand) as E. pose proof (gram_scaled _ H). lra. Qed.
  Lemma z121_lt : 0 < x1 -> n_zeta0 x0 x1 x3 s1 s3 s2 * n_zeta0 x0 x1 x3 s1 s3 s2 < kallen x0 x1 s1 * kallen s2 x1 x3.
  Proof. intros H. pose proof (id_z1_13 x0 x1 x2 x3 s1 s2 s3 Mand) as E. pose proof (gram_scaled _ H). lra. Qed.
  Lemma z123_lt : 0 < x1 -> n_zeta x1 x2 x3 s1 s2 s3 * n_zeta x1 x2 x3 s1 s2 s3 < kallen s2 x3 x1 * kallen s3 x1 x2.
  Proof. intros H. pose proof (id_z1_23 x1 x2 x3 s1 s2 s3) as E. pose proof (gram_scaled _ H). cbv zeta in E. lra. Qed.
End Strict.

Section Angles.
  Variable env : symbol -> R.
  Hypothesis In0 : inside env.
  Hypothesis N : nonsingular env.
  Local Open Scope Z_scope.
  Definition svd (r : res (symbol * rexpr)) : Prop := match r with Ok (_, e) => smooth_valued env e | Err _ => True end.
  Lemma svd_all i j k : 1 <= i <= 3 -> 1 <= j <= 3 -> 1 <= k <= 3 ->
    svd (formulate_scattering_angle i j) /\ svd (formulate_theta_hat_angle i j) /\
    (0 < mass_at env i -> svd (formulate_zeta_angle i j k))%R /\ (0 < mass_at env i -> svd (formulate_zeta_angle i j 0))%R /\
    svd (formulate_zeta_angle 0 i j).
  Proof.
    pose proof (inside_physical _ In0) as P. pose proof (inside_gram _ In0) as G1.
    destruct (thresholds _ P N) as (A0 & A1 & A2 & A3 & T1 & T2 & T3).
    assert (B0 : (0 < at_m0 env * at_m0 env)%R) by nra.
    assert (S1 : (0 < at_s1 env)%R) by nra. assert (S2 : (0 < at_s2 env)%R) by nra. assert (S3 : (0 < at_s3 env)%R) by nra.
    destruct P as (p1 & p2 & p3 & P1). apply physical_facts in P1. pose proof (nonsing_of _ N) as N1.
    pose proof (phys_cycle _ _ _ _ _ _ _ P1) as P2. pose proof (nonsing_cycle _ _ _ _ _ _ _ N1) as N2.
    pose proof (phys_cycle _ _ _ _ _ _ _ P2) as P3. pose proof (nonsing_cycle _ _ _ _ _ _ _ N2) as N3.
    apply pf_mand in P1. apply pf_mand in P2. apply pf_mand in P3.
    pose proof G1 as G2. rewrite <- gram_cycle in G2. pose proof G2 as G3. rewrite <- gram_cycle in G3.
    assert (Th12 : svd (formulate_scattering_angle 1 2)).
    { apply smooth_acos; try (cbn; tauto); [apply N1|apply N1|apply (theta12_lt _ _ _ _ _ _ _ P1 G1 S3)]. }
    assert (Th23 : svd (formulate_scattering_angle 2 3)).
    { apply smooth_acos; try (cbn; tauto); [apply N2|apply N2|apply (theta12_lt _ _ _ _ _ _ _ P2 G2 S1)]. }
    assert (Th31 : svd (formulate_scattering_angle 3 1)).
    { apply smooth_acos; try (cbn; tauto); [apply N3|apply N3|apply (theta12_lt _ _ _ _ _ _ _ P3 G3 S2)]. }
    assert (Th21 : svd (formulate_scattering_angle 2 1)).
    { apply smooth_acos; try (cbn; tauto); [apply N1|cbn [reval]; rewrite kallen_swap; apply N1|
        apply (theta21_lt _ _ _ _ _ _ _ P1 G1 S3)]. }
    assert (Th32 : svd (formulate_scattering_angle 3 2)).
    { apply smooth_acos; try (cbn; tauto); [apply N2|cbn [reval]; rewrite kallen_swap; apply N2|
        apply (theta21_lt _ _ _ _ _ _ _ P2 G2 S1)]. }
    assert (Th13 : svd (formulate_scattering_angle 1 3)).
    { apply smooth_acos; try (cbn; tauto); [apply N3|cbn [reval]; rewrite kallen_swap; apply N3|
        apply (theta21_lt _ _ _ _ _ _ _ P3 G3 S2)]. }
    assert (H31 : svd (formulate_theta_hat_angle 3 1)).
    { apply smooth_acos; try (cbn; tauto); [apply N1|cbn [reval]; rewrite kallen_swap; apply N1|
        apply (hat31_lt _ _ _ _ _ _ _ P1 G1 B0)]. }
    assert (H12 : svd (formulate_theta_hat_angle 1 2)).
    { apply smooth_acos; try (cbn; tauto); [apply N2|cbn [reval]; rewrite kallen_swap; apply N2|
        apply (hat31_lt _ _ _ _ _ _ _ P2 G2 B0)]. }
    assert (H23 : svd (formulate_theta_hat_angle 2 3)).
    { apply smooth_acos; try (cbn; tauto); [apply N3|cbn [reval]; rewrite kallen_swap; apply N3|
        apply (hat31_lt _ _ _ _ _ _ _ P3 G3 B0)]. }
    assert (X : forall m : R, (0 < m -> 0 < m * m)%R) by (intros m Hm; apply Rmult_lt_0_compat; auto).
    assert (Z1 : (0 < mass_at env 1)%R -> svd (formulate_zeta_angle 1 1 3) /\ svd (formulate_zeta_angle 1 2 1) /\ svd (formulate_zeta_angle 1 2 3)).
    { intros M. apply X in M. split; [|split].
      - apply smooth_acos; try (cbn; tauto); [apply N1|apply N1|apply (z113_lt _ _ _ _ _ _ _ P1 G1 M)].
      - apply smooth_acos; try (cbn; tauto); [apply N1|cbn [reval]; rewrite kallen_swap; apply N1|apply (z121_lt _ _ _ _ _ _ _ P1 G1 M)].
      - apply smooth_acos; try (cbn; tauto); [apply N1|apply N1|apply (z123_lt _ _ _ _ _ _ G1 M)]. }
    assert (Z2 : (0 < mass_at env 2)%R -> svd (formulate_zeta_angle 2 2 1) /\ svd (formulate_zeta_angle 2 3 2) /\ svd (formulate_zeta_angle 2 3 1)).
    { intros M. apply X in M. split; [|split].
      - apply smooth_acos; try (cbn; tauto); [apply N2|apply N2|apply (z113_lt _ _ _ _ _ _ _ P2 G2 M)].
      - apply smooth_acos; try (cbn; tauto); [apply N2|cbn [reval]; rewrite kallen_swap; apply N2|apply (z121_lt _ _ _ _ _ _ _ P2 G2 M)].
      - apply smooth_acos; try (cbn; tauto); [apply N2|apply N2|apply (z123_lt _ _ _ _ _ _ G2 M)]. }
    assert (Z3 : (0 < mass_at env 3)%R -> svd (formulate_zeta_angle 3 3 2) /\ svd (formulate_zeta_angle 3 1 3) /\ svd (formulate_zeta_angle 3 1 2)).
    { intros M. apply X in M. split; [|split].
      - apply smooth_acos; try (cbn; tauto); [apply N3|apply N3|apply (z113_lt _ _ _ _ _ _ _ P3 G3 M)].
      - apply smooth_acos; try (cbn; tauto); [apply N3|cbn [reval]; rewrite kallen_swap; apply N3|apply (z121_lt _ _ _ _ _ _ _ P3 G3 M)].
      - apply smooth_acos; try (cbn; tauto); [apply N3|apply N3|apply (z123_lt _ _ _ _ _ _ G3 M)]. }
    intros Hi Hj Hk. clear P1 P2 P3 N1 N2 N3 X.
    destruct (in123 i Hi) as [-> | [-> | ->]], (in123 j Hj) as [-> | [-> | ->]],
      (in123 k Hk) as [-> | [-> | ->]];
      (split; [|split; [|split; [|split]]]); clear Hi Hj Hk;
      try (intros M; try (destruct (Z1 M) as (Z11 & Z12 & Z13)); try (destruct (Z2 M) as (Z21 & Z22 & Z23)); try (destruct (Z3 M) as (Z31 & Z32 & Z33)));
      first [assumption | exact I].
  Qed.
  Lemma angles_smooth :
    (forall i j s e, formulate_scattering_angle i j = Ok (s, e) -> smooth_valued env e) /\
    (forall i j k s e, i = 0 \/ (0 < mass_at env i)%R -> formulate_zeta_angle i j k = Ok (s, e) -> smooth_valued env e).
  Proof.
    split; intros.
    - destruct (ok_scattering_ids _ _ _ _ H) as (Hi & Hj & _).
      pose proof (svd_all i j 1 Hi Hj ltac:(lia)) as (A & _). rewrite H in A. exact A.
    - rename H0 into F. destruct (ok_zeta_ids _ _ _ _ _ F) as [[(-> & Hj & Hk)|(Hi & Hj & Hk)]| ->]; [| |exact I].
      + pose proof (svd_all j k 1 Hj Hk ltac:(lia)) as (_ & _ & _ & _ & A). rewrite F in A. exact A.
      + destruct H as [->|M]; [lia|]. destruct (Z.eq_dec k 0) as [-> |].
        * pose proof (svd_all i j 1 Hi Hj ltac:(lia)) as (_ & _ & _ & A & _). rewrite F in A. exact (A M).
        * pose proof (svd_all i j k Hi Hj ltac:(lia)) as (_ & _ & A & _). rewrite F in A. exact (A M).
  Qed.
End Angles.
