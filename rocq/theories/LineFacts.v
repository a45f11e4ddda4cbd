(** Alignment on the boundary of the Dalitz plot (C136) *)
From Coq Require Import String ZArith QArith Qcanon List Bool Reals Lia Lra Permutation.
From Coquelicot Require Import Complex.
From Verif Require Import Prelude Spin Decay Expr Angles Sums Wigner CG CExpr SpecKin SpecDPD Builder
  SpinFacts DecayFacts KinFacts AnglesFacts AnglesProofs WignerFacts CExprFacts BuilderFacts ModelFacts RefFacts LSBasis ChainProofs SpecWigner WignerFrames
  SpecBuilder WaveFacts AngularFacts MirrorFacts SpecLine.
Import ListNotations.
Local Open Scope R_scope.

(** ** The angles *)
Definition line_angle (g : Z) (t : R) : Prop := (g = 1%Z /\ t = 0) \/ (g = (-1)%Z /\ (t = PI \/ t = - PI)).
Lemma sgn_cases x : sgn x = 1%Z \/ sgn x = (-1)%Z.
Proof. unfold sgn. destruct (Rlt_dec x 0); auto. Qed.
Lemma sgn_sq x : (sgn x * sgn x = 1)%Z.
Proof. destruct (sgn_cases x) as [-> | ->]; reflexivity. Qed.
Lemma sgn_opp x : x <> 0 -> sgn (- x) = (- sgn x)%Z.
Proof. intros N. unfold sgn. destruct (Rlt_dec x 0), (Rlt_dec (- x) 0); try reflexivity; lra. Qed.
Lemma line_angle_opp g t : line_angle g t -> line_angle g (- t).
Proof. intros [[-> ->]|[-> [-> | ->]]]; [left; split; [reflexivity|lra]|right|right]; split; auto. left. lra. Qed.
Lemma line_angle_0 x : line_angle (sgn x * sgn x) 0.
Proof. left. split; [apply sgn_sq|reflexivity]. Qed.
Lemma line_acos n A B x y c : 0 < A -> 0 < B -> A = 4 * (x * x) -> B = 4 * (y * y) -> n = 4 * x * y -> c = (sgn x * sgn y)%Z ->
  line_angle c (acos (n / (sqrt A * sqrt B))).
Proof.
  intros PA PB -> -> -> ->.
  assert (X : x <> 0) by (intros ->; lra). assert (Y : y <> 0) by (intros ->; lra).
  assert (T : forall z, z <> 0 -> sqrt (4 * (z * z)) = 2 * Rabs z).
  { intros z _. replace (4 * (z * z)) with (Rsqr (2 * z)) by (unfold Rsqr; ring). rewrite sqrt_Rsqr_abs, Rabs_mult, (Rabs_pos_eq 2) by lra. reflexivity. }
  rewrite !T by assumption. unfold sgn, Rabs. destruct (Rcase_abs x), (Rcase_abs y), (Rlt_dec x 0), (Rlt_dec y 0); try lra.
  - replace (4 * x * y / (2 * - x * (2 * - y))) with 1 by (field; split; assumption). left. split; [reflexivity|apply acos_1].
  - replace (4 * x * y / (2 * - x * (2 * y))) with (- (1)) by (field; split; assumption). right. split; [reflexivity|]. left. rewrite acos_opp, acos_1. lra.
  - replace (4 * x * y / (2 * x * (2 * - y))) with (- (1)) by (field; split; assumption). right. split; [reflexivity|]. left. rewrite acos_opp, acos_1. lra.
  - replace (4 * x * y / (2 * x * (2 * y))) with 1 by (field; split; assumption). left. split; [reflexivity|apply acos_1].
Qed.
Lemma sgn_mult c x : 0 < c -> sgn (c * x) = sgn x.
Proof. intros C. unfold sgn. destruct (Rlt_dec x 0), (Rlt_dec (c * x) 0); try reflexivity; exfalso; nra. Qed.
Lemma wigner_line j m m' g t : is_projection j m = true -> is_projection j m' = true -> line_angle g t -> wigner_d j m m' t <> 0 -> m = (g * m')%Z.
Proof.
  intros P P' [[-> ->]|[-> [-> | ->]]] N.
  - rewrite wigner_d_0 in N. destruct (Z.eqb_spec m m') as [->|_]; [lia|]. rewrite andb_false_r in N. lra.
  - rewrite wigner_d_pi in N by assumption. destruct (Z.eqb_spec m (- m')); [lia|lra].
  - rewrite <- wigner_d_transpose in N. rewrite wigner_d_pi in N by assumption. destruct (Z.eqb_spec m' (- m)); [lia|lra].
Qed.

Section Algebra.
  Variables (x0 xa xb xc sa sb sc ea eb ec pa pb pc : R).
  Hypotheses (T : pa + pb + pc = 0) (P : 0 < ea + eb + ec) (X0 : x0 = (ea + eb + ec) * (ea + eb + ec))
    (Xa : xa = ea * ea - pa * pa) (Xb : xb = eb * eb - pb * pb) (Xc : xc = ec * ec - pc * pc)
    (Sa : sa = (eb + ec) * (eb + ec) - pa * pa) (Sb : sb = (ec + ea) * (ec + ea) - pb * pb) (Sc : sc = (ea + eb) * (ea + eb) - pc * pc).
  Let Tc : pc = - pa - pb.
  Proof. lra. Qed.
  Lemma z0_line : 0 < kallen x0 xa sa -> 0 < kallen sc xa xb -> line_angle (sgn pa * sgn (pa * eb - pb * ea)) (z0_ x0 xa xb sa sb sc).
  Proof.
    intros K1 K2. unfold z0_. apply (line_acos _ _ _ ((ea + eb + ec) * pa) (pa * eb - pb * ea)); try assumption.
    - subst. unfold kallen. ring.
    - subst. unfold kallen. ring.
    - subst. unfold n_zeta0. ring.
    - rewrite sgn_mult by exact P. reflexivity.
  Qed.
  Lemma z_line : 0 < kallen sb xc xa -> 0 < kallen sc xa xb ->
    line_angle (sgn (pa * ec - pc * ea) * sgn (pa * eb - pb * ea)) (z_ xa xb xc sa sb sc).
  Proof.
    intros K1 K2. unfold z_. apply (line_acos _ _ _ (pa * ec - pc * ea) (pa * eb - pb * ea)); try assumption; try reflexivity; subst.
    - unfold kallen. ring.
    - unfold kallen. ring.
    - unfold n_zeta. ring.
  Qed.
  Lemma hat_line : 0 < kallen x0 xb sb -> 0 < kallen x0 sa xa -> line_angle (sgn pa * sgn pb) (hat_ x0 xa xb sa sb sc).
  Proof.
    intros K1 K2. unfold hat_. apply (line_acos _ _ _ ((ea + eb + ec) * pb) ((ea + eb + ec) * pa)); try assumption.
    - subst. unfold kallen. ring.
    - subst. unfold kallen. ring.
    - subst. unfold n_hat. ring.
    - rewrite !sgn_mult by exact P. ring.
  Qed.
  Lemma th_line : 0 < kallen x0 xc sc -> 0 < kallen sc xa xb -> line_angle (- sgn pc * sgn (pa * eb - pb * ea)) (th_ x0 xa xb xc sb sc).
  Proof.
    intros K1 K2. unfold th_.
    assert (N : pc <> 0). { intros Z. assert (Z' : kallen x0 xc sc = 4 * ((ea + eb + ec) * (ea + eb + ec) * (pc * pc))) by (subst; unfold kallen; ring). rewrite Z' , Z in K1. lra. }
    apply (line_acos _ _ _ ((ea + eb + ec) * (- pc)) (pa * eb - pb * ea)); try assumption.
    - subst. unfold kallen. ring.
    - subst. unfold kallen. ring.
    - subst. unfold n_theta. ring.
    - rewrite sgn_mult by exact P. rewrite sgn_opp by exact N. reflexivity.
  Qed.
End Algebra.

Section Line.
  Variables (env : symbol -> R) (p1 p2 p3 : vec4) (u : vec3) (a : Z -> R).
  Hypothesis L : on_line env p1 p2 p3 u a.
  Hypothesis NS : nonsingular env.
  Let E (n : Z) := vE (pick n p1 p2 p3).
  Let M := E 1 + E 2 + E 3.
  Let w (i j : Z) := a i * E j - a j * E i.
  Lemma line_vals :
    at_m0 env = M /\ 0 < M /\ a 1%Z + a 2%Z + a 3%Z = 0 /\
    at_m1 env * at_m1 env = E 1 * E 1 - a 1%Z * a 1%Z /\ at_m2 env * at_m2 env = E 2 * E 2 - a 2%Z * a 2%Z /\
    at_m3 env * at_m3 env = E 3 * E 3 - a 3%Z * a 3%Z /\
    at_s1 env = (E 2 + E 3) * (E 2 + E 3) - a 1%Z * a 1%Z /\ at_s2 env = (E 3 + E 1) * (E 3 + E 1) - a 2%Z * a 2%Z /\
    at_s3 env = (E 1 + E 2) * (E 1 + E 2) - a 3%Z * a 3%Z.
  Proof.
    destruct L as (((M1 & P1 & S1) & (M2 & P2 & S2) & (M3 & P3 & S3) & (M0 & P0 & S0) & I1 & I2 & I3) & T & U & A).
    pose proof (A 1%Z ltac:(lia)) as A1. pose proof (A 2%Z ltac:(lia)) as A2. pose proof (A 3%Z ltac:(lia)) as A3.
    change (pick 1 p1 p2 p3) with p1 in A1. change (pick 2 p1 p2 p3) with p2 in A2. change (pick 3 p1 p2 p3) with p3 in A3.
    unfold M, E. change (pick 1 p1 p2 p3) with p1. change (pick 2 p1 p2 p3) with p2. change (pick 3 p1 p2 p3) with p3.
    unfold msq, add4 in *. cbn [vE vp] in *. rewrite T in S0. rewrite A1, A2, A3 in *.
    unfold add3, zero3, dot in *. cbn [vx vy vz] in *.
    assert (T' : (a 1 + a 2 + a 3) * (vx u * vx u + vy u * vy u + vz u * vz u) = 0).
    { injection T as X Y Z. replace ((a 1 + a 2 + a 3) * (vx u * vx u + vy u * vy u + vz u * vz u)) with
        ((a 1 * vx u + (a 2 * vx u + a 3 * vx u)) * vx u + (a 1 * vy u + (a 2 * vy u + a 3 * vy u)) * vy u + (a 1 * vz u + (a 2 * vz u + a 3 * vz u)) * vz u) by ring.
      rewrite X, Y, Z. ring. }
    rewrite U, Rmult_1_r in T'.
    assert (Q : forall x, x * vx u * (x * vx u) + x * vy u * (x * vy u) + x * vz u * (x * vz u) = x * x).
    { intros x. replace (x * vx u * (x * vx u) + x * vy u * (x * vy u) + x * vz u * (x * vz u)) with (x * x * (vx u * vx u + vy u * vy u + vz u * vz u)) by ring. rewrite U. ring. }
    rewrite Q in S1, S2, S3.
    assert (Q2 : forall x y, (x * vx u + y * vx u) * (x * vx u + y * vx u) + (x * vy u + y * vy u) * (x * vy u + y * vy u) + (x * vz u + y * vz u) * (x * vz u + y * vz u) = (x + y) * (x + y)).
    { intros x y. rewrite <- (Q (x + y)). ring. }
    rewrite Q2 in I1, I2, I3.
    replace (a 2%Z + a 3%Z) with (- a 1%Z) in I1 by lra. replace (a 3%Z + a 1%Z) with (- a 2%Z) in I2 by lra. replace (a 1%Z + a 2%Z) with (- a 3%Z) in I3 by lra.
    assert (E0 : at_m0 env = vE p1 + vE p2 + vE p3).
    { apply Rsqr_inj; [assumption|lra|]. unfold Rsqr. rewrite <- S0. ring. }
    assert (Pos : 0 < vE p1 + vE p2 + vE p3).
    { destruct NS as (N1 & _). rewrite E0 in N1. destruct (Req_dec (vE p1 + vE p2 + vE p3) 0) as [Z|Z]; [|lra]. exfalso.
      assert (vE p1 = 0 /\ vE p2 = 0 /\ vE p3 = 0) as (Z1 & Z2 & Z3) by lra. rewrite I1, <- S1, Z1, Z2, Z3 in N1. unfold kallen in N1.
      rewrite Z1 in S1. assert (0 <= at_m1 env * at_m1 env) by nra. assert (a 1%Z * a 1%Z = 0) by nra. nra. }
    repeat split; try lra; first [rewrite I1|rewrite I2|rewrite I3]; ring.
  Qed.
  Ltac line_solve := first [lra | rewrite kallen_swap; lra | assumption | rewrite kallen_swap; assumption].
  Lemma line_pos : forall n, (1 <= n <= 3)%Z -> a n <> 0.
  Proof.
    destruct line_vals as (V0 & P & T & X1 & X2 & X3 & S1 & S2 & S3). destruct NS as (N1 & N2 & N3 & _).
    rewrite V0, X1, S1 in N1. rewrite V0, X2, S2 in N2. rewrite V0, X3, S3 in N3. unfold M, kallen in *.
    intros n Hn. destruct (in123 n Hn) as [-> | [-> | ->]]; intros Z; rewrite Z in *; [clear N2 N3|clear N1 N3|clear N1 N2]; ring_simplify in N1 || ring_simplify in N2 || ring_simplify in N3; lra.
  Qed.
  Lemma line_base :
    line_angle (sgn (a 1%Z) * sgn (w 1 2)) (rv env (formulate_zeta_angle 1 1 3)) /\
    line_angle (sgn (a 1%Z) * sgn (w 1 3)) (rv env (formulate_zeta_angle 1 2 1)) /\
    line_angle (sgn (w 1 3) * sgn (w 1 2)) (rv env (formulate_zeta_angle 1 2 3)) /\
    line_angle (sgn (a 2%Z) * sgn (w 2 3)) (rv env (formulate_zeta_angle 2 2 1)) /\
    line_angle (sgn (a 2%Z) * sgn (w 2 1)) (rv env (formulate_zeta_angle 2 3 2)) /\
    line_angle (sgn (w 2 1) * sgn (w 2 3)) (rv env (formulate_zeta_angle 2 3 1)) /\
    line_angle (sgn (a 3%Z) * sgn (w 3 1)) (rv env (formulate_zeta_angle 3 3 2)) /\
    line_angle (sgn (a 3%Z) * sgn (w 3 2)) (rv env (formulate_zeta_angle 3 1 3)) /\
    line_angle (sgn (w 3 2) * sgn (w 3 1)) (rv env (formulate_zeta_angle 3 1 2)) /\
    line_angle (sgn (a 3%Z) * sgn (a 1%Z)) (rv env (formulate_zeta_angle 0 3 1)) /\
    line_angle (sgn (a 1%Z) * sgn (a 2%Z)) (rv env (formulate_zeta_angle 0 1 2)) /\
    line_angle (sgn (a 2%Z) * sgn (a 3%Z)) (rv env (formulate_zeta_angle 0 2 3)).
  Proof.
    destruct line_vals as (V0 & P & T & X1 & X2 & X3 & S1 & S2 & S3). destruct NS as (N1 & N2 & N3 & N4 & N5 & N6).
    rewrite !zeta_rot0 by lia.
    rewrite z_113, z_121, z_123, z_221, z_232, z_231, z_332, z_313, z_312, hat_31, hat_12, hat_23. rewrite V0 in *. unfold w, M in *.
    repeat split.
    - apply (z0_line _ _ _ _ _ _ (E 1) (E 2) (E 3) _ _ (a 3%Z)); line_solve.
    - apply (z0_line _ _ _ _ _ _ (E 1) (E 3) (E 2) _ _ (a 2%Z)); line_solve.
    - apply (z_line _ _ _ _ _ _ (E 1) (E 2) (E 3)); line_solve.
    - apply (z0_line _ _ _ _ _ _ (E 2) (E 3) (E 1) _ _ (a 1%Z)); line_solve.
    - apply (z0_line _ _ _ _ _ _ (E 2) (E 1) (E 3) _ _ (a 3%Z)); line_solve.
    - apply (z_line _ _ _ _ _ _ (E 2) (E 3) (E 1)); line_solve.
    - apply (z0_line _ _ _ _ _ _ (E 3) (E 1) (E 2) _ _ (a 2%Z)); line_solve.
    - apply (z0_line _ _ _ _ _ _ (E 3) (E 2) (E 1) _ _ (a 1%Z)); line_solve.
    - apply (z_line _ _ _ _ _ _ (E 3) (E 1) (E 2)); line_solve.
    - apply (hat_line _ _ _ _ _ _ (E 3) (E 1) (E 2) _ _ (a 2%Z)); line_solve.
    - apply (hat_line _ _ _ _ _ _ (E 1) (E 2) (E 3) _ _ (a 3%Z)); line_solve.
    - apply (hat_line _ _ _ _ _ _ (E 2) (E 3) (E 1) _ _ (a 1%Z)); line_solve.
  Qed.
  Lemma third_eq : third 1 2 = 3%Z /\ third 1 3 = 2%Z /\ third 2 1 = 3%Z /\ third 2 3 = 1%Z /\ third 3 1 = 2%Z /\ third 3 2 = 1%Z.
  Proof. repeat split. Qed.
  Lemma line_zeta0 j k : (1 <= j <= 3)%Z -> (1 <= k <= 3)%Z -> line_angle (sgn (a j) * sgn (a k)) (rv env (formulate_zeta_angle 0 j k)).
  Proof.
    intros Hj Hk. destruct line_base as (_ & _ & _ & _ & _ & _ & _ & _ & _ & B1 & B2 & B3).
    destruct (in123 j Hj) as [-> | [-> | ->]], (in123 k Hk) as [-> | [-> | ->]];
      try (rewrite zeta_diag by lia; apply line_angle_0); try assumption;
      rewrite zeta_antisym by lia; apply line_angle_opp; rewrite Z.mul_comm; assumption.
  Qed.
  Lemma line_zeta i j k : (1 <= i <= 3)%Z -> (1 <= j <= 3)%Z -> (0 <= k <= 3)%Z ->
    line_angle (moves a E j i * moves a E k i) (rv env (formulate_zeta_angle i j k)).
  Proof.
    intros Hi Hj Hk.
    assert (C : forall k, (1 <= k <= 3)%Z -> line_angle (moves a E j i * moves a E k i) (rv env (formulate_zeta_angle i j k))).
    { clear k Hk. intros k Hk. destruct line_base as (B1 & B2 & B3 & B4 & B5 & B6 & B7 & B8 & B9 & _). unfold w in *.
      destruct (in123 i Hi) as [-> | [-> | ->]], (in123 j Hj) as [-> | [-> | ->]], (in123 k Hk) as [-> | [-> | ->]]; unfold moves; cbn [Z.eqb Pos.eqb orb];
        rewrite ?(proj1 third_eq), ?(proj1 (proj2 third_eq)), ?(proj1 (proj2 (proj2 third_eq))), ?(proj1 (proj2 (proj2 (proj2 third_eq)))), ?(proj1 (proj2 (proj2 (proj2 (proj2 third_eq))))), ?(proj2 (proj2 (proj2 (proj2 (proj2 third_eq)))));
        try (rewrite zeta_diag by lia; apply line_angle_0); try assumption;
        first [rewrite Z.mul_comm; assumption | rewrite zeta_antisym by lia; apply line_angle_opp; first [assumption|rewrite Z.mul_comm; assumption]]. }
    destruct (Z.eq_dec k 0) as [->|N].
    - rewrite zeta_ref0 by assumption. pose proof (C i Hi) as Ci. unfold moves in *. rewrite !Z.eqb_refl, orb_true_r in *. exact Ci.
    - apply C. lia.
  Qed.
  Lemma line_theta i j k : cyclic i j k -> line_angle (- sgn (a k) * sgn (a i * E j - a j * E i)) (rv env (formulate_scattering_angle i j)).
  Proof.
    intros C. destruct line_vals as (V0 & P & T & X1 & X2 & X3 & S1 & S2 & S3). destruct NS as (N1 & N2 & N3 & N4 & N5 & N6).
    rewrite V0 in *. unfold M in *.
    destruct C as [C|[C|[C|[]]]]; injection C as <- <- <-; rewrite ?th_12, ?th_23, ?th_31; rewrite ?V0.
    - apply (th_line _ _ _ _ _ _ (E 1) (E 2) (E 3)); line_solve.
    - apply (th_line _ _ _ _ _ _ (E 2) (E 3) (E 1)); line_solve.
    - apply (th_line _ _ _ _ _ _ (E 3) (E 1) (E 2)); line_solve.
  Qed.
  Lemma line_rel i j k : cyclic i j k -> a i * E j - a j * E i <> 0.
  Proof.
    intros C Z. destruct line_vals as (V0 & P & T & X1 & X2 & X3 & S1 & S2 & S3). destruct NS as (N1 & N2 & N3 & N4 & N5 & N6).
    destruct C as [C|[C|[C|[]]]]; injection C as <- <- <-.
    - assert (kallen (at_s3 env) (at_m1 env * at_m1 env) (at_m2 env * at_m2 env) = 4 * ((a 1 * E 2 - a 2 * E 1) * (a 1 * E 2 - a 2 * E 1))).
      { rewrite S3, X1, X2. replace (a 3%Z) with (- a 1%Z - a 2%Z) by lra. unfold kallen. ring. }
      rewrite Z in *. lra.
    - assert (kallen (at_s1 env) (at_m2 env * at_m2 env) (at_m3 env * at_m3 env) = 4 * ((a 2 * E 3 - a 3 * E 2) * (a 2 * E 3 - a 3 * E 2))).
      { rewrite S1, X2, X3. replace (a 1%Z) with (- a 2%Z - a 3%Z) by lra. unfold kallen. ring. }
      rewrite Z in *. lra.
    - assert (kallen (at_s2 env) (at_m3 env * at_m3 env) (at_m1 env * at_m1 env) = 4 * ((a 3 * E 1 - a 1 * E 3) * (a 3 * E 1 - a 1 * E 3))).
      { rewrite S2, X3, X1. replace (a 2%Z) with (- a 3%Z - a 1%Z) by lra. unfold kallen. ring. }
      rewrite Z in *. lra.
  Qed.
End Line.
Lemma moves_cases a E r n : moves a E r n = 1%Z \/ moves a E r n = (-1)%Z.
Proof. unfold moves. destruct (_ || _)%bool; apply sgn_cases. Qed.
(** the sum of the signs *)
Lemma balance A B W ei ej ek l0 li lj lk l0' li' lj' lk' :
  (A = 1 \/ A = -1)%Z -> (B = 1 \/ B = -1)%Z -> (W = 1 \/ W = -1)%Z ->
  l0 = (A * B * l0')%Z -> lk' = (A * ek * lk)%Z -> li' = (W * ei * li)%Z -> lj' = (- W * ej * lj)%Z -> (l0' + lk' = - A * W * (li' - lj'))%Z ->
  (- B * l0 = ei * li + ej * lj + ek * lk)%Z.
Proof. intros [-> | ->] [-> | ->] [-> | ->] -> -> -> -> H; lia. Qed.
