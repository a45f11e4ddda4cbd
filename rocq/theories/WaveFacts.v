(** Partial waves and helicity couplings (C134) *)
From Coq Require Import ZArith Reals List Arith Bool Lra Lia Psatz.
From Coquelicot Require Import Complex.
From Verif Require Import Prelude Expr Spin SpinFacts Decay Sums Wigner WignerFacts CExprFacts CG CGFacts SpecSpin SpecKin SpecDPD SpecWigner WignerFrames
  SpecCovariant CovariantRep CGRotation SpecWave.
Import ListNotations.
Local Open Scope R_scope.

(** ** Clebsch-Gordan coefficients and rotations *)
Lemma cg_no_triangle j1 m1 j2 m2 j3 m3 : CG.triangle j1 j2 j3 = false -> cg j1 m1 j2 m2 j3 m3 = 0.
Proof. intros T. unfold cg, cg_couples. rewrite T, andb_false_r. reflexivity. Qed.
Lemma cg_out1 j1 m1 j2 m2 j3 m3 : is_projection j1 m1 = false -> cg j1 m1 j2 m2 j3 m3 = 0.
Proof. intros T. unfold cg, cg_couples. rewrite T. reflexivity. Qed.
Lemma cg_out2 j1 m1 j2 m2 j3 m3 : is_projection j2 m2 = false -> cg j1 m1 j2 m2 j3 m3 = 0.
Proof. intros T. unfold cg, cg_couples. rewrite T, andb_false_r. reflexivity. Qed.
Lemma cg_rotation j1 j2 j3 theta n1 n2 m3 :
  Rsum (helicities j1) (fun m1 => Rsum (helicities j2) (fun m2 => wigner_d j1 m1 n1 theta * wigner_d j2 m2 n2 theta * cg j1 m1 j2 m2 j3 m3))
  = cg j1 n1 j2 n2 j3 (n1 + n2) * wigner_d j3 m3 (n1 + n2) theta.
Proof.
  rewrite !helicities_range.
  destruct (CG.triangle j1 j2 j3) eqn:T.
  2:{ rewrite (cg_no_triangle _ _ _ _ _ _ T), Rmult_0_l. apply Rsum_zero. intros m1 _. apply Rsum_zero. intros m2 _. rewrite (cg_no_triangle _ _ _ _ _ _ T). ring. }
  destruct (is_projection j1 n1) eqn:P1.
  2:{ rewrite cg_out1, Rmult_0_l by exact P1. apply Rsum_zero. intros m1 _. apply Rsum_zero. intros m2 _. rewrite (wigner_d_transpose j1 n1), (wigner_d_out_l j1 n1) by exact P1. ring. }
  destruct (is_projection j2 n2) eqn:P2.
  2:{ rewrite cg_out2, Rmult_0_l by exact P2. apply Rsum_zero. intros m1 _. apply Rsum_zero. intros m2 _. rewrite (wigner_d_transpose j2 n2), (wigner_d_out_l j2 n2) by exact P2. ring. }
  destruct (is_projection j3 m3) eqn:P3.
  2:{ rewrite wigner_d_out_l, Rmult_0_r by exact P3. apply Rsum_zero. intros m1 _. apply Rsum_zero. intros m2 _. rewrite cg_out_proj by exact P3. ring. }
  pose proof (cg_covariance j1 j2 j3 (spinor_rot (- theta)) n1 n2 m3 T P1 P2 P3) as C.
  rewrite det_rot, pow1, Rmult_1_l in C.
  etransitivity; [|etransitivity; [exact C|]]; clear C.
  - apply Rsum_ext. intros m1 I1. apply is_projection_In in I1. apply Rsum_ext. intros m2 I2. apply is_projection_In in I2.
    rewrite !spin_matrix_rot by assumption. rewrite <- !wigner_d_transpose. reflexivity.
  - rewrite (Rsum_ext _ _ (fun n3 => cg j1 n1 j2 n2 j3 n3 * wigner_d j3 m3 n3 theta)).
    + apply cg_sum3.
    + intros n3 I3. apply is_projection_In in I3. rewrite spin_matrix_rot by assumption. rewrite <- wigner_d_transpose. reflexivity.
Qed.

(** ** A rotation by pi *)
Lemma wigner_d_pi j m m' : is_projection j m = true -> is_projection j m' = true ->
  wigner_d j m m' PI = if Z.eqb m (- m') then parity_sign (j - m') else 0.
Proof.
  intros P P'. rewrite <- spin_matrix_rot by assumption.
  refine (spin_state_unique j (fun m => spin_matrix j (spinor_rot PI) m m') (fun m => if Z.eqb m (- m') then parity_sign (j - m') else 0) _ m P).
  intros x y. rewrite <- spin_state_mul by exact P'. unfold spinor_rot; cbn [m11 m12 m21 m22]. rewrite sin_PI2, cos_PI2.
  pose proof P' as Q. rewrite <- is_projection_opp in Q.
  rewrite (Rsum_single _ (- m')%Z); [|apply range2_NoDup|apply is_projection_In; exact Q|].
  2:{ intros z _ N. destruct (Z.eqb_spec z (- m')); [contradiction|ring]. }
  rewrite Z.eqb_refl. unfold spin_state.
  replace (0 * x + 1 * y) with y by ring. replace (Ropp 1 * x + 0 * y) with ((-1) * x) by ring.
  replace (up j (- m')) with (down j m') by (unfold up, down; do 2 f_equal; lia).
  replace (down j (- m')) with (up j m') by (unfold up, down; do 2 f_equal; lia).
  replace (weight j (- m')) with (weight j m').
  2:{ unfold weight. replace (up j (- m')) with (down j m') by (unfold up, down; do 2 f_equal; lia).
      replace (down j (- m')) with (up j m') by (unfold up, down; do 2 f_equal; lia). f_equal. ring. }
  rewrite Rpow_mult_distr. replace ((-1) ^ down j m') with (parity_sign (j - m')); [unfold Rdiv; ring|].
  apply is_projection_spec in P'. destruct P' as [B E]. apply Z.even_spec in E. destruct E as [q Hq]. unfold parity_sign, down. rewrite Hq.
  rewrite (div2 (2 * q) q eq_refl). assert (0 <= q)%Z by lia. rewrite <- (Z2Nat.id q) by assumption. rewrite Nat2Z.id. clear.
  induction (Z.to_nat q) as [|n IH]; [reflexivity|]. rewrite Nat2Z.inj_succ, Z.even_succ, <- Z.negb_even. cbn [pow]. rewrite <- IH.
  destruct (Z.even (Z.of_nat n)); simpl; ring.
Qed.
Lemma wigner_d_opposite j m m' theta : is_projection j m' = true ->
  wigner_d j m m' (theta + PI) = parity_sign (j - m') * wigner_d j m (- m') theta.
Proof.
  intros P'. rewrite <- wigner_d_group. pose proof P' as Q. rewrite <- is_projection_opp in Q.
  rewrite (Rsum_single _ (- m')%Z); [|apply range2_NoDup|apply is_projection_In; exact Q|].
  - rewrite wigner_d_pi, Z.eqb_refl by assumption. ring.
  - intros x I N. apply is_projection_In in I. rewrite wigner_d_pi by assumption. destruct (Z.eqb_spec x (- m')); [contradiction|ring].
Qed.

(** ** A vertex *)
Lemma vertex_wave J c j1 j2 theta M l1 l2 : is_projection j2 l2 = true ->
  Rsum (helicities j1) (fun s1 => Rsum (helicities j2) (fun s2 =>
    wave J c j1 j2 theta M s1 s2 * wigner_d j1 s1 l1 theta * wigner_d j2 s2 l2 (theta + PI)))
  = parity_sign (j2 - l2) * wigner_d J M (l1 - l2) theta * ls_factor J c j1 l1 j2 l2.
Proof.
  intros P2. unfold wave, ls_factor. set (L := ls_L c). set (S := ls_S c). set (N := sqrt (IZR (2 * L + 1) / IZR (J + 1))).
  transitivity (N * parity_sign (j2 - l2) * Rsum (helicities (2 * L)) (fun mL => Rsum (helicities S) (fun mS =>
    orbital L mL theta * cg (2 * L) mL S mS J M *
    Rsum (helicities j1) (fun s1 => Rsum (helicities j2) (fun s2 => wigner_d j1 s1 l1 theta * wigner_d j2 s2 (- l2) theta * cg j1 s1 j2 s2 S mS))))).
  - transitivity (Rsum (helicities j1) (fun s1 => Rsum (helicities j2) (fun s2 => Rsum (helicities (2 * L)) (fun mL => Rsum (helicities S) (fun mS =>
      N * parity_sign (j2 - l2) * (orbital L mL theta * cg (2 * L) mL S mS J M * (wigner_d j1 s1 l1 theta * wigner_d j2 s2 (- l2) theta * cg j1 s1 j2 s2 S mS))))))).
    + apply Rsum_ext. intros s1 _. apply Rsum_ext. intros s2 _. rewrite wigner_d_opposite by exact P2.
      rewrite (Rsum_ext _ (fun mL => Rsum _ (fun mS => N * _ * _)) (fun mL => (N * (wigner_d j1 s1 l1 theta * (parity_sign (j2 - l2) * wigner_d j2 s2 (- l2) theta))) * Rsum (helicities S) (fun mS =>
        orbital L mL theta * cg (2 * L) mL S mS J M * cg j1 s1 j2 s2 S mS))).
      * rewrite Rsum_scal_l. ring.
      * intros mL _. rewrite <- Rsum_scal_l. apply Rsum_ext. intros; ring.
    + rewrite <- Rsum_scal_l.
      rewrite (Rsum_ext (helicities j1) _ (fun s1 => Rsum (helicities (2 * L)) (fun mL => Rsum (helicities S) (fun mS => Rsum (helicities j2) (fun s2 => 
        N * parity_sign (j2 - l2) * (orbital L mL theta * cg (2 * L) mL S mS J M * (wigner_d j1 s1 l1 theta * wigner_d j2 s2 (- l2) theta * cg j1 s1 j2 s2 S mS))))))).
      2:{ intros s1 _. rewrite Rsum_swap. apply Rsum_ext. intros mL _. apply Rsum_swap. }
      rewrite Rsum_swap. apply Rsum_ext. intros mL _. rewrite Rsum_swap, <- Rsum_scal_l. apply Rsum_ext. intros mS _.
      rewrite <- !Rsum_scal_l. apply Rsum_ext. intros s1 _. rewrite <- !Rsum_scal_l. apply Rsum_ext. intros s2 _. ring.
  - rewrite (Rsum_ext _ _ (fun mL => Rsum (helicities S) (fun mS => wigner_d (2 * L) mL 0 theta * wigner_d S mS (l1 - l2) theta * cg (2 * L) mL S mS J M)
      * cg j1 l1 j2 (- l2) S (l1 - l2))).
    + rewrite Rsum_scal_r, cg_rotation, Z.add_0_l. ring.
    + intros mL _. rewrite <- Rsum_scal_r. apply Rsum_ext. intros mS _. rewrite cg_rotation. unfold orbital.
      replace (l1 + - l2)%Z with (l1 - l2)%Z by lia. ring.
Qed.
