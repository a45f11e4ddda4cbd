(** Phase and threshold behaviour of the Breit-Wigner function (proofs for C145) *)
From Coq Require Import String ZArith QArith Qcanon Qreals List Bool Reals Lia Lra Psatz.
From Coquelicot Require Import Coquelicot.
From Verif Require Import Prelude Decay Expr Sums CExpr Builder SpecDPD Dynamics SpecDynamics CExprFacts LineshapeFacts LineshapeProofs FiniteShapes
  SpecHankel HankelFacts SpecUnitary UnitaryProofs.
Import ListNotations.
Local Open Scope R_scope.

(** ** The phase of 1 / (g - i) *)
Lemma phase_value g : let d := PI / 2 - atan g in 0 < d < PI /\ (RtoC 1 / (g, -1) = RtoC (sin d) * (cos d, sin d))%C.
Proof.
  intros d. pose proof (atan_bound g) as B. split; [unfold d; lra|].
  assert (S : sin d = 1 / sqrt (1 + g * g)).
  { unfold d.  replace (PI / 2 - atan g) with (PI / 2 + - atan g) by ring.
    rewrite sin_plus, sin_PI2, cos_PI2, cos_neg, cos_atan. unfold Rsqr. ring. }
  assert (K : cos d = g / sqrt (1 + g * g)).
  { unfold d. replace (PI / 2 - atan g) with (PI / 2 + - atan g) by ring. rewrite cos_plus, sin_PI2, cos_PI2, sin_neg, sin_atan. unfold Rsqr, Rdiv. ring. }
  rewrite S, K. assert (P : 0 < 1 + g * g) by (pose proof (Rle_0_sqr g) as Q; unfold Rsqr in Q; lra).
  pose proof (sqrt_lt_R0 _ P) as Sp. pose proof (sqrt_sqrt (1 + g * g) ltac:(lra)) as E. set (w := sqrt (1 + g * g)) in *. clearbody w.
  apply injective_projections; unfold Cdiv, Cinv, Cmult, RtoC; cbn [fst snd].
  - replace (g ^ 2 + (-1) ^ 2) with (w * w) by (rewrite E; ring). field. lra.
  - replace (g ^ 2 + (-1) ^ 2) with (w * w) by (rewrite E; ring). field. lra.
Qed.

Lemma pa_continuous n N y : continuous (fun y => pa y n N) y.
Proof.
  unfold pa. induction (seq 0 N) as [|k l IH]; cbn [Rsum]; [apply continuous_const|].
  apply (continuous_plus (fun y => ac n k * y ^ k) (fun y => Rsum l (fun k => ac n k * y ^ k))); [|exact IH].
  apply (ex_derive_continuous (fun y => ac n k * y ^ k)). auto_derive. trivial.
Qed.

Section Phase.
  Context (L : Z) (m G a b r : R) (Ha : 0 <= a) (Hb : 0 <= b) (Hab : 0 < a + b) (Hr : 0 < r) (HG : 0 < G) (Hm : a + b < m).
  Let W := width_at L m G a b r.
  Let thr := (a + b) * (a + b).
  Let n := Z.to_nat L.
  Let Thr : 0 < thr. Proof. apply Rmult_lt_0_compat; auto. Qed.
  Let Mass : thr < m * m. Proof. unfold thr. clear -Ha Hb Hab Hm. nra. Qed.
  Let M0 : 0 < m. Proof. lra. Qed.
  Lemma ff2_bsq s : ff2 L s a b r = bsq n (rbreakup s a b * (r * r)).
  Proof. unfold ff2, n. destruct (Z.leb_spec L 0) as [H|H]; [|reflexivity]. replace (Z.to_nat L) with 0%nat by lia. rewrite bsq_0. reflexivity. Qed.
  Lemma width_pos s : thr < s -> 0 < W s.
  Proof. intros H. pose proof (width_mono L m G a b r Ha Hb Hab Hr HG Hm thr s ltac:(unfold thr; lra) H). unfold W. lra. Qed.

  (** ** The threshold *)
  Let lead (s : R) : R := G / (ff2 L (m * m) a b r * (2 * sqrt (rbreakup (m * m) a b) / sqrt (m * m))) * ((r * r) ^ n * pa 1 n (S n) / pa (rbreakup s a b * (r * r)) n (S n)) * (2 / sqrt s).
  Let Den : 0 < ff2 L (m * m) a b r * (2 * sqrt (rbreakup (m * m) a b) / sqrt (m * m)).
  Proof. apply Rmult_lt_0_compat; [apply (ff2_pos L a b r); auto|apply (rho_pos a b); auto]. Qed.
  Lemma momentum_breakup s : decay_momentum s a b = sqrt (rbreakup s a b).
  Proof. reflexivity. Qed.
  Lemma width_lead s : thr < s -> W s = lead s * decay_momentum s a b ^ (2 * n + 1).
  Proof.
    intros Hs. unfold W, width_at, lead. rewrite (ff2_bsq s), momentum_breakup. unfold bsq.
    pose proof (proj2 (rbreakup_sign s a b Ha Hb ltac:(unfold thr in *; lra)) Hs) as Q. set (q2 := rbreakup s a b) in *.
    pose proof (sqrt_lt_R0 _ Q) as Qp. pose proof (sqrt_sqrt q2 ltac:(lra)) as E. set (q := sqrt q2) in *.
    assert (P : 0 < pa (q2 * (r * r)) n (S n)) by (apply pa_pos; apply Rmult_le_pos; [lra|apply Rlt_le, Rmult_lt_0_compat; auto]).
    pose proof (sqrt_lt_R0 s ltac:(unfold thr in *; lra)) as Ss.
    rewrite pow_add, pow_mult, pow_1, Rpow_mult_distr. replace (q ^ 2) with q2 by (rewrite <- E; ring).
    pose proof Den as D. set (f := ff2 L (m * m) a b r) in *. set (rm := 2 * sqrt (rbreakup (m * m) a b) / sqrt (m * m)) in *.
    assert (f <> 0 /\ rm <> 0) as [F0 R0] by (split; intros Z; rewrite Z in D; lra).
    set (pz := pa (q2 * (r * r)) n (S n)) in *. clearbody pz f rm q. generalize (pa 1 n (S n)), (q2 ^ n), ((r * r) ^ n). intros p1 x y. field. repeat split; lra.
  Qed.
  Lemma lead_pos : 0 < lead thr.
  Proof.
    unfold lead. pose proof Den as D. apply Rmult_lt_0_compat; [apply Rmult_lt_0_compat|].
    - apply Rdiv_lt_0_compat; auto.
    - apply Rdiv_lt_0_compat; [apply Rmult_lt_0_compat; [apply pow_lt, Rmult_lt_0_compat; auto|apply pa_pos; lra]|].
      apply pa_pos. apply Rmult_le_pos; [apply (rbreakup_sign thr a b Ha Hb Thr); unfold thr; lra|apply Rlt_le, Rmult_lt_0_compat; auto].
    - apply Rdiv_lt_0_compat; [lra|apply sqrt_lt_R0; auto].
  Qed.
  Lemma lead_continuous : continuous lead thr.
  Proof.
    unfold lead.
    assert (Q : continuous (fun s => rbreakup s a b * (r * r)) thr).
    { apply (ex_derive_continuous (fun s => rbreakup s a b * (r * r))). unfold rbreakup. auto_derive. lra. }
    assert (P0 : pa (rbreakup thr a b * (r * r)) n (S n) <> 0).
    { apply Rgt_not_eq. apply pa_pos. apply Rmult_le_pos; [apply (rbreakup_sign thr a b Ha Hb Thr); unfold thr; lra|apply Rlt_le, Rmult_lt_0_compat; auto]. }
    apply (continuous_mult (fun s => _ * (_ / pa (rbreakup s a b * (r * r)) n (S n))) (fun s => 2 / sqrt s)).
    - apply (continuous_mult (fun _ => _) (fun s => _ / pa (rbreakup s a b * (r * r)) n (S n))); [apply continuous_const|].
      apply (continuous_mult (fun _ => _) (fun s => / pa (rbreakup s a b * (r * r)) n (S n))); [apply continuous_const|].
      apply (continuous_comp (fun s => pa (rbreakup s a b * (r * r)) n (S n)) Rinv); [|apply continuous_Rinv; exact P0].
      apply (continuous_comp (fun s => rbreakup s a b * (r * r)) (fun y => pa y n (S n))); [exact Q|apply pa_continuous].
    - apply (ex_derive_continuous (fun s => 2 / sqrt s)). auto_derive. split; [exact Thr|]. split; [|trivial]. apply Rgt_not_eq, sqrt_lt_R0; auto.
  Qed.
  Lemma threshold_law : filterlim (fun s => W s / decay_momentum s a b ^ (2 * n + 1)) (at_right thr) (locally (lead thr)).
  Proof.
    apply (filterlim_ext_loc lead).
    - exists (mkposreal 1 Rlt_0_1). intros s _ Hs. rewrite (width_lead s Hs). field. apply pow_nonzero. apply Rgt_not_eq. apply momentum_pos; auto.
    - intros P HP. destruct (lead_continuous P HP) as (e & He). exists e. intros y Hy _. exact (He y Hy).
  Qed.

  (** ** The phase *)
  Let cot (s : R) : R := (m * m - s) / (m * W s).
  Definition bw_phase (s : R) : R := PI / 2 - atan (cot s).
  Let Pos s : thr < s -> 0 < m * W s.
  Proof. intros H. apply Rmult_lt_0_compat; [exact M0|exact (width_pos s H)]. Qed.
  Lemma bw_phase_value s : thr < s -> 0 < bw_phase s < PI /\
    (RtoC (m * W s) * bw_simple (RtoC s) (RtoC m) (RtoC (W s)) = RtoC (sin (bw_phase s)) * (cos (bw_phase s), sin (bw_phase s)))%C.
  Proof.
    intros Hs. destruct (phase_value (cot s)) as [B E]. split; [exact B|]. unfold bw_phase. rewrite <- E. pose proof (Pos s Hs) as P.
    assert (D : 0 < (m * m - s) * (m * m - s) + m * W s * (m * W s)) by (apply bw_d; right; lra).
    rewrite bw_real. set (w := m * W s) in *. unfold cot. fold w. set (g := m * m - s) in *.
    assert (X : 0 < (g / w) ^ 2 + 1) by (pose proof (pow2_ge_0 (g / w)); lra).
    apply injective_projections; unfold Cdiv, Cinv, Cmult, RtoC; cbn [fst snd]; field; (split; [|lra]).
    all: try (apply Rgt_not_eq; replace ((-1) ^ 2) with 1 by ring; nra).
  Qed.
  Lemma bw_phase_mass : bw_phase (m * m) = PI / 2.
  Proof. unfold bw_phase, cot. replace (m * m - m * m) with 0 by ring. unfold Rdiv. rewrite Rmult_0_l, atan_0. ring. Qed.
  Lemma cot_phase s t : thr < s -> cot t < cot s -> bw_phase s < bw_phase t.
  Proof. intros _ H. unfold bw_phase. pose proof (atan_increasing _ _ H). lra. Qed.
  Lemma below_mass s t : thr < s -> s < t -> t <= m * m -> bw_phase s < bw_phase t.
  Proof.
    intros Hs St Ht. apply cot_phase; [exact Hs|]. unfold cot.
    pose proof (Pos s Hs) as Ps. pose proof (Pos t ltac:(lra)) as Pt.
    assert (L1 : m * W s < m * W t) by (apply Rmult_lt_compat_l; [exact M0|]; apply (width_mono L m G a b r); auto; unfold thr in *; lra).
    set (u := m * W s) in *. set (v := m * W t) in *. apply Rle_lt_trans with ((m * m - t) / u).
    - apply Rmult_le_compat_l; [lra|]. apply Rlt_le, Rinv_lt_contravar; [apply Rmult_lt_0_compat; auto|exact L1].
    - apply Rmult_lt_compat_r; [apply Rinv_0_lt_compat; exact Ps|lra].
  Qed.
  Lemma above_mass s : m * m < s -> PI / 2 < bw_phase s.
  Proof.
    intros Hs. rewrite <- bw_phase_mass. apply cot_phase; [exact Mass|]. unfold cot. replace (m * m - m * m) with 0 by ring.
    unfold Rdiv at 2. rewrite Rmult_0_l. apply Ropp_lt_cancel. rewrite Ropp_0. unfold Rdiv. rewrite <- Ropp_mult_distr_l_reverse.
    apply Rdiv_lt_0_compat; [lra|]. apply Pos. lra.
  Qed.
  (** S waves *)
  Let rho (s : R) : R := 2 * sqrt (rbreakup s a b) / sqrt s.
  Lemma s_wave_mono s t : (L <= 0)%Z -> m * m <= s -> s < t -> bw_phase s < bw_phase t.
  Proof.
    intros HL Hs St. destruct Hs as [Hs| <-]; [|rewrite bw_phase_mass; apply above_mass; exact St].
    apply cot_phase; [lra|].
    assert (WE : forall x, W x = G / rho (m * m) * rho x).
    { intros x. unfold W, width_at, ff2. destruct (Z.leb_spec L 0) as [_|X]; [|lia]. fold (rho x). fold (rho (m * m)). unfold Rdiv. rewrite Rinv_1. ring. }
    assert (RhoM : 0 < rho (m * m)) by (apply (rho_pos a b); auto).
    assert (Kp : 0 < G / rho (m * m)) by (apply Rdiv_lt_0_compat; auto).
    assert (Sq : forall x, thr < x -> 0 < rho x /\ rho x * rho x = (1 - thr / x) * (1 - (a - b) * (a - b) / x)).
    { intros x Hx. split; [apply (rho_pos a b); auto|]. unfold rho. rewrite (rho_sq a b Ha Hb Hab x) by (unfold thr in *; lra). apply sqrt_sqrt.
      assert (X : (a - b) * (a - b) <= thr) by (unfold thr; clear -Ha Hb; nra).
      assert (Y : forall c, c <= thr -> 0 <= 1 - c / x).
      { intros c Hc. assert (c / x <= 1); [|lra]. apply (Rmult_le_reg_r x); [lra|]. unfold Rdiv. rewrite Rmult_assoc, Rinv_l by lra. lra. }
      apply Rmult_le_pos; apply Y; lra. }
    unfold cot. rewrite !WE. set (K := G / rho (m * m)) in *.
    destruct (Sq s ltac:(lra)) as [Ps Es]. destruct (Sq t ltac:(lra)) as [Pt Et].
    assert (B0 : 0 <= (a - b) * (a - b)) by apply Rle_0_sqr. assert (BA : (a - b) * (a - b) <= thr) by (unfold thr; clear -Ha Hb; nra).
    set (B := (a - b) * (a - b)) in *. set (rs := rho s) in *. set (rt := rho t) in *. set (mm := m * m) in *.
    assert (Q : (s - mm) * rt < (t - mm) * rs).
    { apply Rsqr_incrst_0; [|apply Rmult_le_pos; lra|apply Rmult_le_pos; lra]. unfold Rsqr.
      replace ((s - mm) * rt * ((s - mm) * rt)) with ((s - mm) * (s - mm) * (rt * rt)) by ring.
      replace ((t - mm) * rs * ((t - mm) * rs)) with ((t - mm) * (t - mm) * (rs * rs)) by ring. rewrite Es, Et.
      assert (Hf : forall c, 0 <= c -> c < mm -> 0 < (s - mm) * (1 - c / t) /\ (s - mm) * (1 - c / t) < (t - mm) * (1 - c / s)).
      { intros c C0 Cm. replace (1 - c / t) with ((t - c) / t) by (field; lra). replace (1 - c / s) with ((s - c) / s) by (field; lra).
        assert (T0 : 0 < (t - c) / t) by (apply Rdiv_lt_0_compat; lra). split; [apply Rmult_lt_0_compat; lra|].
        apply (Rmult_lt_reg_r (s * t)); [apply Rmult_lt_0_compat; lra|].
        replace ((s - mm) * ((t - c) / t) * (s * t)) with ((s - mm) * (t - c) * s) by (field; lra).
        replace ((t - mm) * ((s - c) / s) * (s * t)) with ((t - mm) * (s - c) * t) by (field; lra).
        assert (X1 : (s - mm) * (t - c) < (t - mm) * (s - c)) by (clear - Cm St Hs; nra).
        assert (X2 : 0 < (s - mm) * (t - c)) by (apply Rmult_lt_0_compat; lra).
        apply Rmult_gt_0_lt_compat; lra. }
      destruct (Hf thr ltac:(lra) Mass) as [A1 A2]. destruct (Hf B B0 ltac:(lra)) as [B1 B2].
      replace ((s - mm) * (s - mm) * ((1 - thr / t) * (1 - B / t))) with ((s - mm) * (1 - thr / t) * ((s - mm) * (1 - B / t))) by ring.
      replace ((t - mm) * (t - mm) * ((1 - thr / s) * (1 - B / s))) with ((t - mm) * (1 - thr / s) * ((t - mm) * (1 - B / s))) by ring.
      apply Rmult_gt_0_lt_compat; lra. }
    assert (Ks : 0 < m * (K * rs)) by (apply Rmult_lt_0_compat; [exact M0|apply Rmult_lt_0_compat; auto]).
    assert (Kt : 0 < m * (K * rt)) by (apply Rmult_lt_0_compat; [exact M0|apply Rmult_lt_0_compat; auto]).
    assert (Kmm : 0 < m * K) by (apply Rmult_lt_0_compat; auto).
    apply (Rmult_lt_reg_r (m * (K * rs) * (m * (K * rt)))); [apply Rmult_lt_0_compat; auto|].
    replace ((mm - t) / (m * (K * rt)) * (m * (K * rs) * (m * (K * rt)))) with (m * K * - ((t - mm) * rs)) by (field; repeat split; lra).
    replace ((mm - s) / (m * (K * rs)) * (m * (K * rs) * (m * (K * rt)))) with (m * K * - ((s - mm) * rt)) by (field; repeat split; lra).
    apply Rmult_lt_compat_l; [exact Kmm|lra].
  Qed.

  (** ** The limits of the phase *)
  Lemma phase_threshold e : 0 < e -> exists t, thr < t /\ forall s, thr < s < t -> bw_phase s < e.
  Proof.
    intros He. destruct (atan_big e He) as (M & Mp & HM).
    assert (Q0 : decay_momentum thr a b = 0) by (rewrite momentum_breakup; unfold rbreakup, thr; replace ((a + b) * (a + b) - (a + b) * (a + b)) with 0 by ring; unfold Rdiv; rewrite !Rmult_0_l; apply sqrt_0).
    assert (Ct : continuous (fun s => lead s * decay_momentum s a b ^ (2 * n + 1)) thr).
    { apply (continuous_mult lead (fun s => decay_momentum s a b ^ (2 * n + 1))); [exact lead_continuous|].
      apply (continuous_comp (fun s => decay_momentum s a b) (fun q => q ^ (2 * n + 1))).
      - apply (continuous_comp (fun s => rbreakup s a b) sqrt); [|apply continuous_sqrt].
        apply (ex_derive_continuous (fun s => rbreakup s a b)). unfold rbreakup. auto_derive. lra.
      - apply (ex_derive_continuous (fun q => q ^ (2 * n + 1))). auto_derive. trivial. }
    set (w0 := (m * m - thr) / 2 / (m * M)). assert (W0 : 0 < w0) by (unfold w0; apply Rdiv_lt_0_compat; [lra|apply Rmult_lt_0_compat; auto]).
    destruct (Ct (ball 0 (mkposreal w0 W0))) as (d & Hd).
    { rewrite Q0, pow_i, Rmult_0_r by lia. exists (mkposreal w0 W0). intros y Hy. exact Hy. }
    exists (Rmin (thr + d) ((thr + m * m) / 2)). pose proof (cond_pos d) as Dp.
    split; [apply Rmin_glb_lt; lra|]. intros s [S1 S2].
    assert (S3 : s < thr + d) by (eapply Rlt_le_trans; [exact S2|apply Rmin_l]). assert (S4 : s < (thr + m * m) / 2) by (eapply Rlt_le_trans; [exact S2|apply Rmin_r]).
    assert (Bw : W s < w0).
    { specialize (Hd s ltac:(change (Rabs (s - thr) < d); rewrite Rabs_pos_eq; lra)). rewrite <- (width_lead s S1) in Hd. change (Rabs (W s - 0) < w0) in Hd.
      rewrite Rminus_0_r, Rabs_pos_eq in Hd; [exact Hd|]. apply Rlt_le, width_pos; exact S1. }
    assert (Big : M < cot s).
    { unfold cot. apply (Rmult_lt_reg_r (m * W s)); [apply Pos; exact S1|]. unfold Rdiv. rewrite Rmult_assoc, Rinv_l, Rmult_1_r by (apply Rgt_not_eq, Pos; exact S1).
      apply Rlt_trans with (M * (m * w0)).
      - apply Rmult_lt_compat_l; [exact Mp|]. apply Rmult_lt_compat_l; [exact M0|exact Bw].
      - replace (M * (m * w0)) with ((m * m - thr) / 2) by (unfold w0; field; split; lra). lra. }
    unfold bw_phase. pose proof (proj1 (HM _ Big)). lra.
  Qed.
  Lemma bsq_bounded k z : 0 <= z -> bsq k z <= pa 1 k (S k) / bw_coeff k k.
  Proof.
    intros Hz. assert (A : forall j, 0 < bw_coeff k j \/ (k < j)%nat).
    { intros j. destruct (Nat.le_gt_cases j k) as [H|H]; [left|right; exact H]. unfold bw_coeff.
      repeat first [apply Rdiv_lt_0_compat|apply Rmult_lt_0_compat|apply pow_lt|apply (lt_INR 0), lt_O_fact|lra]. }
    destruct (A k) as [Ak|X]; [|lia].
    assert (Lw : bw_coeff k k * z ^ k <= pa z k (S k)).
    { rewrite pa_bw. replace (S k) with (k + 1)%nat by lia. rewrite seq_app, Rsum_app. cbn [seq Rsum plus].
      pose proof (Rsum_nonneg (seq 0 k) (fun j => bw_coeff k j * z ^ j)) as N. rewrite Nat.add_0_l.
      assert (0 <= Rsum (seq 0 k) (fun j => bw_coeff k j * z ^ j)); [|lra]. apply N. intros j Hj. apply in_seq in Hj.
      apply Rmult_le_pos; [|apply pow_le; exact Hz]. destruct (A j) as [Y|Y]; [lra|lia]. }
    unfold bsq. pose proof (pa_pos z k Hz) as Pz. pose proof (pa_pos 1 k ltac:(lra)) as P1.
    apply (Rmult_le_reg_r (pa z k (S k) * bw_coeff k k)); [apply Rmult_lt_0_compat; auto|].
    replace (z ^ k * pa 1 k (S k) / pa z k (S k) * (pa z k (S k) * bw_coeff k k)) with (pa 1 k (S k) * (bw_coeff k k * z ^ k)) by (field; lra).
    replace (pa 1 k (S k) / bw_coeff k k * (pa z k (S k) * bw_coeff k k)) with (pa 1 k (S k) * pa z k (S k)) by (field; lra).
    apply Rmult_le_compat_l; [lra|exact Lw].
  Qed.
  Lemma width_bounded : exists K, 0 < K /\ forall s, thr < s -> W s <= K.
  Proof.
    set (F := pa 1 n (S n) / bw_coeff n n). pose proof (ff2_pos L a b r Ha Hb Hab Hr (m * m) Mass) as Fm. pose proof (rho_pos a b Ha Hb Hab (m * m) Mass) as Rm.
    exists (G * (F / ff2 L (m * m) a b r) * (1 / rho (m * m))). fold (rho (m * m)) in Rm.
    assert (Le : forall s, thr < s -> W s <= G * (F / ff2 L (m * m) a b r) * (1 / rho (m * m))).
    { intros s Hs. unfold W, width_at. fold (rho s). fold (rho (m * m)).
      pose proof (proj2 (rbreakup_sign s a b Ha Hb ltac:(unfold thr in *; lra)) Hs) as Q.
      assert (B1 : ff2 L s a b r <= F) by (rewrite ff2_bsq; apply bsq_bounded; apply Rmult_le_pos; [lra|apply Rlt_le, Rmult_lt_0_compat; auto]).
      pose proof (ff2_pos L a b r Ha Hb Hab Hr s Hs) as Fs. pose proof (rho_pos a b Ha Hb Hab s Hs) as Rs. fold (rho s) in Rs.
      assert (B2 : rho s <= 1).
      { unfold rho. rewrite (rho_sq a b Ha Hb Hab s) by (unfold thr in *; lra). rewrite <- sqrt_1 at 3. apply sqrt_le_1_alt.
        assert (X : (a - b) * (a - b) <= thr) by (unfold thr; clear -Ha Hb; nra). assert (X0 : 0 <= (a - b) * (a - b)) by apply Rle_0_sqr.
        assert (Y : forall c, 0 <= c -> c <= thr -> 0 <= 1 - c / s <= 1).
        { intros c C0 Hc. assert (0 <= c / s) by (apply Rle_mult_inv_pos; lra). assert (c / s <= 1); [|lra]. apply (Rmult_le_reg_r s); [lra|]. unfold Rdiv. rewrite Rmult_assoc, Rinv_l by lra. lra. }
        destruct (Y thr ltac:(lra) ltac:(lra)) as [Y1 Y2]. destruct (Y _ X0 X) as [Y3 Y4]. fold thr. clear - Y1 Y2 Y3 Y4. nra. }
      apply Rmult_le_compat.
      - apply Rmult_le_pos; [lra|]. apply Rle_mult_inv_pos; lra.
      - exact (Rle_mult_inv_pos _ _ (Rlt_le _ _ Rs) Rm).
      - apply Rmult_le_compat_l; [lra|]. apply Rmult_le_compat_r; [apply Rlt_le, Rinv_0_lt_compat; lra|exact B1].
      - apply Rmult_le_compat_r; [apply Rlt_le, Rinv_0_lt_compat; exact Rm|exact B2]. }
    split; [|exact Le]. pose proof (width_pos (m * m) Mass). pose proof (Le (m * m) Mass). lra.
  Qed.
  Lemma phase_infinity e : 0 < e -> exists t, forall s, t < s -> PI - e < bw_phase s.
  Proof.
    intros He. destruct (atan_big e He) as (M & Mp & HM). destruct width_bounded as (K & Kp & HK).
    exists (m * m + M * (m * K)). intros s Hs. assert (MK : 0 < M * (m * K)) by (apply Rmult_lt_0_compat; [|apply Rmult_lt_0_compat]; auto).
    assert (Big : M < - cot s).
    { unfold cot. apply (Rmult_lt_reg_r (m * W s)); [apply Pos; lra|]. unfold Rdiv. rewrite <- Ropp_mult_distr_l_reverse, Rmult_assoc, Rinv_l, Rmult_1_r by (apply Rgt_not_eq, Pos; lra).
      apply Rle_lt_trans with (M * (m * K)); [|lra]. apply Rmult_le_compat_l; [lra|]. apply Rmult_le_compat_l; [lra|]. apply HK. lra. }
    unfold bw_phase. pose proof (proj1 (HM _ Big)) as X. rewrite atan_opp in X. lra.
  Qed.
End Phase.
