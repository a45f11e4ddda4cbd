(** Values of the lineshapes. *)
From Coq Require Import String ZArith QArith Qcanon List Bool Reals Permutation Lia Lra.
From Coquelicot Require Import Complex.
From Verif Require Import Prelude Spin Decay Expr CExpr Builder SpecDPD Dynamics SpecDynamics Sums CExprFacts.
Import ListNotations.
Local Open Scope C_scope.

Lemma CNum_value ev h z : ceval ev h (CNum z) = RtoC (IZR z).
Proof. unfold CNum. cbn [ceval]. rewrite Q2R_Z. reflexivity. Qed.

Lemma Cdiv_unfold x y : x / y = x * / y. Proof. reflexivity. Qed.
Lemma one_Cmult x : RtoC 1 / x = / x.
Proof. unfold Cdiv. rewrite Cmult_1_l. reflexivity. Qed.

Lemma breakup_sym s m1 m2 : breakup_squared s m1 m2 = breakup_squared s m2 m1.
Proof. unfold breakup_squared. f_equal. ring. Qed.
Lemma form_factor_sym L s m1 m2 r : form_factor L s m1 m2 r = form_factor L s m2 m1 r.
Proof. unfold form_factor. rewrite breakup_sym. reflexivity. Qed.

(** ** Complex inverses *)
Lemma Cinv_zero : / RtoC 0 = RtoC 0.
Proof. unfold Cinv, RtoC. cbn [fst snd]. apply injective_projections; cbn [fst snd]; unfold Rdiv; ring. Qed.
Lemma Cinv_mult (x y : C) : / (x * y) = / x * / y.
Proof.
  destruct (Ceq_dec x (RtoC 0)) as [->|Nx].
  - rewrite Cmult_0_l, Cinv_zero. ring.
  - destruct (Ceq_dec y (RtoC 0)) as [->|Ny].
    + rewrite Cmult_0_r, Cinv_zero. ring.
    + field. auto.
Qed.
Lemma Cinv_RtoC (x : R) : / RtoC x = RtoC (/ x).
Proof.
  destruct (Req_dec x 0) as [->|N].
  - rewrite Cinv_zero. rewrite Rinv_0. reflexivity.
  - symmetry. apply RtoC_inv. auto.
Qed.
Lemma RtoC_neq (x : R) : x <> 0%R -> RtoC x <> RtoC 0.
Proof. intros N E. apply N. injection E. auto. Qed.

(** ** Changes of the unit of mass *)
Lemma csqrt_scale (t : R) z : (0 <= t)%R -> csqrt (RtoC (t * t) * z) = RtoC t * csqrt z.
Proof.
  intros Ht. destruct (Rle_lt_or_eq_dec 0 t Ht) as [Hp|<-].
  2:{ rewrite Rmult_0_l, !Cmult_0_l. rewrite csqrt_nonneg by lra. rewrite sqrt_0. reflexivity. }
  unfold csqrt. rewrite Cmod_mult, Cmod_R, (Rabs_pos_eq (t * t)) by nra.
  assert (Re (RtoC (t * t) * z) = (t * t * Re z)%R) as -> by (destruct z; cbn; ring).
  assert (Im (RtoC (t * t) * z) = (t * t * Im z)%R) as -> by (destruct z; cbn; ring).
  assert (Sq : forall x, (sqrt (t * t * x) = t * sqrt x)%R).
  { intros x. rewrite sqrt_mult_alt by nra. rewrite sqrt_square by lra. reflexivity. }
  replace ((t * t * Cmod z + t * t * Re z) / 2)%R with (t * t * ((Cmod z + Re z) / 2))%R by field.
  replace ((t * t * Cmod z - t * t * Re z) / 2)%R with (t * t * ((Cmod z - Re z) / 2))%R by field.
  assert (T2 : (0 < t * t)%R) by nra. set (y := Im z). clearbody y.
  rewrite !Sq. destruct (Rlt_dec y 0) as [L|L]; destruct (Rlt_dec (t * t * y) 0) as [L'|L'];
    try (exfalso; clear - L L' T2; nra); unfold Cmult, RtoC; apply injective_projections; cbn [fst snd]; ring.
Qed.
Lemma breakup_scale (t : R) s m1 m2 : (0 < t)%R ->
  breakup_squared (RtoC (t * t) * s) (RtoC t * m1) (RtoC t * m2) = RtoC (t * t) * breakup_squared s m1 m2.
Proof.
  intros Ht. unfold breakup_squared, Cdiv. rewrite RtoC_mult.
  replace (RtoC 4 * (RtoC t * RtoC t * s)) with (RtoC t * RtoC t * (RtoC 4 * s)) by ring.
  rewrite (Cinv_mult (RtoC t * RtoC t)).
  assert (N : RtoC t <> RtoC 0) by (apply RtoC_neq; lra).
  transitivity ((RtoC t * RtoC t) * / (RtoC t * RtoC t) * ((RtoC t * RtoC t) * ((s - (m1 + m2) * (m1 + m2)) * (s - (m1 - m2) * (m1 - m2)) * / (RtoC 4 * s)))).
  - ring.
  - rewrite Cinv_r. + ring. + apply Cmult_neq_0; auto.
Qed.
Lemma RtoC_inv_r (t : R) : (0 < t)%R -> RtoC t * RtoC (/ t) = RtoC 1.
Proof. intros. rewrite <- RtoC_mult. f_equal. field. lra. Qed.
Lemma form_factor_scale (t : R) L s m1 m2 r : (0 < t)%R ->
  form_factor L (RtoC (t * t) * s) (RtoC t * m1) (RtoC t * m2) (RtoC (/ t) * r) = form_factor L s m1 m2 r.
Proof.
  intros Ht. unfold form_factor. rewrite breakup_scale by auto. do 2 f_equal. rewrite RtoC_mult.
  pose proof (RtoC_inv_r t Ht) as E.
  transitivity ((RtoC t * RtoC (/ t)) * (RtoC t * RtoC (/ t)) * (breakup_squared s m1 m2 * (r * r))); [ring|].
  rewrite E. ring.
Qed.
Lemma two_body_phsp_scale (t : R) s m1 m2 : (0 < t)%R ->
  two_body_phsp (RtoC (t * t) * s) (RtoC t * m1) (RtoC t * m2) = two_body_phsp s m1 m2.
Proof.
  intros Ht. unfold two_body_phsp. rewrite breakup_scale, !csqrt_scale by lra. unfold Cdiv. rewrite Cinv_mult.
  rewrite Cinv_RtoC. pose proof (RtoC_inv_r t Ht) as E.
  transitivity ((RtoC t * RtoC (/ t)) * (RtoC 2 * csqrt (breakup_squared s m1 m2) * / csqrt s)); [ring|].
  rewrite E. ring.
Qed.
Lemma form_factor_zero s m1 m2 r : form_factor 0 s m1 m2 r = RtoC 1.
Proof.
  unfold form_factor, blatt_weisskopf_squared. cbn [Z.to_nat cpow].
  assert (B : forall z, bw_poly 0 z = RtoC 1).
  { intros z. unfold bw_poly, Csum. cbn [seq map fold_right cpow]. unfold bw_coeff. cbn.
    replace (1 * 1 / (1 * 1 * 1 * 1))%R with 1%R by field. rewrite Cmult_1_r, Cplus_0_r. reflexivity. }
  rewrite !B. unfold Cdiv. rewrite !Cmult_1_l, Cinv_RtoC, Rinv_1. rewrite csqrt_nonneg by lra.
  rewrite sqrt_1. reflexivity.
Qed.
Lemma scale_inv (t : R) x : (0 < t)%R -> / (RtoC (t * t) * x) = RtoC (/ (t * t)) * / x.
Proof. intros. rewrite Cinv_mult, Cinv_RtoC. reflexivity. Qed.

(** ** Breit-Wigner functions of real arguments *)
Section Simple.
  Local Open Scope R_scope.
  Context (s m G : R).
  Let d := (m * m - s) * (m * m - s) + (m * G) * (m * G).
  Lemma bw_real : bw_simple (RtoC s) (RtoC m) (RtoC G) = ((m * m - s) / d, m * G / d).
  Proof.
    unfold bw_simple. rewrite one_Cmult. unfold Cinv, Cminus, Cplus, Copp, Cmult, Ci, RtoC. cbn [fst snd].
    apply injective_projections; cbn [fst snd]; unfold d, Rdiv; f_equal; try ring; f_equal; ring.
  Qed.
  Lemma bw_mod : 0 < d -> Cmod (bw_simple (RtoC s) (RtoC m) (RtoC G)) ^ 2 = / d.
  Proof.
    intros Hd. rewrite bw_real. unfold Cmod. cbn [fst snd]. rewrite pow2_sqrt.
    - transitivity (d / (d * d)); [|field; lra].
      transitivity (((m * m - s) * (m * m - s) + (m * G) * (m * G)) / (d * d)); [field; lra|reflexivity].
    - apply Rplus_le_le_0_compat; apply pow2_ge_0.
  Qed.
  Lemma bw_im : 0 < d -> Im (bw_simple (RtoC s) (RtoC m) (RtoC G)) = m * G * Cmod (bw_simple (RtoC s) (RtoC m) (RtoC G)) ^ 2.
  Proof. intros Hd. rewrite bw_mod by auto. rewrite bw_real. reflexivity. Qed.
  Lemma bw_d_pos : 0 < m -> 0 < G -> 0 < m * G /\ 0 < d.
  Proof.
    intros Hm HG. assert (H : 0 < m * G) by (apply Rmult_lt_0_compat; auto). split; auto.
    unfold d. pose proof (Rle_0_sqr (m * m - s)) as A. unfold Rsqr in A.
    pose proof (Rmult_lt_0_compat _ _ H H) as B. lra.
  Qed.
  Lemma bw_max : 0 < m -> 0 < G -> Cmod (bw_simple (RtoC s) (RtoC m) (RtoC G)) <= / (m * G).
  Proof.
    intros Hm HG. pose proof (bw_d_pos Hm HG) as [H Hd].
    apply Rsqr_incr_0; [|apply Cmod_ge_0|left; apply Rinv_0_lt_compat; auto].
    rewrite !Rsqr_pow2. rewrite bw_mod by auto. rewrite pow_inv. pose proof (Rle_0_sqr (m * m - s)) as A. unfold Rsqr in A.
    apply Rinv_le_contravar; [apply pow_lt; auto|unfold d; simpl; lra].
  Qed.
  Lemma bw_max_eq : 0 < m -> 0 < G -> Cmod (bw_simple (RtoC s) (RtoC m) (RtoC G)) = / (m * G) -> s = m * m.
  Proof.
    intros Hm HG E. pose proof (bw_d_pos Hm HG) as [H Hd].
    pose proof (bw_mod Hd) as M. rewrite E, pow_inv in M. apply (f_equal Rinv) in M. rewrite !Rinv_inv in M.
    unfold d in M. simpl in M.
    assert (Z : (m * m - s) * (m * m - s) = 0) by lra. apply Rmult_integral in Z. lra.
  Qed.
End Simple.
Lemma bw_peak m G : m <> RtoC 0 -> G <> RtoC 0 -> bw_simple (m * m) m G = Ci / (m * G).
Proof.
  intros Hm HG. unfold bw_simple. replace (m * m - m * m - Ci * m * G) with (- (Ci * m * G)) by ring.
  assert (E : Ci * Ci = - RtoC 1) by (unfold Ci, Cmult, Copp, RtoC; cbn; f_equal; ring).
  assert (Ni : Ci <> RtoC 0) by (unfold Ci, RtoC; intros X; injection X; lra).
  assert (E2 : / Ci = - Ci).
  { transitivity (/ Ci * - (Ci * Ci)); [rewrite E; ring|]. field. auto. }
  unfold Cdiv. replace (- (Ci * m * G)) with (- RtoC 1 * (Ci * (m * G))) by ring. rewrite !Cinv_mult, E2.
  replace (/ - RtoC 1) with (- RtoC 1); [ring|].
  unfold Cinv, Copp, RtoC. cbn. f_equal; field.
Qed.
Lemma bw_scale (t : R) s m G : (0 < t)%R ->
  bw_simple (RtoC (t * t) * s) (RtoC t * m) (RtoC t * G) = RtoC (/ (t * t)) * bw_simple s m G.
Proof.
  intros Ht. unfold bw_simple. rewrite !one_Cmult. rewrite <- scale_inv by auto. f_equal. rewrite RtoC_mult. ring.
Qed.

(** ** The expressions *)
Lemma eval_simple ev h s m0 w0 : ceval ev h (simple_breit_wigner s m0 w0) = bw_simple (ceval ev h s) (ceval ev h m0) (ceval ev h w0).
Proof. unfold simple_breit_wigner, bw_simple. cbn [ceval]. rewrite CNum_value. f_equal. ring. Qed.
Lemma eval_ff ev h s m1 m2 L r : ceval ev h (CFormFactor s m1 m2 L r) =
  form_factor L (ceval ev h s) (ceval ev h m1) (ceval ev h m2) (ceval ev h r).
Proof. reflexivity. Qed.
Lemma eval_width ev h s m0 w0 m1 m2 L r rho f : phsp_value rho f ->
  ceval ev h (energy_dependent_width s m0 w0 m1 m2 L r rho) =
  running_width f L (ceval ev h s) (ceval ev h m0) (ceval ev h w0) (ceval ev h m1) (ceval ev h m2) (ceval ev h r).
Proof.
  intros Ph. unfold energy_dependent_width, running_width. cbn [ceval]. rewrite !Ph. reflexivity.
Qed.
Lemma phase_space_factor_value : phsp_value phase_space_factor two_body_phsp.
Proof. intros ev h s m1 m2. unfold phase_space_factor, two_body_phsp. cbn [ceval]. rewrite CNum_value. reflexivity. Qed.
Lemma phase_space_factor_closed : closed_phsp phase_space_factor.
Proof.
  intros s m1 m2. unfold phase_space_factor. split.
  - intros x. cbn [symbols_of]. unfold CNum. cbn [symbols_of app]. rewrite !in_app_iff. tauto.
  - intros A B D. cbn [lineshape]. unfold CNum. cbn [lineshape]. rewrite A, B, D. reflexivity.
Qed.
Lemma eval_relativistic ev h s m0 w0 m1 m2 L r rho f : phsp_value rho f ->
  ceval ev h (relativistic_breit_wigner s m0 w0 m1 m2 L r rho) =
  ceval ev h m0 * ceval ev h w0 * bw_simple (ceval ev h s) (ceval ev h m0)
    (running_width f L (ceval ev h s) (ceval ev h m0) (ceval ev h w0) (ceval ev h m1) (ceval ev h m2) (ceval ev h r)).
Proof.
  intros Ph. unfold relativistic_breit_wigner. cbn [ceval]. rewrite (eval_width _ _ _ _ _ _ _ _ _ _ _ Ph).
  unfold bw_simple. rewrite one_Cmult. unfold Cdiv. f_equal. f_equal. ring.
Qed.
Lemma running_width_at_pole f L m G m1 m2 r :
  form_factor L (m * m) m1 m2 r <> RtoC 0 -> f (m * m) m1 m2 <> RtoC 0 ->
  running_width f L (m * m) m G m1 m2 r = G.
Proof. intros A B. unfold running_width. field. auto. Qed.
