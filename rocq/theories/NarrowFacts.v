(** Integrals over a narrow peak (proofs for C148) *)
From Coq Require Import Reals Lra Psatz.
From Coquelicot Require Import Coquelicot.
From Verif Require Import IntegralFacts.
Local Open Scope R_scope.

Definition lorentz (e x : R) : R := e / (x * x + e * e).
Lemma lorentz_den e x : 0 < e -> 0 < x * x + e * e.
Proof. intros H. pose proof (Rle_0_sqr x) as Q. unfold Rsqr in Q. pose proof (Rmult_lt_0_compat _ _ H H). lra. Qed.
Lemma lorentz_pos e x : 0 < e -> 0 < lorentz e x.
Proof. intros H. apply Rdiv_lt_0_compat; [exact H|apply lorentz_den; exact H]. Qed.
Lemma lorentz_integral e s0 lo hi : 0 < e -> is_RInt (fun s => lorentz e (s - s0)) lo hi (atan ((hi - s0) / e) - atan ((lo - s0) / e)).
Proof.
  intros He. apply (is_RInt_derive (fun s => atan ((s - s0) / e)) (fun s => lorentz e (s - s0))).
  - intros s _. unfold lorentz. auto_derive; [exact I|]. pose proof (lorentz_den e (s - s0) He). field. repeat split; try lra.
  - intros s _. unfold lorentz. apply (ex_derive_continuous (fun s => e / ((s - s0) * (s - s0) + e * e))). auto_derive. pose proof (lorentz_den e (s - s0) He). lra.
Qed.
Lemma atan_large x : 0 < x -> PI / 2 - / x < atan x < PI / 2.
Proof.
  intros Hx. split; [|apply atan_bound]. rewrite <- (Rinv_inv x) at 2. rewrite atan_inv by (apply Rinv_0_lt_compat; exact Hx).
  assert (H : atan (/ x) < / x); [|lra].
  set (y := / x). assert (Hy : 0 < y) by (apply Rinv_0_lt_compat; exact Hx).
  destruct (MVT_cor2 (fun t => t - atan t) (fun t => 1 - / (1 + t ^ 2)) 0 y Hy) as (c & E & Hc).
  - intros c _. apply is_derive_Reals. auto_derive; [exact I|]. field. nra.
  - rewrite atan_0 in E. assert (0 < 1 - / (1 + c ^ 2)).
    { assert (0 < c ^ 2) by (apply pow_lt; lra). assert (/ (1 + c ^ 2) < / 1); [|lra]. apply Rinv_lt_contravar; lra. }
    assert (0 < (1 - / (1 + c ^ 2)) * (y - 0)) by (apply Rmult_lt_0_compat; lra). lra.
Qed.

Section Narrow.
  Context (lo hi s0 B : R) (f g : R -> R) (Hs : lo < s0 < hi) (Fb : forall s, lo < s < hi -> Rabs (f s) <= B)
    (Fc : forall s, lo < s < hi -> continuous f s) (Gc : forall s, lo < s < hi -> continuous g s) (G0 : g s0 = 1)
    (Gp : forall s, lo < s < hi -> 0 < g s).
  Definition peak (e s : R) : R := e * f s / ((s - s0) * (s - s0) + e * e * (g s * g s)).
  Lemma peak_den e s : 0 < e -> lo < s < hi -> 0 < (s - s0) * (s - s0) + e * e * (g s * g s).
  Proof.
    intros He H. pose proof (Gp s H) as P. pose proof (Rle_0_sqr (s - s0)) as Q. unfold Rsqr in Q.
    assert (0 < e * e * (g s * g s)) by (repeat apply Rmult_lt_0_compat; assumption). lra.
  Qed.
  Lemma peak_continuous e s : 0 < e -> lo < s < hi -> continuous (peak e) s.
  Proof.
    intros He H. unfold peak. apply (continuous_mult (fun s => e * f s) (fun s => / ((s - s0) * (s - s0) + e * e * (g s * g s)))).
    - apply (continuous_mult (fun _ => e) f); [apply continuous_const|exact (Fc s H)].
    - apply continuous_Rinv_comp; [|pose proof (peak_den e s He H); lra].
      apply (continuous_plus (fun s => (s - s0) * (s - s0)) (fun s => e * e * (g s * g s))).
      + apply (ex_derive_continuous (fun s => (s - s0) * (s - s0))). auto_derive. exact I.
      + apply (continuous_mult (fun _ => e * e) (fun s => g s * g s)); [apply continuous_const|]. apply (continuous_mult g g); exact (Gc s H).
  Qed.
  Lemma near n : 0 < n -> exists d, 0 < d /\ forall s, lo < s < hi -> Rabs (s - s0) < d -> Rabs (f s - f s0) < n /\ Rabs (g s * g s - 1) < n.
  Proof.
    intros Hn. pose proof (Fc s0 Hs) as C1.
    assert (C2 : continuous (fun s => g s * g s) s0) by (apply (continuous_mult g g); exact (Gc s0 Hs)).
    destruct (C1 (fun y => Rabs (y - f s0) < n)) as [d1 H1]; [exists (mkposreal n Hn); intros y Hy; exact Hy|].
    destruct (C2 (fun y => Rabs (y - g s0 * g s0) < n)) as [d2 H2]; [exists (mkposreal n Hn); intros y Hy; exact Hy|].
    exists (Rmin d1 d2). split; [apply Rmin_pos; apply cond_pos|]. intros s _ H. split.
    - apply (H1 s). change (Rabs (s - s0) < d1). pose proof (Rmin_l d1 d2). lra.
    - pose proof (H2 s) as Q. rewrite G0, Rmult_1_r in Q. apply Q. change (Rabs (s - s0) < d2). pose proof (Rmin_r d1 d2). lra.
  Qed.
  Let K : R := 1 + Rabs (f s0).
  Lemma inner_bound e n s : 0 < e -> 0 < n <= 1 / 2 -> Rabs (f s - f s0) < n -> Rabs (g s * g s - 1) < n ->
    Rabs (peak e s - f s0 * lorentz e (s - s0)) <= 2 * n * K * lorentz e (s - s0).
  Proof.
    intros He Hn Hf Hg. unfold peak, lorentz. set (x2 := (s - s0) * (s - s0)). assert (X : 0 <= x2) by apply Rle_0_sqr.
    set (G := g s * g s) in *. set (D0 := x2 + e * e). set (D := x2 + e * e * G). apply Rabs_def2 in Hg.
    assert (E2 : 0 < e * e) by (apply Rmult_lt_0_compat; exact He).
    assert (DP : 0 < D0) by (unfold D0; lra). assert (DD : D0 / 2 <= D) by (unfold D, D0; nra). assert (Dp : 0 < D) by lra.
    replace (e * f s / D - f s0 * (e / D0)) with (e / D * ((f s - f s0) - f s0 * (e * e / D0) * (G - 1))) by (unfold D, D0; field; fold D0; unfold D0, D in *; split; lra).
    rewrite Rabs_mult. rewrite (Rabs_pos_eq (e / D)) by (left; apply Rdiv_lt_0_compat; assumption).
    assert (Q1 : 0 <= e * e / D0 <= 1). { split; [apply Rle_mult_inv_pos; lra|]. apply (Rmult_le_reg_r D0); [exact DP|]. unfold Rdiv. rewrite Rmult_assoc, Rinv_l by lra. unfold D0. lra. }
    assert (Q2 : Rabs (f s - f s0 - f s0 * (e * e / D0) * (G - 1)) <= n * K).
    { eapply Rle_trans; [apply Rabs_triang|]. rewrite Rabs_Ropp, !Rabs_mult, (Rabs_pos_eq (e * e / D0)) by apply Q1. unfold K. rewrite Rmult_plus_distr_l, Rmult_1_r.
      apply Rplus_le_compat; [lra|]. rewrite (Rmult_comm n). rewrite Rmult_assoc. apply Rmult_le_compat_l; [apply Rabs_pos|].
      assert (Rabs (G - 1) < n) by (apply Rabs_def1; lra). pose proof (Rabs_pos (G - 1)). nra. }
    assert (Q3 : e / D <= 2 * (e / D0)).
    { apply (Rmult_le_reg_r (D * D0)); [apply Rmult_lt_0_compat; assumption|]. replace (e / D * (D * D0)) with (e * D0) by (field; lra).
      replace (2 * (e / D0) * (D * D0)) with (e * (2 * D)) by (field; lra). apply Rmult_le_compat_l; lra. }
    replace (2 * n * K * (e / D0)) with (2 * (e / D0) * (n * K)) by ring.
    apply Rmult_le_compat; [left; apply Rdiv_lt_0_compat; assumption|apply Rabs_pos|exact Q3|exact Q2].
  Qed.
  Lemma outer_bound e d s : 0 < e -> 0 < d -> lo < s < hi -> d <= Rabs (s - s0) ->
    Rabs (peak e s - f s0 * lorentz e (s - s0)) <= e * ((B + Rabs (f s0)) / (d * d)).
  Proof.
    intros He Hd H Ho. unfold peak, lorentz. set (x2 := (s - s0) * (s - s0)).
    assert (X : d * d <= x2). { unfold x2. replace ((s - s0) * (s - s0)) with (Rabs (s - s0) * Rabs (s - s0)) by (rewrite <- Rabs_mult; apply Rabs_pos_eq, Rle_0_sqr). apply Rmult_le_compat; lra. }
    assert (D2 : 0 < d * d) by (apply Rmult_lt_0_compat; exact Hd).
    assert (Q : forall y z, 0 <= z -> Rabs (e * y / (x2 + z)) <= e * (Rabs y / (d * d))).
    { intros y z Hz. unfold Rdiv. rewrite !Rabs_mult, (Rabs_pos_eq e) by lra. rewrite Rmult_assoc. apply Rmult_le_compat_l; [lra|]. apply Rmult_le_compat_l; [apply Rabs_pos|].
      rewrite Rabs_pos_eq by (left; apply Rinv_0_lt_compat; lra). apply Rinv_le_contravar; lra. }
    assert (Z1 : 0 <= e * e * (g s * g s)) by (apply Rmult_le_pos; [left; apply Rmult_lt_0_compat; exact He|apply Rle_0_sqr]).
    assert (Z2 : 0 <= e * e) by (left; apply Rmult_lt_0_compat; exact He).
    pose proof (Q (f s) _ Z1) as Q1. pose proof (Q (f s0) _ Z2) as Q2.
    replace (f s0 * (e / (x2 + e * e))) with (e * f s0 / (x2 + e * e)) by (unfold Rdiv; ring).
    eapply Rle_trans; [apply Rabs_triang|]. rewrite Rabs_Ropp. eapply Rle_trans; [apply Rplus_le_compat; [exact Q1|exact Q2]|].
    rewrite <- Rmult_plus_distr_l. apply Rmult_le_compat_l; [lra|]. unfold Rdiv. rewrite <- Rmult_plus_distr_r. apply Rmult_le_compat_r; [left; apply Rinv_0_lt_compat; exact D2|].
    pose proof (Fb s H). lra.
  Qed.
  Lemma total_bound n : 0 < n <= 1 / 2 -> exists A, 0 <= A /\ forall e s, 0 < e -> lo < s < hi ->
    Rabs (peak e s - f s0 * lorentz e (s - s0)) <= 2 * n * K * lorentz e (s - s0) + e * A.
  Proof.
    intros Hn. destruct (near n (proj1 Hn)) as (d & Hd & N). exists ((B + Rabs (f s0)) / (d * d)).
    assert (A0 : 0 <= (B + Rabs (f s0)) / (d * d)).
    { apply Rle_mult_inv_pos; [|apply Rmult_lt_0_compat; exact Hd]. pose proof (Rabs_pos (f s0)). pose proof (Rle_trans _ _ _ (Rabs_pos _) (Fb s0 Hs)). lra. }
    split; [exact A0|]. intros e s He H. assert (L : 0 < lorentz e (s - s0)) by (apply lorentz_pos; exact He).
    assert (KP : 0 < K) by (unfold K; pose proof (Rabs_pos (f s0)); lra).
    assert (T1 : 0 <= 2 * n * K * lorentz e (s - s0)) by (apply Rmult_le_pos; [apply Rmult_le_pos|]; lra).
    assert (T2 : 0 <= e * ((B + Rabs (f s0)) / (d * d))) by (apply Rmult_le_pos; lra).
    destruct (Rlt_or_le (Rabs (s - s0)) d) as [I|O].
    - destruct (N s H I) as [N1 N2]. pose proof (inner_bound e n s He Hn N1 N2). lra.
    - pose proof (outer_bound e d s He Hd H O). lra.
  Qed.
  Lemma peak_integrable e : 0 < e -> ex_RInt (peak e) lo hi.
  Proof.
    intros He. destruct (total_bound (1 / 2) ltac:(lra)) as (A & A0 & T).
    apply (open_ex_RInt (peak e) lo hi (2 * (1 / 2) * K * / e + e * A + Rabs (f s0) * / e)); [lra| |intros; apply peak_continuous; assumption].
    intros s H. assert (L : Rabs (lorentz e (s - s0)) <= / e).
    { rewrite Rabs_pos_eq by (left; apply lorentz_pos; exact He). unfold lorentz. pose proof (lorentz_den e (s - s0) He) as D.
      apply (Rmult_le_reg_r (((s - s0) * (s - s0) + e * e) * e)); [apply Rmult_lt_0_compat; assumption|].
      replace (e / ((s - s0) * (s - s0) + e * e) * (((s - s0) * (s - s0) + e * e) * e)) with (e * e) by (field; lra).
      replace (/ e * (((s - s0) * (s - s0) + e * e) * e)) with ((s - s0) * (s - s0) + e * e) by (field; lra). pose proof (Rle_0_sqr (s - s0)) as Q. unfold Rsqr in Q. lra. }
    pose proof (T e s He H) as Q. replace (peak e s) with ((peak e s - f s0 * lorentz e (s - s0)) + f s0 * lorentz e (s - s0)) by ring.
    eapply Rle_trans; [apply Rabs_triang|]. rewrite (Rabs_mult (f s0)). apply Rplus_le_compat.
    - eapply Rle_trans; [exact Q|]. apply Rplus_le_compat_r. apply Rmult_le_compat_l; [|pose proof (Rle_abs (lorentz e (s - s0))); lra].
      unfold K. pose proof (Rabs_pos (f s0)). lra.
    - apply Rmult_le_compat_l; [apply Rabs_pos|exact L].
  Qed.
  Theorem narrow_limit : filterlim (fun e => RInt (peak e) lo hi) (at_right 0) (locally (PI * f s0)).
  Proof.
    assert (KP : 1 <= K) by (unfold K; pose proof (Rabs_pos (f s0)); lra). pose proof PI_RGT_0 as Pi0.
    intros P [eps HP].
    set (n := Rmin (1 / 2) (eps / (8 * PI * K))). assert (N0 : 0 < n). { apply Rmin_pos; [lra|]. apply Rdiv_lt_0_compat; [apply cond_pos|]. apply Rmult_lt_0_compat; lra. }
    assert (N1 : n <= 1 / 2) by apply Rmin_l. assert (N2 : 2 * n * K * PI <= eps / 4).
    { assert (n <= eps / (8 * PI * K)) by apply Rmin_r. replace (eps / 4) with (2 * (eps / (8 * PI * K)) * K * PI) by (field; split; lra).
      apply Rmult_le_compat_r; [lra|]. apply Rmult_le_compat_r; lra. }
    destruct (total_bound n (conj N0 N1)) as (A & A0 & T).
    set (W := (hi - lo) * A + K * (/ (hi - s0) + / (s0 - lo))).
    assert (W0 : 0 <= W). { unfold W. apply Rplus_le_le_0_compat; [apply Rmult_le_pos; lra|]. apply Rmult_le_pos; [lra|].
      assert (0 < / (hi - s0)) by (apply Rinv_0_lt_compat; lra). assert (0 < / (s0 - lo)) by (apply Rinv_0_lt_compat; lra). lra. }
    assert (D0 : 0 < eps / (4 * (W + 1))) by (apply Rdiv_lt_0_compat; [apply cond_pos|lra]).
    exists (mkposreal _ D0). intros e Be He. apply HP. change (Rabs (e - 0) < eps / (4 * (W + 1))) in Be. rewrite Rminus_0_r, Rabs_pos_eq in Be by lra.
    change (Rabs (RInt (peak e) lo hi - PI * f s0) < eps).
    assert (We : e * W <= eps / 4).
    { apply Rle_trans with (eps / (4 * (W + 1)) * W); [apply Rmult_le_compat_r; lra|]. replace (eps / (4 * (W + 1)) * W) with (eps / 4 * (W / (W + 1))) by (field; lra).
      rewrite <- (Rmult_1_r (eps / 4)) at 2. apply Rmult_le_compat_l; [pose proof (cond_pos eps); lra|]. apply (Rmult_le_reg_r (W + 1)); [lra|]. unfold Rdiv. rewrite Rmult_assoc, Rinv_l by lra. lra. }
    pose proof (lorentz_integral e s0 lo hi He) as L. set (Lv := atan ((hi - s0) / e) - atan ((lo - s0) / e)) in *.
    assert (Lr : PI - e * (/ (hi - s0) + / (s0 - lo)) < Lv < PI).
    { assert (0 < (hi - s0) / e) as H1 by (apply Rdiv_lt_0_compat; lra). assert (0 < (s0 - lo) / e) as H2 by (apply Rdiv_lt_0_compat; lra).
      pose proof (atan_large _ H1) as X1. pose proof (atan_large _ H2) as X2. unfold Lv. replace ((lo - s0) / e) with (- ((s0 - lo) / e)) by (field; lra). rewrite atan_opp.
      replace (/ ((hi - s0) / e)) with (e * / (hi - s0)) in X1 by (field; lra). replace (/ ((s0 - lo) / e)) with (e * / (s0 - lo)) in X2 by (field; lra). lra. }
    pose proof (RInt_correct _ _ _ (peak_integrable e He)) as J. change (is_RInt (peak e) lo hi (RInt (peak e) lo hi)) in J. set (v := RInt (peak e) lo hi) in *.
    pose proof (is_RInt_scal (V := R_NormedModule) _ _ _ (f s0) _ L) as Lf. change (is_RInt (fun s => f s0 * lorentz e (s - s0)) lo hi (f s0 * Lv)) in Lf.
    pose proof (is_RInt_minus (V := R_NormedModule) _ _ _ _ _ _ J Lf) as Df. change (is_RInt (fun s => peak e s - f s0 * lorentz e (s - s0)) lo hi (v - f s0 * Lv)) in Df.
    pose proof (is_RInt_scal (V := R_NormedModule) _ _ _ (2 * n * K) _ L) as Lk. change (is_RInt (fun s => 2 * n * K * lorentz e (s - s0)) lo hi (2 * n * K * Lv)) in Lk.
    pose proof (is_RInt_plus (V := R_NormedModule) _ _ _ _ _ _ Lk (is_RInt_const lo hi (e * A))) as Up.
    change (is_RInt (fun s => 2 * n * K * lorentz e (s - s0) + e * A) lo hi (2 * n * K * Lv + (hi - lo) * (e * A))) in Up.
    assert (Bd : Rabs (v - f s0 * Lv) <= 2 * n * K * Lv + (hi - lo) * (e * A)).
    { apply Rabs_le. pose proof (is_RInt_opp (V := R_NormedModule) _ _ _ _ Up) as Um. change (is_RInt (fun s => - (2 * n * K * lorentz e (s - s0) + e * A)) lo hi (- (2 * n * K * Lv + (hi - lo) * (e * A)))) in Um. split.
      - refine (is_RInt_le _ _ _ _ _ _ _ Um Df _); [lra|]. intros s H. pose proof (T e s He H) as Q. apply Rabs_le_between in Q. lra.
      - refine (is_RInt_le _ _ _ _ _ _ _ Df Up _); [lra|]. intros s H. pose proof (T e s He H) as Q. apply Rabs_le_between in Q. lra. }
    assert (B2 : Rabs (f s0 * Lv - PI * f s0) <= e * (K * (/ (hi - s0) + / (s0 - lo)))).
    { replace (f s0 * Lv - PI * f s0) with (f s0 * (Lv - PI)) by ring. rewrite Rabs_mult. rewrite (Rabs_left (Lv - PI)) by lra.
      replace (e * (K * (/ (hi - s0) + / (s0 - lo)))) with (K * (e * (/ (hi - s0) + / (s0 - lo)))) by ring. apply Rmult_le_compat; [apply Rabs_pos|lra|unfold K; lra|lra]. }
    assert (B1 : 2 * n * K * Lv <= eps / 4). { eapply Rle_trans; [|exact N2]. apply Rmult_le_compat_l; [|lra]. apply Rmult_le_pos; lra. }
    replace (v - PI * f s0) with ((v - f s0 * Lv) + (f s0 * Lv - PI * f s0)) by ring. eapply Rle_lt_trans; [apply Rabs_triang|].
    assert (EW : (hi - lo) * (e * A) + e * (K * (/ (hi - s0) + / (s0 - lo))) = e * W) by (unfold W; ring). pose proof (cond_pos eps). lra.
  Qed.
End Narrow.
