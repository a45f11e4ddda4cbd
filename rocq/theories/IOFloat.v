(** The numbers shown in tables: C75 *)
From Coq Require Import String Ascii ZArith Znumtheory QArith Qabs Qcanon Qpower Qreals Reals SpecFloat List Bool Lia Lra Psatz.
From Flocq Require Import Core.Core IEEE754.BinarySingleNaN.
From Verif Require Import Prelude Spin Decay IO SpecIO IOProofs.
Import ListNotations.
Local Open Scope list_scope.
Local Open Scope string_scope.
Local Open Scope Z_scope.

(** ** Denominators of floats *)
Lemma log2_exact_spec p k : log2_exact p = Some k -> 0 <= k /\ Zpos p = 2 ^ k.
Proof.
  revert k. induction p as [p IH|p IH|]; intros k E; cbn [log2_exact] in E.
  - discriminate E.
  - destruct (log2_exact p) as [j|]; [|discriminate E]. destruct (IH j eq_refl) as [P Q]. injection E as <-.
    split; [lia|]. rewrite Z.pow_add_r by lia. rewrite <- Q. lia.
  - injection E as <-. split; [lia|reflexivity].
Qed.
Lemma log2_exact_divides n p : (Zpos p | 2 ^ Z.of_nat n) -> exists k, log2_exact p = Some k.
Proof.
  revert p. induction n as [|n IH]; intros p D.
  - change (2 ^ Z.of_nat 0) with 1 in D. apply Z.divide_1_r in D. destruct D as [D|D]; [|discriminate D].
    injection D as ->. exists 0. reflexivity.
  - destruct p as [p|p|].
    + exfalso. rewrite Nat2Z.inj_succ, Z.pow_succ_r in D by lia.
      apply Gauss in D.
      * destruct (IH _ D) as (k & E). cbn in E. discriminate E.
      * apply bezout_rel_prime. apply Bezout_intro with 1 (- Zpos p). change (Zpos p~1) with (2 * Zpos p + 1). ring.
    + destruct (IH p) as (k & E).
      * rewrite Nat2Z.inj_succ, Z.pow_succ_r in D by lia. change (Zpos p~0) with (2 * Zpos p) in D.
        destruct D as (x & D). exists x. lia.
      * exists (k + 1). cbn [log2_exact]. rewrite E. reflexivity.
    + exists 0. reflexivity.
Qed.
Lemma Qc_den_divides (q : Qc) n D : this q == n # D -> (Zpos (Qden q) | Zpos D).
Proof.
  intros E. unfold Qeq in E. cbn in E.
  apply (Gauss _ (Qnum q)); [exists n; lia|]. apply rel_prime_sym.
  destruct q as [[a b] c]. cbn. apply Zgcd_1_rel_prime.
  assert (X := Qred_identity2 _ c). cbn in X. exact X.
Qed.
Lemma Qpower_pos_Z (k : Z) : 0 <= k -> Qpower 2 k == inject_Z (2 ^ k).
Proof. intros L. rewrite Zpower_Qpower by exact L. reflexivity. Qed.
Lemma Qpower_neg_Z (k : Z) : 0 <= k -> Qpower 2 (- k) == 1 # Z.to_pos (2 ^ k).
Proof.
  intros L. rewrite Qpower_opp, Qpower_pos_Z by exact L.
  assert (P : 0 < 2 ^ k) by (apply Z.pow_pos_nonneg; lia). destruct (2 ^ k) as [|p|p]; [lia| |lia]. reflexivity.
Qed.
Lemma float_denominator q : is_float q -> exists k, log2_exact (Qden q) = Some k.
Proof.
  intros (m & e & _ & _ & E). destruct (Z.le_gt_cases 0 e) as [L|L].
  - apply (log2_exact_divides 0). apply (Qc_den_divides q (m * 2 ^ e) 1). rewrite E, Qpower_pos_Z by exact L.
    rewrite <- inject_Z_mult. reflexivity.
  - apply (log2_exact_divides (Z.to_nat (- e))). rewrite Z2Nat.id by lia.
    assert (P : 0 < 2 ^ (- e)) by (apply Z.pow_pos_nonneg; lia).
    replace (2 ^ (- e)) with (Zpos (Z.to_pos (2 ^ (- e)))) by (apply Z2Pos.id; exact P).
    apply (Qc_den_divides q m). rewrite E. rewrite <- (Z.opp_involutive e) at 1. rewrite Qpower_neg_Z by lia.
    unfold Qeq. cbn. lia.
Qed.

(** ** Rounding: the function of the standard library is that of Flocq *)
Definition b64_prec : Z := 53.
Definition b64_emax : Z := 1024.
Global Instance b64_prec_gt : Prec_gt_0 b64_prec.
Proof. reflexivity. Qed.
Global Instance b64_prec_lt : Prec_lt_emax b64_prec b64_emax.
Proof. reflexivity. Qed.
Lemma nearest_even_eq s m l : round_nearest_even m l = choice_mode mode_NE s m l.
Proof. destruct l as [|[| |]]; try reflexivity. cbn. unfold Round.cond_incr. destruct (Z.even m); reflexivity. Qed.
Lemma round_aux_eq sx mx ex lx :
  SpecFloat.binary_round_aux b64_prec b64_emax sx mx ex lx = binary_round_aux b64_prec b64_emax mode_NE sx mx ex lx.
Proof.
  unfold SpecFloat.binary_round_aux, binary_round_aux.
  destruct (shr_fexp _ _ _ _ _) as [mrs' e']. rewrite (nearest_even_eq sx). reflexivity.
Qed.
Lemma round_eq s m e :
  SpecFloat.binary_round b64_prec b64_emax s m e = binary_round b64_prec b64_emax mode_NE s m e.
Proof.
  unfold SpecFloat.binary_round, binary_round, shl_align_fexp. destruct (shl_align _ _ _) as [mz ez]. apply round_aux_eq.
Qed.
Lemma normalize_eq m e z :
  SpecFloat.binary_normalize b64_prec b64_emax m e z = B2SF (binary_normalize b64_prec b64_emax _ _ mode_NE m e z).
Proof.
  destruct m as [|p|p]; [reflexivity| |]; cbn [binary_normalize SpecFloat.binary_normalize]; rewrite B2SF_SF2B; apply round_eq.
Qed.
Local Notation f64 := (FLT_exp (3 - b64_emax - b64_prec) b64_prec).
Local Notation rnd := (round radix2 f64 ZnearestE).
Lemma rounding_error x : (Rabs x <= 1000000000)%R -> (Rabs (rnd x - x) <= bpow radix2 (-23))%R.
Proof.
  intros B. assert (E := error_le_half_ulp radix2 f64 (fun n => negb (Z.even n)) x).
  assert (U : (ulp radix2 f64 x <= ulp radix2 f64 (bpow radix2 30))%R).
  { apply ulp_le; [apply FLT_exp_valid; reflexivity|apply FLT_exp_monotone|].
    rewrite (Rabs_pos_eq (bpow radix2 30)) by apply bpow_ge_0. eapply Rle_trans; [exact B|]. cbn. lra. }
  rewrite ulp_bpow in U. change (f64 (30 + 1)) with (-22) in U.
  assert (H : (bpow radix2 (-22) = 2 * bpow radix2 (-23))%R).
  { change (-22) with (1 + -23). rewrite bpow_plus. reflexivity. }
  change (Znearest (fun n => negb (Z.even n))) with ZnearestE in E. lra.
Qed.
Lemma floor_of_float m e n : int_of_float (S754_finite false m e) = Ok n ->
  (IZR n <= F2R (Float radix2 (Zpos m) e) < IZR n + 1)%R.
Proof.
  intros E. assert (N : n = if 0 <=? e then Zpos m * 2 ^ e else Zpos m / 2 ^ (- e)).
  { unfold int_of_float in E. congruence. }
  rewrite N. clear n E N. unfold F2R. cbn [Fnum Fexp].
  destruct (Z.leb_spec 0 e) as [L|L].
  - rewrite mult_IZR. replace (IZR (2 ^ e)) with (bpow radix2 e); [lra|].
    rewrite <- IZR_Zpower by exact L. reflexivity.
  - assert (P : (0 < 2 ^ (- e))) by (apply Z.pow_pos_nonneg; lia).
    assert (Q : (bpow radix2 e = / IZR (2 ^ (- e)))%R).
    { rewrite <- (Z.opp_involutive e) at 1. rewrite bpow_opp. f_equal. rewrite <- IZR_Zpower by lia. reflexivity. }
    rewrite Q. assert (D := Z.div_mod (Zpos m) (2 ^ (- e))). assert (M := Z.mod_pos_bound (Zpos m) (2 ^ (- e)) P).
    assert (Pr : (0 < IZR (2 ^ (- e)))%R) by (apply IZR_lt; exact P).
    set (d := Zpos m / 2 ^ (- e)) in *. set (r := Zpos m mod 2 ^ (- e)) in *.
    rewrite D by lia. rewrite plus_IZR, mult_IZR.
    replace ((IZR (2 ^ (- e)) * IZR d + IZR r) * / IZR (2 ^ (- e)))%R with (IZR d + IZR r / IZR (2 ^ (- e)))%R by (field; lra).
    assert (R0 : (0 <= IZR r / IZR (2 ^ (- e)))%R).
    { apply Rmult_le_pos; [apply IZR_le; lia|]. left. apply Rinv_0_lt_compat. exact Pr. }
    assert (R1 : (IZR r / IZR (2 ^ (- e)) < 1)%R).
    { apply (Rmult_lt_reg_r (IZR (2 ^ (- e)))); [exact Pr|]. unfold Rdiv. rewrite Rmult_assoc, Rinv_l by lra.
      rewrite Rmult_1_r, Rmult_1_l. apply IZR_lt. lia. }
    lra.
Qed.
(** [int(1e3 * x)] *)
Lemma mev_real (q : Qc) k : log2_exact (Qden q) = Some k -> (0 <= Q2R q <= 1000000)%R ->
  exists n, int_of_float (times_1e3 q) = Ok n /\ 0 <= n /\
    (IZR n <= 1000 * Q2R q + bpow radix2 (-23))%R /\ (1000 * Q2R q < IZR n + 1 + bpow radix2 (-23))%R.
Proof.
  intros K B. unfold times_1e3. rewrite K.
  destruct (log2_exact_spec _ _ K) as [K0 K1].
  set (x := F2R (Float radix2 (1000 * Qnum q) (- k))).
  assert (X : x = (1000 * Q2R q)%R).
  { unfold x, F2R, Q2R. cbn [Fnum Fexp]. rewrite mult_IZR, K1, bpow_opp. rewrite <- IZR_Zpower by exact K0.
    rewrite Rmult_assoc. reflexivity. }
  assert (Bx : (0 <= x <= 1000000000)%R) by (rewrite X; lra).
  assert (Er := rounding_error x). rewrite Rabs_pos_eq in Er by lra. specialize (Er (proj2 Bx)).
  assert (R0 : (0 <= rnd x)%R).
  { apply round_ge_generic; [apply FLT_exp_valid; reflexivity|apply valid_rnd_N|apply generic_format_0|apply Bx]. }
  assert (S23 : (0 < bpow radix2 (-23) < 1)%R).
  { split; [apply bpow_gt_0|]. change 1%R with (bpow radix2 0). apply bpow_lt. reflexivity. }
  assert (C := binary_normalize_correct b64_prec b64_emax _ _ mode_NE (1000 * Qnum q) (- k) false).
  cbv zeta in C. fold x in C. change (round radix2 (SpecFloat.fexp b64_prec b64_emax) (round_mode mode_NE) x) with (rnd x) in C.
  rewrite Rlt_bool_true in C.
  2:{ rewrite Rabs_pos_eq by exact R0. apply (Rlt_le_trans _ (bpow radix2 31)); [|apply bpow_le; discriminate].
      assert (Z31 : (bpow radix2 31 = 2147483648)%R) by reflexivity. rewrite Z31. assert (Y := Rle_abs (rnd x - x)). lra. }
  change 53 with b64_prec. change 1024 with b64_emax. rewrite normalize_eq.
  destruct (binary_normalize b64_prec b64_emax _ _ mode_NE (1000 * Qnum q) (- k) false) as [s|s| |s m e Hb];
    destruct C as (C1 & C2 & C3); [|discriminate C2|discriminate C2|].
  - exists 0. split; [reflexivity|]. split; [lia|]. change (0 = rnd x)%R in C1. rewrite <- X.
    assert (Y := Rle_abs (- (rnd x - x))). rewrite Rabs_Ropp in Y. split; lra.
  - cbn [Bsign] in C3. assert (s = false).
    { rewrite C3. destruct (Rcompare_spec x 0) as [L|L|L]; [lra|reflexivity|reflexivity]. }
    clear C3. subst s. cbn [B2SF]. destruct (int_of_float (S754_finite false m e)) as [n|e'] eqn:En; [|discriminate En].
    apply floor_of_float in En. change (F2R (Float radix2 (Zpos m) e) = rnd x) in C1. rewrite C1 in En. exists n. split; [reflexivity|].
    assert (Y := Rle_abs (rnd x - x)). assert (Y' := Rle_abs (- (rnd x - x))). rewrite Rabs_Ropp in Y'.
    split; [|rewrite <- X; split; lra].
    assert (IZR (-1) < IZR n)%R by (cbn; lra). apply lt_IZR in H. lia.
Qed.

(** ** C75 *)
Lemma bpow_23 : bpow radix2 (-23) = Q2R (1 # 8388608).
Proof. unfold Q2R. cbn. lra. Qed.
Theorem c75_near (q : Qc) : is_float q -> (0 <= q <= 1000000)%Q ->
  exists n t, mev q = Ok t /\ remove_commas t = str_of_Z n /\ grouped t /\ 0 <= n /\
    (inject_Z n <= 1000 * q + (1 # 8388608))%Q /\ (1000 * q < inject_Z (n + 1) + (1 # 8388608))%Q.
Proof.
  intros F [B0 B1]. destruct (float_denominator q F) as (k & K).
  destruct (mev_real q k K) as (n & E & P & U & L).
  { split.
    - replace 0%R with (Q2R 0) by (unfold Q2R; cbn; lra). apply Qle_Rle. exact B0.
    - replace 1000000%R with (Q2R 1000000) by (unfold Q2R; cbn; lra). apply Qle_Rle. exact B1. }
  exists n, (format_int n). unfold mev. rewrite E. cbn [bind]. split; [reflexivity|].
  split; [apply format_int_digits|]. split; [apply format_int_grouped; exact P|]. split; [exact P|].
  assert (T : Q2R (1000 * q) = (1000 * Q2R q)%R).
  { rewrite Q2R_mult. f_equal. unfold Q2R. cbn. lra. }
  assert (I : forall z, Q2R (inject_Z z) = IZR z) by (intros z; unfold Q2R; cbn; lra).
  split.
  - apply Rle_Qle. rewrite Q2R_plus, T, I, <- bpow_23. exact U.
  - apply Rlt_Qlt. rewrite Q2R_plus, T, I, <- bpow_23, plus_IZR. exact L.
Qed.

(** The number closest to 1.001 *)
Definition f1001 : Qc := Q2Qc (2254051613498933 # 2251799813685248).
Definition x1001 : Qc := Q2Qc (1001 # 1000).
Lemma f1001_float : is_float f1001.
Proof. exists 2254051613498933, (-51). split; [reflexivity|]. split; [lia|]. reflexivity. Qed.
Lemma Qabs_far (c y : Q) : (c <= y)%Q \/ (y <= - c)%Q -> (c <= Qabs y)%Q.
Proof.
  intros [L|L].
  - eapply Qle_trans; [exact L|apply Qle_Qabs].
  - rewrite <- Qabs_opp. eapply Qle_trans; [|apply Qle_Qabs]. apply Qopp_le_compat in L. rewrite Qopp_involutive in L. exact L.
Qed.
Lemma f1001_nearest : nearest_float f1001 x1001.
Proof.
  split; [exact f1001_float|]. intros q' (m & e & M & _ & E).
  apply (Qle_trans _ (496 # 4503599627370496000)); [vm_compute; discriminate|].
  apply Qabs_far. change (this x1001) with (1001 # 1000). rewrite E. clear E.
  destruct (Z.le_gt_cases (-52) e) as [L|L].
  - assert (K : inject_Z m * Qpower 2 e == m * 2 ^ (e + 52) # 4503599627370496).
    { replace e with (e + 52 + - (52)) at 1 by ring.
      rewrite Qpower_plus by discriminate. rewrite Qpower_pos_Z by lia. rewrite Qpower_neg_Z by lia.
      rewrite Qmult_assoc, <- inject_Z_mult. unfold Qeq. cbn. lia. }
    rewrite K. set (k := m * 2 ^ (e + 52)). clearbody k. clear.
    unfold Qle, Qminus, Qplus, Qopp. cbn. lia.
  - right.
    assert (K : (inject_Z m * Qpower 2 e <= 1)%Q).
    { replace e with (- (- e)) by ring. rewrite Qpower_neg_Z by lia.
      assert (P : 2 ^ 53 <= 2 ^ (- e)) by (apply Z.pow_le_mono_r; lia).
      unfold Qle. cbn. rewrite Z2Pos.id by lia. lia. }
    apply (Qle_trans _ (1 - (1001 # 1000))); [apply Qplus_le_compat; [exact K|apply Qle_refl]|]. vm_compute. discriminate.
Qed.
Theorem c75_refuted : ~ (forall q n, nearest_float q (Q2Qc (n # 1000)) -> 0 <= n <= 1000000 ->
  exists t, mev q = Ok t /\ remove_commas t = str_of_Z n).
Proof.
  intros P. destruct (P f1001 1001 f1001_nearest) as (t & E & T); [lia|].
  vm_compute in E. injection E as <-. discriminate T.
Qed.
