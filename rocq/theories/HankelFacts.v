(** Blatt-Weisskopf polynomials and spherical Hankel functions (proofs for C97) *)
From Coq Require Import ZArith List Reals Lia Lra Psatz.
From Coquelicot Require Import Complex.
From Verif Require Import Sums CExpr SpecDynamics SpecHankel CExprFacts RefFacts LineshapeFacts FiniteShapes.
Import ListNotations.
Local Open Scope R_scope.

(** ** Coefficients *)
Lemma INR_fact_S n : INR (fact (S n)) = (INR n + 1) * INR (fact n).
Proof. rewrite fact_simpl, mult_INR, S_INR. reflexivity. Qed.
Lemma INR_fact_pos n : 0 < INR (fact n).
Proof. apply lt_0_INR, lt_O_fact. Qed.
(** coefficients, 0 outside the range *)
Definition ac (n k : nat) : R := if Nat.leb k n then bw_coeff n k else 0.
Definition ec (n k : nat) : R :=
  if Nat.leb k n then INR (fact (n + k)) / (INR (fact k) * INR (fact (n - k))) else 0.
Lemma ac_kj k j : ac (k + j) k = INR (fact (k + 2 * j)) * INR (fact (2 * j)) / (INR (fact k) * INR (fact j) * INR (fact j) * 4 ^ j).
Proof.
  unfold ac. destruct (Nat.leb_spec k (k + j)); [|lia]. unfold bw_coeff.
  replace (2 * (k + j) - k)%nat with (k + 2 * j)%nat by lia. replace (2 * (k + j) - 2 * k)%nat with (2 * j)%nat by lia.
  replace (k + j - k)%nat with j by lia. reflexivity.
Qed.
Lemma ac_out n k : (n < k)%nat -> ac n k = 0.
Proof. intros H. unfold ac. destruct (Nat.leb_spec k n); [lia|reflexivity]. Qed.
Lemma ec_out n k : (n < k)%nat -> ec n k = 0.
Proof. intros H. unfold ec. destruct (Nat.leb_spec k n); [lia|reflexivity]. Qed.
Lemma ec_kj k j : ec (k + j) k = INR (fact (2 * k + j)) / (INR (fact k) * INR (fact j)).
Proof.
  unfold ec. destruct (Nat.leb_spec k (k + j)); [|lia]. replace (k + j + k)%nat with (2 * k + j)%nat by lia.
  replace (k + j - k)%nat with j by lia. reflexivity.
Qed.

Lemma ac_diag n k : (INR k + 1) * ac (S n) (S k) = (2 * INR n + 1 - INR k) * ac n k.
Proof.
  destruct (Nat.le_gt_cases k n) as [H|H].
  - replace n with (k + (n - k))%nat by lia. set (j := (n - k)%nat). change (S (k + j)) with (S k + j)%nat.
    rewrite !ac_kj. cbn [plus]. rewrite !INR_fact_S, !plus_INR, mult_INR. cbn [INR].
    assert (D := INR_fact_pos k). assert (E := INR_fact_pos j). assert (F : 0 < 4 ^ j) by (apply pow_lt; lra).
    assert (G := pos_INR k). field. repeat split; lra.
  - rewrite !ac_out by lia. ring.
Qed.
Lemma ac_step n k : ac (S (S n)) (S (S k)) = (2 * INR n + 3) * (2 * INR n - 1 - 2 * INR k) * ac (S n) (S (S k)) + ac n k.
Proof.
  destruct (Nat.le_gt_cases k n) as [H|H]; [|rewrite !ac_out by lia; ring].
  destruct (Nat.eq_dec k n) as [->|Hk].
  - rewrite (ac_out (S n)) by lia. 
    pose proof (ac_kj n 0) as A. pose proof (ac_kj (S (S n)) 0) as B. rewrite Nat.add_0_r in A, B. rewrite A, B.
    change (2 * 0)%nat with 0%nat. change (INR (fact 0)) with 1. rewrite !Nat.add_0_r. cbn [pow].
    assert (D := INR_fact_pos n). assert (E := INR_fact_pos (S (S n))). field. split; lra.
  - assert (X : exists j, n = (k + S j)%nat) by (exists (n - k - 1)%nat; lia). destruct X as [j ->]. clear H Hk.
    replace (S (S (k + S j))) with (S (S k) + S j)%nat by lia. replace (S (k + S j)) with (S (S k) + j)%nat by lia.
    rewrite !ac_kj. replace (2 * S j)%nat with (S (S (2 * j))) by lia.
    replace (S (S k) + S (S (2 * j)))%nat with (S (S (S (S (k + 2 * j))))) by lia.
    replace (k + S (S (2 * j)))%nat with (S (S (k + 2 * j))) by lia.
    replace (S (S k) + 2 * j)%nat with (S (S (k + 2 * j))) by lia.
    rewrite !INR_fact_S, !S_INR, !plus_INR, mult_INR, !S_INR. cbn [INR pow].
    assert (D := INR_fact_pos k). assert (E := INR_fact_pos j). assert (F : 0 < 4 ^ j) by (apply pow_lt; lra).
    assert (G := pos_INR k). assert (K := pos_INR j). field. repeat split; lra.
Qed.
Lemma ac_step0 n : ac (S n) 0 = (2 * INR n + 1) * (2 * INR n + 1) * ac n 0.
Proof.
  pose proof (ac_kj 0 n) as A. pose proof (ac_kj 0 (S n)) as B. cbn [plus] in A, B. rewrite A, B.
  replace (2 * S n)%nat with (S (S (2 * n))) by lia. rewrite !INR_fact_S, !S_INR, !mult_INR. change (INR (fact 0)) with 1. cbn [INR pow].
  assert (E := INR_fact_pos n). assert (F : 0 < 4 ^ n) by (apply pow_lt; lra). assert (K := pos_INR n). field. repeat split; lra.
Qed.
Lemma ac_step1 n : ac (S (S n)) 1 = (2 * INR n + 3) * (2 * INR n + 1) * ac (S n) 1.
Proof.
  pose proof (ac_kj 1 n) as A. pose proof (ac_kj 1 (S n)) as B. cbn [plus] in A, B. rewrite A, B.
  replace (2 * S n)%nat with (S (S (2 * n))) by lia. rewrite !INR_fact_S, !S_INR, !mult_INR. change (INR (fact 0)) with 1. cbn [INR pow].
  assert (E := INR_fact_pos n). assert (F : 0 < 4 ^ n) by (apply pow_lt; lra). assert (K := pos_INR n). field. repeat split; lra.
Qed.
Lemma ec_step n k : ec (S (S n)) (S k) = 2 * (2 * INR n + 3) * ec (S n) k + ec n (S k).
Proof.
  destruct (Nat.le_gt_cases k (S n)) as [H|H]; [|rewrite !ec_out by lia; ring].
  destruct (Nat.eq_dec k (S n)) as [->|Hk].
  - rewrite (ec_out n) by lia.
    pose proof (ec_kj (S n) 0) as A. pose proof (ec_kj (S (S n)) 0) as B. rewrite Nat.add_0_r in A, B. rewrite A, B.
    replace (2 * S (S n) + 0)%nat with (S (S (S (S (2 * n))))) by lia. replace (2 * S n + 0)%nat with (S (S (2 * n))) by lia.
    rewrite !INR_fact_S, !S_INR, mult_INR. cbn [INR fact]. 
    assert (D := INR_fact_pos n). assert (K := pos_INR n). field. repeat split; lra.
  - destruct (Nat.eq_dec k n) as [->|Hn].
    + rewrite (ec_out n (S n)) by lia.
      pose proof (ec_kj n 1) as A. pose proof (ec_kj (S n) 1) as B. 
      replace (n + 1)%nat with (S n) in A by lia. replace (S n + 1)%nat with (S (S n)) in B by lia. rewrite A, B.
      replace (2 * S n + 1)%nat with (S (S (S (2 * n)))) by lia. replace (2 * n + 1)%nat with (S (2 * n)) by lia.
      rewrite !INR_fact_S, !S_INR, mult_INR. cbn [INR fact].
      assert (D := INR_fact_pos n). assert (K := pos_INR n). field. repeat split; lra.
    + assert (X : exists j, n = (k + S j)%nat) by (exists (n - k - 1)%nat; lia). destruct X as [j ->]. clear H Hk Hn.
      replace (S (S (k + S j))) with (S k + S (S j))%nat by lia. replace (S (k + S j)) with (k + S (S j))%nat by lia.
      replace (k + S j)%nat with (S k + j)%nat at 2 by lia. rewrite !ec_kj.
      replace (2 * S k + S (S j))%nat with (S (S (S (S (2 * k + j))))) by lia.
      replace (2 * k + S (S j))%nat with (S (S (2 * k + j))) by lia. replace (2 * S k + j)%nat with (S (S (2 * k + j))) by lia.
      rewrite !INR_fact_S, !S_INR, !plus_INR, mult_INR, !S_INR. cbn [INR].
      assert (D := INR_fact_pos k). assert (E := INR_fact_pos j). assert (G := pos_INR k). assert (K := pos_INR j).
      field. repeat split; lra.
Qed.
Lemma ec_step0 n : ec n 0 = 1.
Proof. pose proof (ec_kj 0 n) as A. cbn [plus Nat.mul] in A. rewrite A. cbn [fact INR]. assert (E := INR_fact_pos n). field. lra. Qed.

(** ** Sums *)
Lemma Rsum_shift a N f : Rsum (seq (S a) N) f = Rsum (seq a N) (fun k => f (S k)).
Proof. revert a. induction N as [|N IH]; intros a; cbn [seq Rsum]; auto. rewrite IH. reflexivity. Qed.
Lemma Csum_shift a N f : Csum (seq (S a) N) f = Csum (seq a N) (fun k => f (S k)).
Proof. revert a. induction N as [|N IH]; intros a; cbn [seq Csum]; auto. rewrite IH. reflexivity. Qed.
Lemma Rsum_head N f : Rsum (seq 0 (S N)) f = f 0%nat + Rsum (seq 0 N) (fun k => f (S k)).
Proof. cbn [seq Rsum]. rewrite Rsum_shift. reflexivity. Qed.
Lemma Rsum_head2 N f : Rsum (seq 0 (S (S N))) f = f 0%nat + (f 1%nat + Rsum (seq 0 N) (fun k => f (S (S k)))).
Proof. rewrite Rsum_head, Rsum_head. reflexivity. Qed.
Lemma Csum_head N f : Csum (seq 0 (S N)) f = (f 0%nat + Csum (seq 0 N) (fun k => f (S k)))%C.
Proof. cbn [seq Csum]. rewrite Csum_shift. reflexivity. Qed.
Lemma Rsum_lin3 A (l : list A) a b c f g h : Rsum l (fun k => a * f k + b * g k + c * h k) = a * Rsum l f + b * Rsum l g + c * Rsum l h.
Proof. induction l as [|k l IH]; cbn [Rsum]; [ring|]. rewrite IH. ring. Qed.
Lemma Csum_lin2 A (l : list A) a b f g : Csum l (fun k => a * f k + b * g k)%C = (a * Csum l f + b * Csum l g)%C.
Proof. induction l as [|k l IH]; cbn [Csum]; [ring|]. rewrite IH. ring. Qed.
Lemma Rsum_zero A (l : list A) f : (forall k, In k l -> f k = 0) -> Rsum l f = 0.
Proof. induction l as [|k l IH]; intros H; cbn [Rsum]; auto. rewrite (H k), IH by (auto with datatypes). ring. Qed.
Lemma Csum_zero' A (l : list A) f : (forall k, In k l -> f k = RtoC 0) -> Csum l f = RtoC 0.
Proof. induction l as [|k l IH]; intros H; cbn [Csum]; auto. rewrite (H k), IH by (auto with datatypes). ring. Qed.

Definition pa (y : R) (n N : nat) : R := Rsum (seq 0 N) (fun k => ac n k * y ^ k).
Definition qa (y : R) (n N : nat) : R := Rsum (seq 0 N) (fun k => INR k * ac n k * y ^ k).
Definition sa (t : C) (n N : nat) : C := Csum (seq 0 N) (fun k => RtoC (ec n k) * cpow t k)%C.
Lemma pa_ext y n N : (n < N)%nat -> pa y n N = pa y n (S n).
Proof.
  intros H. unfold pa. replace N with (S n + (N - S n))%nat by lia. rewrite seq_app, Rsum_app.
  rewrite (Rsum_zero _ (seq (0 + S n) _)); [ring|]. intros k Hk. apply in_seq in Hk. rewrite ac_out by lia. ring.
Qed.
Lemma qa_ext y n N : (n < N)%nat -> qa y n N = qa y n (S n).
Proof.
  intros H. unfold qa. replace N with (S n + (N - S n))%nat by lia. rewrite seq_app, Rsum_app.
  rewrite (Rsum_zero _ (seq (0 + S n) _)); [ring|]. intros k Hk. apply in_seq in Hk. rewrite ac_out by lia. ring.
Qed.
Lemma sa_ext t n N : (n < N)%nat -> sa t n N = sa t n (S n).
Proof.
  intros H. unfold sa. replace N with (S n + (N - S n))%nat by lia. rewrite seq_app, Csum_app.
  rewrite (Csum_zero' _ (seq (0 + S n) _)); [ring|]. intros k Hk. apply in_seq in Hk. rewrite ec_out by lia. ring.
Qed.
Lemma qa_step y n : qa y (S n) (S (S n)) = y * ((2 * INR n + 1) * pa y n (S n) - qa y n (S n)).
Proof.
  unfold qa at 1. rewrite Rsum_head. change (INR 0) with 0.
  rewrite (Rsum_ext _ _ (fun k => (y * (2 * INR n + 1)) * (ac n k * y ^ k) + (- y) * (INR k * ac n k * y ^ k) + 0 * ac n k)).
  - rewrite Rsum_lin3. fold (pa y n (S n)) (qa y n (S n)). ring.
  - intros k _. rewrite S_INR. cbn [pow]. rewrite ac_diag. ring.
Qed.
Lemma pa_step y n : pa y (S (S n)) (S (S (S n))) =
  (2 * INR n + 3) * (2 * INR n + 3) * pa y (S n) (S (S n)) - 2 * (2 * INR n + 3) * qa y (S n) (S (S n)) + y * y * pa y n (S n).
Proof.
  rewrite <- (pa_ext y (S n) (S (S (S n)))), <- (qa_ext y (S n) (S (S (S n)))) by lia.
  unfold pa, qa. rewrite !(Rsum_head2 (S n)). change (INR 0) with 0. change (INR 1) with 1. cbn [pow].
  rewrite (Rsum_ext _ (fun k => ac (S (S n)) (S (S k)) * (y * (y * y ^ k))) (fun k =>
     ((2 * INR n + 3) * (2 * INR n + 3)) * (ac (S n) (S (S k)) * (y * (y * y ^ k)))
   + (- (2 * (2 * INR n + 3))) * (INR (S (S k)) * ac (S n) (S (S k)) * (y * (y * y ^ k))) + (y * y) * (ac n k * y ^ k))).
  - rewrite Rsum_lin3. rewrite ac_step1, (ac_step0 (S n)), (S_INR n). cbn [INR]. ring.
  - intros k _. rewrite ac_step, !S_INR. ring.
Qed.
Lemma sa_step t n : sa t (S (S n)) (S (S (S n))) = (RtoC (2 * (2 * INR n + 3)) * t * sa t (S n) (S (S n)) + sa t n (S n))%C.
Proof.
  rewrite <- (sa_ext t n (S (S (S n)))) by lia. unfold sa. rewrite (Csum_head (S (S n))), (Csum_head (S (S n)) (fun k => (RtoC (ec n k) * _)%C)).
  rewrite (Csum_ext _ _ (fun k => ((RtoC (2 * (2 * INR n + 3)) * t) * (RtoC (ec (S n) k) * cpow t k) + RtoC 1 * (RtoC (ec n (S k)) * cpow t (S k)))%C)).
  - rewrite Csum_lin2, !ec_step0. ring.
  - intros k _. rewrite ec_step. cbn [cpow]. rewrite RtoC_plus, (RtoC_mult (2 * _) (ec _ _)). ring.
Qed.
Lemma pa_bw y n : pa y n (S n) = Rsum (seq 0 (S n)) (fun k => bw_coeff n k * y ^ k).
Proof.
  unfold pa. apply Rsum_ext. intros k Hk. apply in_seq in Hk. unfold ac. destruct (Nat.leb_spec k n); [reflexivity|lia].
Qed.
Definition nsq (z : C) : R := fst z * fst z + snd z * snd z.
Lemma hankel_poly x n : x <> 0 -> 
  let t := (Ci / RtoC (2 * x))%C in let S0 := sa t n (S n) in let S1 := sa t (S n) (S (S n)) in
  x ^ (2 * n) * nsq S0 = pa (x * x) n (S n) /\ x ^ (2 * S n) * nsq S1 = pa (x * x) (S n) (S (S n)) /\
  x ^ (2 * n + 3) * (snd S1 * fst S0 - fst S1 * snd S0) = qa (x * x) (S n) (S (S n)).
Proof.
  intros Hx t.
  assert (T : t = (0, / (2 * x))%R).
  { unfold t, Cdiv. rewrite Cinv_RtoC. apply injective_projections; unfold Ci, Cmult, RtoC; cbn [fst snd]; ring. }
  clearbody t. subst t.
  induction n as [|n IH].
  - unfold sa, pa, qa. cbn [seq Csum Rsum cpow]. 
    assert (E0 : ec 0 0 = 1) by apply ec_step0. assert (E1 : ec 1 0 = 1) by apply ec_step0.
    assert (E2 : ec 1 1 = 2) by (unfold ec; cbn; field). 
    assert (A0 : ac 0 0 = 1) by (unfold ac, bw_coeff; cbn; field). assert (A1 : ac 1 0 = 1) by (unfold ac, bw_coeff; cbn; field).
    assert (A2 : ac 1 1 = 1) by (unfold ac, bw_coeff; cbn; field).
    rewrite E0, E1, E2, A0, A1, A2. unfold nsq, Cplus, Cmult, RtoC. cbn [fst snd pow Nat.mul Nat.add INR]. 
    repeat split; field; auto.
  - destruct IH as (I0 & I1 & I2). cbv zeta in *. split; [exact I1|]. set (t := (0, / (2 * x))) in *.
    rewrite pa_step, (qa_step _ (S n)), <- I0, <- I1, <- I2, sa_step. rewrite !S_INR.
    set (S0 := sa t n (S n)). set (S1 := sa t (S n) (S (S n))). destruct S0 as [p0 q0], S1 as [p1 q1]. subst t.
    unfold nsq, Cplus, Cmult, RtoC. cbn [fst snd].
    replace (2 * S (S n))%nat with (4 + 2 * n)%nat by lia. replace (2 * S n)%nat with (2 + 2 * n)%nat by lia.
    replace (2 + 2 * n + 3)%nat with (5 + 2 * n)%nat by lia. replace (2 * n + 3)%nat with (3 + 2 * n)%nat by lia.
    cbn [Nat.add pow]. split; field; auto.
Qed.

(** ** Form factors *)
Lemma Cmod_nsq z : Cmod z * Cmod z = nsq z.
Proof. unfold Cmod, nsq. rewrite sqrt_sqrt; [cbn [pow]; ring|]. cbn [pow]. nra. Qed.
Lemma sa_hankel t n : sa t n (S n) = Csum (seq 0 (S n)) (fun k =>
      RtoC (INR (fact (n + k)) / (INR (fact k) * INR (fact (n - k)))) * cpow t k)%C.
Proof.
  unfold sa. apply Csum_ext. intros k Hk. apply in_seq in Hk. unfold ec. destruct (Nat.leb_spec k n); [reflexivity|lia].
Qed.
Lemma Cmod_ipow n : Cmod (cpow (- Ci)%C n) = 1.
Proof.
  induction n as [|n IH]; cbn [cpow]; [apply Cmod_1|]. rewrite Cmod_mult, IH, Cmod_opp.
  unfold Ci, Cmod. cbn [fst snd pow]. replace (0 * (0 * 1) + 1 * (1 * 1)) with 1 by ring. rewrite sqrt_1. ring.
Qed.
Lemma Cmod_phase x : Cmod (RtoC (cos x) + Ci * RtoC (sin x))%C = 1.
Proof.
  unfold Cmod, Cplus, Cmult, Ci, RtoC. cbn [fst snd]. 
  match goal with |- sqrt ?e = 1 => replace e with 1 end; [apply sqrt_1|].
  pose proof (sin2_cos2 x) as E. unfold Rsqr in E. cbn [pow]. nra.
Qed.
Lemma hankel_mod x n : 0 < x -> x ^ (2 * n) * (x * x * (Cmod (spherical_hankel n x) * Cmod (spherical_hankel n x))) = pa (x * x) n (S n).
Proof.
  intros Hx. pose proof (hankel_poly x n ltac:(lra)) as (H & _ & _). cbv zeta in H. rewrite <- H. f_equal.
  unfold spherical_hankel. rewrite <- sa_hankel. rewrite <- Cmod_nsq. unfold Cdiv. rewrite !Cmod_mult, Cmod_ipow, Cmod_phase.
  rewrite Cmod_inv by (apply RtoC_neq; lra). rewrite Cmod_R, Rabs_pos_eq by lra. field. lra.
Qed.
Lemma pa_pos y n : 0 <= y -> 0 < pa y n (S n).
Proof.
  intros Hy. destruct (bw_poly_pos n y Hy) as (z & Hz & E). rewrite bw_poly_real, <- pa_bw in E. apply RtoC_inj in E. lra.
Qed.
Lemma hankel_pos x n : 0 < x -> 0 < Cmod (spherical_hankel n x).
Proof.
  intros Hx. pose proof (hankel_mod x n Hx) as E. pose proof (pa_pos (x * x) n ltac:(nra)) as P.
  pose proof (Cmod_ge_0 (spherical_hankel n x)) as [G|G]; auto. rewrite <- G in E. lra.
Qed.
Lemma barrier_pos x n : 0 < x -> 0 < barrier n x.
Proof.
  intros Hx. unfold barrier. pose proof (hankel_pos 1 n ltac:(lra)). pose proof (hankel_pos x n Hx).
  apply Rdiv_lt_0_compat; auto. apply Rmult_lt_0_compat; auto.
Qed.
Lemma barrier_sq x n : 0 < x -> barrier n x * barrier n x = x ^ (2 * n) * pa 1 n (S n) / pa (x * x) n (S n).
Proof.
  intros Hx. pose proof (hankel_mod x n Hx) as E. pose proof (hankel_mod 1 n ltac:(lra)) as F. rewrite Rmult_1_r in F.
  rewrite <- E, <- F. rewrite pow1. unfold barrier. pose proof (hankel_pos x n Hx). pose proof (pow_lt x (2 * n) Hx). field.
  repeat split; lra.
Qed.
Lemma bw_squared_real x n : 0 <= x -> blatt_weisskopf_squared n (RtoC x) = RtoC (x ^ n * pa 1 n (S n) / pa x n (S n)).
Proof.
  intros Hx. unfold blatt_weisskopf_squared, Cdiv, Rdiv. rewrite !bw_poly_real, <- !pa_bw, cpow_real, Cinv_RtoC, <- !RtoC_mult. reflexivity.
Qed.
Lemma csqrt_real x : 0 <= x -> csqrt (RtoC (x * x)) = RtoC x.
Proof.
  intros Hx. rewrite csqrt_nonneg by nra. rewrite sqrt_square by auto. reflexivity.
Qed.
Lemma form_factor_barrier L s a b r : 0 <= a -> 0 <= b -> (a + b) * (a + b) < s -> 0 < r ->
  form_factor L (RtoC s) (RtoC a) (RtoC b) (RtoC r) = RtoC (barrier (Z.to_nat L) (decay_momentum s a b * r)).
Proof.
  intros Ha Hb Hs Hr. assert (S0 : 0 < s) by nra. destruct (rbreakup_sign s a b Ha Hb S0) as [_ Q]. specialize (Q Hs).
  set (n := Z.to_nat L). unfold form_factor. fold n. rewrite breakup_real, <- !RtoC_mult.
  assert (D : 0 < decay_momentum s a b) by (apply sqrt_lt_R0; exact Q).
  assert (E : rbreakup s a b = decay_momentum s a b * decay_momentum s a b) by (unfold decay_momentum; rewrite sqrt_sqrt; [reflexivity|apply Rlt_le; exact Q]).
  set (x := decay_momentum s a b * r). assert (X : 0 < x) by (apply Rmult_lt_0_compat; auto).
  replace (rbreakup s a b * (r * r)) with (x * x) by (rewrite E; unfold x; ring).
  rewrite bw_squared_real by nra. replace ((x * x) ^ n) with (x ^ (2 * n)) by (rewrite pow_mult; f_equal; ring).
  rewrite <- barrier_sq by auto. apply csqrt_real. apply Rlt_le, barrier_pos. auto.
Qed.

Lemma Rsum_le A (l : list A) f g : (forall k, In k l -> f k <= g k) -> Rsum l f <= Rsum l g.
Proof. induction l as [|k l IH]; intros H; cbn [Rsum]; [lra|]. pose proof (H k ltac:(auto with datatypes)). 
  pose proof (IH ltac:(intros; apply H; auto with datatypes)). lra. Qed.
Lemma pow_cross u v n k : 0 <= u -> u <= v -> (k <= n)%nat -> u ^ n * v ^ k <= v ^ n * u ^ k.
Proof.
  intros Hu Hv Hk. replace n with (k + (n - k))%nat by lia. rewrite !pow_add.
  pose proof (pow_incr u v (n - k) ltac:(lra)) as I. pose proof (pow_le u k Hu) as A. pose proof (pow_le v k ltac:(lra)) as B.
  replace (u ^ k * u ^ (n - k) * v ^ k) with ((u ^ k * v ^ k) * u ^ (n - k)) by ring.
  replace (v ^ k * v ^ (n - k) * u ^ k) with ((u ^ k * v ^ k) * v ^ (n - k)) by ring.
  apply Rmult_le_compat_l; auto. apply Rmult_le_pos; auto.
Qed.
Lemma pow_strict u v n : 0 <= u -> u < v -> (0 < n)%nat -> u ^ n < v ^ n.
Proof.
  intros Hu Hv Hn. destruct n as [|n]; [lia|]. clear Hn. induction n as [|n IH]; [cbn; lra|].
  change (u * u ^ S n < v * v ^ S n). pose proof (pow_le u (S n) Hu). nra.
Qed.
Lemma pa_mono u v n : 0 <= u -> u < v -> (0 < n)%nat -> u ^ n * pa v n (S n) < v ^ n * pa u n (S n).
Proof.
  intros Hu Hv Hn. rewrite !pa_bw, !Rsum_head. rewrite !Rmult_plus_distr_l. apply Rplus_lt_le_compat.
  - cbn [pow]. pose proof (bw_coeff_pos n 0). pose proof (pow_strict u v n Hu Hv Hn). nra.
  - rewrite <- !Rsum_scal_l. apply Rsum_le. intros k Hk. apply in_seq in Hk.
    pose proof (pow_cross u v n (S k) Hu ltac:(lra) ltac:(lia)) as C. pose proof (bw_coeff_pos n (S k)).
    replace (u ^ n * (bw_coeff n (S k) * v ^ S k)) with (bw_coeff n (S k) * (u ^ n * v ^ S k)) by ring.
    replace (v ^ n * (bw_coeff n (S k) * u ^ S k)) with (bw_coeff n (S k) * (v ^ n * u ^ S k)) by ring.
    apply Rmult_le_compat_l; lra.
Qed.
(** B_n^2 *)
Definition bsq (n : nat) (z : R) : R := z ^ n * pa 1 n (S n) / pa z n (S n).
Lemma bsq_mono n u v : 0 <= u -> u < v -> (0 < n)%nat -> 0 <= bsq n u < bsq n v.
Proof.
  intros Hu Hv Hn. pose proof (pa_pos u n Hu) as Pu. pose proof (pa_pos v n ltac:(lra)) as Pv. pose proof (pa_pos 1 n ltac:(lra)) as P1.
  pose proof (pa_mono u v n Hu Hv Hn) as M. unfold bsq. pose proof (pow_le u n Hu) as A. split.
  - apply Rle_mult_inv_pos; auto. apply Rmult_le_pos; lra.
  - apply Rmult_lt_reg_r with (pa u n (S n) * pa v n (S n)). { apply Rmult_lt_0_compat; auto. }
    replace (u ^ n * pa 1 n (S n) / pa u n (S n) * (pa u n (S n) * pa v n (S n))) with (pa 1 n (S n) * (u ^ n * pa v n (S n))) by (field; lra).
    replace (v ^ n * pa 1 n (S n) / pa v n (S n) * (pa u n (S n) * pa v n (S n))) with (pa 1 n (S n) * (v ^ n * pa u n (S n))) by (field; lra).
    apply Rmult_lt_compat_l; auto.
Qed.
Lemma bsq_zero n : (0 < n)%nat -> bsq n 0 = 0.
Proof. intros H. unfold bsq. rewrite pow_i by auto. unfold Rdiv. ring. Qed.
Lemma bsq_one n : bsq n 1 = 1.
Proof. unfold bsq. rewrite pow1. pose proof (pa_pos 1 n ltac:(lra)). field. lra. Qed.
Lemma form_factor_bsq L s a b r : 0 <= rbreakup s a b * (r * r) ->
  form_factor L (RtoC s) (RtoC a) (RtoC b) (RtoC r) = RtoC (sqrt (bsq (Z.to_nat L) (rbreakup s a b * (r * r)))).
Proof.
  intros H. unfold form_factor. rewrite breakup_real, <- !RtoC_mult, bw_squared_real by auto. rewrite csqrt_nonneg; auto.
  apply Rle_mult_inv_pos; [|apply pa_pos; auto]. apply Rmult_le_pos; [apply pow_le; auto|apply Rlt_le, pa_pos; lra].
Qed.
Lemma rbreakup_mono a b s t : 0 <= a -> 0 <= b -> 0 < s -> (a + b) * (a + b) <= s -> s < t -> rbreakup s a b < rbreakup t a b.
Proof.
  intros Ha Hb Hs Hab Hst. unfold rbreakup.
  set (A := (a + b) * (a + b)). set (B := (a - b) * (a - b)). fold A in Hab.
  assert (BA : B <= A) by (pose proof (Rmult_le_pos a b Ha Hb); unfold A, B; lra). assert (B0 : 0 <= B) by apply Rle_0_sqr.
  assert (T4 : 0 < 4 * s * t) by (repeat apply Rmult_lt_0_compat; lra). apply Rmult_lt_reg_r with (4 * s * t); auto.
  replace ((s - A) * (s - B) / (4 * s) * (4 * s * t)) with ((s - A) * (s - B) * t) by (field; lra).
  replace ((t - A) * (t - B) / (4 * t) * (4 * s * t)) with ((t - A) * (t - B) * s) by (field; lra).
  assert (0 < (t - s) * (s * t - A * B)); [|nra]. apply Rmult_lt_0_compat; [lra|].
  assert (A * B <= s * s) by (apply Rmult_le_compat; lra). assert (s * s < s * t) by nra. lra.
Qed.
(** C97 *)
Theorem c97_mono L a b r s t : (0 < L)%Z -> 0 <= a -> 0 <= b -> 0 < r -> 0 < s -> (a + b) * (a + b) <= s -> s < t ->
  exists y z, form_factor L (RtoC s) (RtoC a) (RtoC b) (RtoC r) = RtoC y /\ form_factor L (RtoC t) (RtoC a) (RtoC b) (RtoC r) = RtoC z /\
    0 <= y < z.
Proof.
  intros HL Ha Hb Hr Hs Hab Hst. pose proof (proj1 (rbreakup_sign s a b Ha Hb Hs) Hab) as Q. pose proof (rbreakup_mono a b s t Ha Hb Hs Hab Hst) as M.
  assert (R2 : 0 < r * r) by nra.
  assert (Z1 : 0 <= rbreakup s a b * (r * r)) by (apply Rmult_le_pos; lra).
  assert (Z2 : rbreakup s a b * (r * r) < rbreakup t a b * (r * r)) by (apply Rmult_lt_compat_r; lra).
  rewrite !form_factor_bsq by lra. do 2 eexists. split; [reflexivity|]. split; [reflexivity|].
  destruct (bsq_mono (Z.to_nat L) _ _ Z1 Z2 ltac:(lia)) as [B1 B2]. split; [apply sqrt_pos|]. apply sqrt_lt_1; lra.
Qed.
Theorem c97_threshold L a b r s : (0 < L)%Z -> s = (a + b) * (a + b) ->
  form_factor L (RtoC s) (RtoC a) (RtoC b) (RtoC r) = RtoC 0.
Proof.
  intros HL ->. assert (E : rbreakup ((a + b) * (a + b)) a b = 0) by (unfold rbreakup, Rdiv; ring).
  rewrite form_factor_bsq; rewrite E, Rmult_0_l; [|lra]. rewrite bsq_zero by lia. rewrite sqrt_0. reflexivity.
Qed.
Theorem c97_unit L a b r s : 0 <= a -> 0 <= b -> (a + b) * (a + b) < s -> decay_momentum s a b * r = 1 ->
  form_factor L (RtoC s) (RtoC a) (RtoC b) (RtoC r) = RtoC 1.
Proof.
  intros Ha Hb Hs H. assert (S0 : 0 < s) by nra. pose proof (proj2 (rbreakup_sign s a b Ha Hb S0) Hs) as Q.
  assert (E : rbreakup s a b = decay_momentum s a b * decay_momentum s a b) by (unfold decay_momentum; rewrite sqrt_sqrt; [reflexivity|apply Rlt_le; exact Q]).
  assert (F : rbreakup s a b * (r * r) = 1).
  { rewrite E. replace (decay_momentum s a b * decay_momentum s a b * (r * r)) with ((decay_momentum s a b * r) * (decay_momentum s a b * r)) by ring. rewrite H. ring. }
  rewrite form_factor_bsq; rewrite F; [|lra]. rewrite bsq_one, sqrt_1. reflexivity.
Qed.

Lemma form_factor_expr ev h s m1 m2 r L (xs x1 x2 xr : R) :
  ceval ev h s = RtoC xs -> ceval ev h m1 = RtoC x1 -> ceval ev h m2 = RtoC x2 -> ceval ev h r = RtoC xr ->
  0 <= x1 -> 0 <= x2 -> (x1 + x2) * (x1 + x2) < xs -> 0 < xr ->
  ceval ev h (CFormFactor s m1 m2 L r) = RtoC (barrier (Z.to_nat L) (decay_momentum xs x1 x2 * xr)).
Proof.
  intros Es E1 E2 Er H1 H2 H3 H4. cbn [ceval]. rewrite Es, E1, E2, Er. exact (form_factor_barrier L xs x1 x2 xr H1 H2 H3 H4).
Qed.
Lemma c97_example : (1 + 1) * (1 + 1) < 13 /\ decay_momentum 13 1 1 * 2 = 3 /\
  ceval (Env (fun _ => RtoC 0) (fun _ _ => RtoC 0)) (fun _ => 0%Z) (CFormFactor (CNum 13) (CNum 1) (CNum 1) 2 (CNum 2)) = RtoC (barrier 2 3).
Proof.
  assert (Q : decay_momentum 13 1 1 * 2 = 3).
  { unfold decay_momentum. replace ((13 - (1 + 1) * (1 + 1)) * (13 - (1 - 1) * (1 - 1)) / (4 * 13)) with ((3 / 2) * (3 / 2)) by field.
    rewrite sqrt_square by lra. field. }
  split; [lra|]. split; [exact Q|].
  assert (N : forall z, ceval (Env (fun _ => RtoC 0) (fun _ _ => RtoC 0)) (fun _ => 0%Z) (CNum z) = RtoC (IZR z)).
  { intros z. apply CNum_value. }
  rewrite (form_factor_expr _ _ _ _ _ _ 2 13 1 1 2) by (try apply N; lra). rewrite Q. reflexivity.
Qed.
