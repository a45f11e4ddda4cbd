(** Orthonormality of the Clebsch-Gordan coefficients, from Racah's formula.  Racah's sum is a
    finite difference (a discrete Rodrigues formula), so that summation by parts applies. *)
From Coq Require Import ZArith List Bool Reals Arith Lra Lia Permutation.
From Verif Require Import Prelude Spin Sums Wigner CG WignerFacts CGFacts.
Import ListNotations.
Local Open Scope R_scope.

(** ** Reciprocal factorials, 0 for negative integers *)
Definition rf (z : Z) : R := if (z <? 0)%Z then 0 else / fz z.
Lemma fz_pos z : 0 < fz z.
Proof. apply fact_pos. Qed.
Lemma fz_neq z : fz z <> 0.
Proof. pose proof (fz_pos z). lra. Qed.
Lemma fz_succ z : (0 <= z)%Z -> fz (z + 1) = IZR (z + 1) * fz z.
Proof.
  intros H. unfold fz. replace (Z.to_nat (z + 1)) with (S (Z.to_nat z)) by lia.
  rewrite fact_simpl, mult_INR. f_equal. rewrite INR_IZR_INZ. f_equal. lia.
Qed.
Lemma rf_pred z : rf (z - 1) = IZR z * rf z.
Proof.
  unfold rf. destruct (Z.ltb_spec z 0), (Z.ltb_spec (z - 1) 0); try lia; try ring.
  - replace z with 0%Z by lia. ring.
  - replace (fz z) with (fz (z - 1 + 1)) by (f_equal; lia). rewrite fz_succ by lia.
    replace (z - 1 + 1)%Z with z by lia. field. split; [apply fz_neq|]. apply not_0_IZR. lia.
Qed.
Lemma rf_neg z : (z < 0)%Z -> rf z = 0.
Proof. intros H. unfold rf. destruct (Z.ltb_spec z 0); [reflexivity|lia]. Qed.
Lemma rf_nonneg z : (0 <= z)%Z -> rf z = / fz z.
Proof. intros H. unfold rf. destruct (Z.ltb_spec z 0); [lia|reflexivity]. Qed.
Lemma fz_0 : fz 0 = 1.
Proof. reflexivity. Qed.

(** beta n k = 1/(k! (n-k)!) *)
Definition beta (n k : Z) : R := rf k * rf (n - k).
Lemma beta_step n k : IZR (n + 1) * beta (n + 1) k = beta n k + beta n (k - 1).
Proof.
  unfold beta. rewrite rf_pred. replace (n - (k - 1))%Z with (n + 1 - k)%Z by lia.
  replace (n - k)%Z with (n + 1 - k - 1)%Z by lia. rewrite (rf_pred (n + 1 - k)).
  rewrite (minus_IZR (n + 1) k). ring.
Qed.
Lemma beta_out n k : (k < 0 \/ n < k)%Z -> beta n k = 0.
Proof. intros [H|H]; unfold beta; [rewrite (rf_neg k)|rewrite (rf_neg (n - k))]; try ring; lia. Qed.
Lemma beta_00 : beta 0 0 = 1.
Proof. unfold beta, rf. simpl. rewrite fz_0. field. Qed.

(** Sums over 0..n *)
Definition S0 (n : nat) (f : Z -> R) : R := Rsum (seq 0 (S n)) (fun k => f (Z.of_nat k)).
Lemma S0_ext n f g : (forall x, (0 <= x <= Z.of_nat n)%Z -> f x = g x) -> S0 n f = S0 n g.
Proof. intros H. apply Rsum_ext. intros k Hk. apply seq_in in Hk. apply H. lia. Qed.
Lemma S0_S n f : S0 (S n) f = S0 n f + f (Z.of_nat (S n)).
Proof. unfold S0. rewrite (seq_S (S n) 0), Rsum_app. cbn [Rsum]. rewrite Nat.add_0_l. ring. Qed.
Lemma S0_0 f : S0 0 f = f 0%Z.
Proof. unfold S0. simpl. lra. Qed.
Lemma S0_plus n f g : S0 n (fun x => f x + g x) = S0 n f + S0 n g.
Proof. apply Rsum_plus. Qed.
Lemma S0_scal n c f : S0 n (fun x => c * f x) = c * S0 n f.
Proof. apply Rsum_scal_l. Qed.
Lemma S0_zero n f : (forall x, (0 <= x <= Z.of_nat n)%Z -> f x = 0) -> S0 n f = 0.
Proof. intros H. apply Rsum_zero. intros k Hk. apply seq_in in Hk. apply H. lia. Qed.
(** shift of the summation index *)
Lemma S0_shift n f : S0 (S n) f = f 0%Z + S0 n (fun x => f (x + 1)%Z).
Proof.
  induction n; [rewrite S0_S, !S0_0; simpl; reflexivity|].
  rewrite S0_S, IHn, (S0_S n). replace (Z.of_nat (S (S n))) with (Z.of_nat (S n) + 1)%Z by lia. ring.
Qed.

(** Vandermonde *)
Lemma vandermonde n b u : (0 <= b)%Z ->
  S0 n (fun t => beta (Z.of_nat n) t * beta b (u - t))
  = fz (Z.of_nat n + b) * rf (Z.of_nat n) * rf b * beta (Z.of_nat n + b) u.
Proof.
  intros Hb. revert u. induction n; intros u.
  - rewrite S0_0. simpl Z.of_nat. rewrite beta_00, Z.sub_0_r, Z.add_0_l.
    rewrite (rf_nonneg b Hb), (rf_nonneg 0) by lia. rewrite fz_0. field. apply fz_neq.
  - set (N := Z.of_nat n) in *. replace (Z.of_nat (S n)) with (N + 1)%Z by (unfold N; lia).
    assert (HN : IZR (N + 1) <> 0) by (apply not_0_IZR; unfold N; lia).
    apply (Rmult_eq_reg_l (IZR (N + 1))); [|exact HN].
    rewrite <- S0_scal.
    rewrite (S0_ext _ _ (fun t => beta N t * beta b (u - t) + beta N (t - 1) * beta b (u - t))).
    2:{ intros t _. rewrite <- Rmult_assoc, beta_step. ring. }
    rewrite S0_plus, S0_S, (S0_shift _ (fun t => beta N (t - 1) * _)).
    rewrite (beta_out N (Z.of_nat (S n))) by (unfold N; lia).
    rewrite (beta_out N (0 - 1)) by lia.
    rewrite (S0_ext _ (fun x => beta N (x + 1 - 1) * beta b (u - (x + 1)))
               (fun x => beta N x * beta b ((u - 1) - x))).
    2:{ intros t _. replace (t + 1 - 1)%Z with t by lia. replace (u - (t + 1))%Z with (u - 1 - t)%Z by lia. reflexivity. }
    rewrite !IHn. replace (N + 1 + b)%Z with (N + b + 1)%Z by lia.
    rewrite (fz_succ (N + b)) by (unfold N; lia).
    assert (E := beta_step (N + b) u).
    assert (F : IZR (N + 1) * rf (N + 1) = rf N).
    { rewrite <- rf_pred. f_equal. lia. }
    transitivity (fz (N + b) * rf N * rf b * (beta (N + b) u + beta (N + b) (u - 1))); [ring|].
    rewrite <- E. rewrite <- F. ring.
Qed.

(** ** Finite differences *)
Definition nab (f : Z -> R) (t : Z) : R := f t - f (t - 1)%Z.
Definition del (p : Z -> R) (t : Z) : R := p (t + 1)%Z - p t.
Fixpoint nabs (i : nat) (f : Z -> R) : Z -> R := match i with O => f | S i => nab (nabs i f) end.
Fixpoint dels (i : nat) (p : Z -> R) : Z -> R := match i with O => p | S i => dels i (del p) end.

Lemma by_parts_aux n f p : S0 n (fun t => nab f t * p t + f t * del p t)
  = f (Z.of_nat n) * p (Z.of_nat n + 1)%Z - f (-1)%Z * p 0%Z.
Proof.
  induction n.
  - rewrite S0_0. unfold nab, del. simpl. ring.
  - rewrite S0_S, IHn. unfold nab, del.
    replace (Z.of_nat (S n) - 1)%Z with (Z.of_nat n) by lia.
    replace (Z.of_nat (S n)) with (Z.of_nat n + 1)%Z by lia. ring.
Qed.
Lemma by_parts n f p : f (-1)%Z = 0 -> f (Z.of_nat n) = 0 ->
  S0 n (fun t => nab f t * p t) = - S0 n (fun t => f t * del p t).
Proof.
  intros H1 H2. pose proof (by_parts_aux n f p) as E. rewrite S0_plus, H1, H2 in E. lra.
Qed.
Lemma nabs_support f hi i : (forall t, (t < 0 \/ hi < t)%Z -> f t = 0) ->
  forall t, (t < 0 \/ hi + Z.of_nat i < t)%Z -> nabs i f t = 0.
Proof.
  intros H. induction i; intros t Ht; cbn [nabs].
  - apply H. lia.
  - unfold nab. rewrite !IHi; lra || lia.
Qed.
Lemma by_parts_iter n f i p : (forall t, (t < 0 \/ Z.of_nat n - Z.of_nat i < t)%Z -> f t = 0) ->
  S0 n (fun t => nabs i f t * p t) = (-1) ^ i * S0 n (fun t => f t * dels i p t).
Proof.
  intros H. 
  assert (G : forall j, (j <= i)%nat -> forall p, 
     S0 n (fun t => nabs j f t * p t) = (-1) ^ j * S0 n (fun t => f t * dels j p t)).
  { induction j; intros Hj p'; [cbn [nabs dels pow]; ring|].
    cbn [nabs dels]. rewrite by_parts.
    - rewrite IHj by lia. simpl pow. ring.
    - apply (nabs_support f _ j H). lia.
    - apply (nabs_support f _ j H). lia. }
  apply G. lia.
Qed.

(** The explicit form of an iterated difference *)
Lemma nabs_explicit i f x : nabs i f x
  = fz (Z.of_nat i) * S0 i (fun k => (-1) ^ Z.to_nat k * beta (Z.of_nat i) k * f (x - k)%Z).
Proof.
  revert x. induction i; intros x.
  - rewrite S0_0. cbn [nabs Z.of_nat]. rewrite beta_00, fz_0, Z.sub_0_r. simpl. ring.
  - cbn [nabs]. unfold nab. rewrite !IHi.
    set (N := Z.of_nat i) in *. replace (Z.of_nat (S i)) with (N + 1)%Z by (unfold N; lia).
    rewrite fz_succ by (unfold N; lia). rewrite (Rmult_comm (IZR (N + 1))), Rmult_assoc, <- (S0_scal (S i) (IZR (N + 1))).
    rewrite (S0_ext (S i) _ (fun k => (-1) ^ Z.to_nat k * beta N k * f (x - k)%Z
                                   + (-1) ^ Z.to_nat k * beta N (k - 1) * f (x - k)%Z)).
    2:{ intros k _. transitivity ((-1) ^ Z.to_nat k * (IZR (N + 1) * beta (N + 1) k) * f (x - k)%Z); [ring|].
        rewrite beta_step. ring. }
    rewrite S0_plus, S0_S, (S0_shift _ (fun k => _ * beta N (k - 1) * _)).
    rewrite (beta_out N (Z.of_nat (S i))) by (unfold N; lia).
    rewrite (beta_out N (0 - 1)) by lia.
    rewrite (S0_ext i (fun x0 => (-1) ^ Z.to_nat (x0 + 1) * beta N (x0 + 1 - 1) * f (x - (x0 + 1))%Z)
       (fun k => (-1) * ((-1) ^ Z.to_nat k * beta N k * f (x - 1 - k)%Z))).
    2:{ intros k Hk. replace (Z.to_nat (k + 1)) with (S (Z.to_nat k)) by lia.
        replace (k + 1 - 1)%Z with k by lia. replace (x - (k + 1))%Z with (x - 1 - k)%Z by lia. simpl pow. ring. }
    rewrite S0_scal. ring.
Qed.

(** ** Polynomials of degree at most [d] with coefficient [c] of x^d *)
Fixpoint lead (d : nat) (c : R) (p : Z -> R) : Prop :=
  match d with
  | O => forall x, p x = c
  | S d => exists a q, lead d c q /\ forall x, p x = a + IZR x * q x
  end.
Lemma lead_ext d c c' p p' : lead d c p -> c = c' -> (forall x, p x = p' x) -> lead d c' p'.
Proof.
  intros H <- E. destruct d; simpl in *.
  - intros x. rewrite <- E. apply H.
  - destruct H as (a & q & L & H). exists a, q. split; [exact L|]. intros x. rewrite <- E. apply H.
Qed.
Lemma lead_plus d : forall c c' p p', lead d c p -> lead d c' p' -> lead d (c + c') (fun x => p x + p' x).
Proof.
  induction d; simpl; intros c c' p p' H H'.
  - intros x. rewrite H, H'. reflexivity.
  - destruct H as (a & q & L & H), H' as (a' & q' & L' & H').
    exists (a + a'), (fun x => q x + q' x). split; [auto|]. intros x. rewrite H, H'. ring.
Qed.
Lemma lead_scal d : forall c k p, lead d c p -> lead d (k * c) (fun x => k * p x).
Proof.
  induction d; simpl; intros c k p H.
  - intros x. rewrite H. reflexivity.
  - destruct H as (a & q & L & H). exists (k * a), (fun x => k * q x). split; [auto|]. intros x. rewrite H. ring.
Qed.
Lemma lead_raise d : forall c p, lead d c p -> lead (S d) 0 p.
Proof.
  induction d; intros c p H.
  - exists c, (fun _ => 0). simpl in *. split; [reflexivity|]. intros x. rewrite H. ring.
  - destruct H as (a & q & L & H). exists a, q. split; [|exact H]. exact (IHd _ _ L).
Qed.
Lemma lead_mulx d c p : lead d c p -> lead (S d) c (fun x => IZR x * p x).
Proof. intros H. exists 0, p. split; [exact H|]. intros x. ring. Qed.
Lemma lead_shift d s : forall c p, lead d c p -> lead d c (fun x => p (x + s)%Z).
Proof.
  induction d; intros c p H.
  - intros x. apply H.
  - destruct H as (a & q & L & H). 
    apply (lead_ext _ (c + 0) _ (fun x => IZR x * q (x + s)%Z + (a + IZR s * q (x + s)%Z))).
    + apply lead_plus; [apply lead_mulx; auto|].
      assert (A : lead (S d) 0 (fun x => IZR s * q (x + s)%Z)).
      { apply (lead_raise d (IZR s * c)). apply (lead_scal d c (IZR s) (fun x => q (x + s)%Z)). auto. }
      destruct A as (a0 & q0 & L0 & H0). exists (a + a0), q0. split; [exact L0|]. intros x. rewrite H0. ring.
    + ring.
    + intros x. rewrite H, plus_IZR. ring.
Qed.
Lemma lead_nab d : forall c p, lead (S d) c p -> lead d (INR (S d) * c) (nab p).
Proof.
  induction d; intros c p (a & q & L & H).
  - simpl in *. intros x. unfold nab. rewrite !H, !L, minus_IZR. ring.
  - apply (lead_ext _ (INR (S d) * c + c) _ (fun x => IZR x * nab q x + q (x + -1)%Z)).
    + apply lead_plus; [apply lead_mulx; auto|apply lead_shift; auto].
    + rewrite (S_INR (S d)). ring.
    + intros x. unfold nab. rewrite !H, minus_IZR. replace (x + -1)%Z with (x - 1)%Z by lia. ring.
Qed.
Lemma lead_del d c p : lead (S d) c p -> lead d (INR (S d) * c) (del p).
Proof.
  intros H. apply (lead_ext _ _ _ (fun x => nab p (x + 1)%Z)) with (2 := eq_refl).
  - apply lead_shift, lead_nab, H.
  - intros x. unfold nab, del. replace (x + 1 - 1)%Z with x by lia. reflexivity.
Qed.
Lemma del_const c p : lead 0 c p -> lead 0 0 (del p).
Proof. intros H x. simpl in H. unfold del. rewrite !H. ring. Qed.
Lemma dels_lead d : forall c p, lead d c p -> forall x, dels d p x = INR (fact d) * c.
Proof.
  induction d; intros c p H x.
  - simpl in *. rewrite H. ring.
  - cbn [dels]. rewrite (IHd (INR (S d) * c)) by (apply lead_del; exact H).
    rewrite fact_simpl, mult_INR. ring.
Qed.
Lemma dels_low d : forall c p i, lead d c p -> (d < i)%nat -> forall x, dels i p x = 0.
Proof.
  induction d; intros c p i H Hi x; (destruct i; [lia|]); cbn [dels].
  - assert (Z0 : forall i q, lead 0 0 q -> dels i q x = 0).
    { induction i0; intros q Hq; [apply Hq|]. cbn [dels]. apply IHi0. eapply del_const; eauto. }
    apply Z0. eapply del_const; eauto.
  - eapply IHd; [apply lead_del; exact H|lia].
Qed.

(** ** Hahn polynomials *)
Section Hahn.
  Variables a b dl : Z.
  Definition g (k t : Z) : R := rf t * rf (t + dl) * rf (a - k - t) * rf (b - dl - k - t).
  Lemma g_up k t : g (k + 1) t = g k t * (IZR (a - k - t) * IZR (b - dl - k - t)).
  Proof.
    unfold g. replace (a - (k + 1) - t)%Z with (a - k - t - 1)%Z by lia.
    replace (b - dl - (k + 1) - t)%Z with (b - dl - k - t - 1)%Z by lia.
    rewrite (rf_pred (a - k - t)), (rf_pred (b - dl - k - t)). ring.
  Qed.
  Lemma g_up_pred k t : g (k + 1) (t - 1) = g k t * (IZR t * IZR (t + dl)).
  Proof.
    unfold g. replace (a - (k + 1) - (t - 1))%Z with (a - k - t)%Z by lia.
    replace (b - dl - (k + 1) - (t - 1))%Z with (b - dl - k - t)%Z by lia.
    replace (t - 1 + dl)%Z with (t + dl - 1)%Z by lia.
    rewrite (rf_pred t), (rf_pred (t + dl)). ring.
  Qed.
  Fixpoint hahn (n : Z) (i : nat) : Z -> R :=
    match i with
    | O => fun _ => 1
    | S i => let k := (n - 1 - Z.of_nat i)%Z in fun t =>
        IZR (a - k - t) * IZR (b - dl - k - t) * hahn n i t - IZR t * IZR (t + dl) * hahn n i (t - 1)%Z
    end.
  Lemma nabs_hahn n i t : nabs i (g n) t = g (n - Z.of_nat i) t * hahn n i t.
  Proof.
    revert t. induction i; intros t.
    - cbn [nabs hahn]. rewrite Z.sub_0_r. ring.
    - cbn [nabs hahn]. unfold nab. rewrite !IHi.
      replace (n - Z.of_nat i)%Z with (n - 1 - Z.of_nat i + 1)%Z by lia.
      rewrite g_up, g_up_pred. replace (n - Z.of_nat (S i))%Z with (n - 1 - Z.of_nat i)%Z by lia. ring.
  Qed.
  Fixpoint hcoef (A : Z) (i : nat) : R :=
    match i with O => 1 | S i => hcoef A i * (- IZR (A + 2 + Z.of_nat i)) end.
  Lemma hahn_lead n i : lead i (hcoef (a + b - 2 * n) i) (hahn n i).
  Proof.
    induction i; [simpl; reflexivity|].
    cbn [hahn hcoef]. set (k := (n - 1 - Z.of_nat i)%Z). set (c := hcoef _ i) in *. set (h := hahn n i) in *.
    assert (N : lead i (INR i * c) (fun t => IZR t * nab h t)).
    { destruct i.
      - simpl in IHi. intros x. unfold nab. rewrite !IHi. simpl. ring.
      - apply lead_mulx. apply lead_nab. exact IHi. }
    assert (M : lead i ((INR i * c + - IZR (a + b - dl - 2 * k) * c) + - IZR dl * c) (fun t =>
        (IZR t * nab h t + - IZR (a + b - dl - 2 * k) * h t) + - IZR dl * h (t + -1)%Z)).
    { apply lead_plus; [apply lead_plus; [exact N|]|].
      - apply (lead_scal i c _ h). exact IHi.
      - apply (lead_scal i c _ (fun t => h (t + -1)%Z)). apply lead_shift. exact IHi. }
    apply lead_mulx in M.
    assert (K : lead (S i) 0 (fun t => IZR (a - k) * IZR (b - dl - k) * h t)).
    { apply (lead_raise i (IZR (a - k) * IZR (b - dl - k) * c)). apply (lead_scal i c _ h). exact IHi. }
    pose proof (lead_plus _ _ _ _ _ M K) as F. eapply lead_ext; [exact F| |].
    - unfold k. rewrite INR_IZR_INZ. repeat rewrite ?minus_IZR, ?plus_IZR, ?mult_IZR. ring.
    - intros t. unfold nab. replace (t + -1)%Z with (t - 1)%Z by lia.
      repeat rewrite ?minus_IZR, ?plus_IZR, ?mult_IZR. ring.
  Qed.
  Lemma hcoef_fact A n : (0 <= A)%Z -> hcoef A n = (-1) ^ n * fz (A + 1 + Z.of_nat n) / fz (A + 1).
  Proof.
    intros HA. induction n; cbn [hcoef].
    - replace (A + 1 + Z.of_nat 0)%Z with (A + 1)%Z by lia. simpl. field. apply fz_neq.
    - rewrite IHn. replace (A + 1 + Z.of_nat (S n))%Z with (A + 1 + Z.of_nat n + 1)%Z by lia.
      rewrite (fz_succ (A + 1 + Z.of_nat n)) by lia. replace (A + 2 + Z.of_nat n)%Z with (A + 1 + Z.of_nat n + 1)%Z by lia.
      simpl pow. field. apply fz_neq.
  Qed.
  Lemma g_out k t : (t < 0 \/ a - k < t)%Z -> g k t = 0.
  Proof.
    intros [H|H]; unfold g; [rewrite (rf_neg t)|rewrite (rf_neg (a - k - t))]; ring || lia.
  Qed.
  (** Orthogonality *)
  Lemma hahn_orth n n' : (0 <= a)%Z -> (n' < n)%nat -> 
    S0 (Z.to_nat a) (fun t => nabs n (g (Z.of_nat n)) t * hahn (Z.of_nat n') n' t) = 0.
  Proof.
    intros Ha Hn. rewrite by_parts_iter.
    - rewrite S0_zero; [ring|]. intros t _. rewrite (dels_low n' _ _ n (hahn_lead (Z.of_nat n') n') Hn). ring.
    - intros t Ht. apply g_out. lia.
  Qed.
  Lemma g_sum k : (0 <= k <= a)%Z -> (k <= b)%Z ->
    S0 (Z.to_nat a) (g k) = fz (a + b - 2 * k) * rf (a - k) * rf (b - k) * rf (b - dl - k) * rf (a + dl - k).
  Proof.
    intros Hk Hb.
    assert (E : forall m, (Z.to_nat (a - k) <= m)%nat -> S0 m (g k) = S0 (Z.to_nat (a - k)) (g k)).
    { induction 1; [reflexivity|]. rewrite S0_S, IHle. rewrite g_out by lia. ring. }
    rewrite (E (Z.to_nat a)) by lia.
    pose proof (vandermonde (Z.to_nat (a - k)) (b - k) (b - dl - k) ltac:(lia)) as V.
    rewrite Z2Nat.id in V by lia.
    transitivity (S0 (Z.to_nat (a - k)) (fun t => beta (a - k) t * beta (b - k) (b - dl - k - t))).
    - apply S0_ext. intros t _. unfold g, beta. 
      replace (b - k - (b - dl - k - t))%Z with (t + dl)%Z by lia. ring.
    - rewrite V. unfold beta. replace (a - k + (b - k))%Z with (a + b - 2 * k)%Z by lia.
      replace (a + b - 2 * k - (b - dl - k))%Z with (a + dl - k)%Z by lia. ring.
  Qed.
  Lemma hahn_norm n : (0 <= Z.of_nat n <= a)%Z -> (Z.of_nat n <= b)%Z ->
    S0 (Z.to_nat a) (fun t => nabs n (g (Z.of_nat n)) t * hahn (Z.of_nat n) n t)
    = fz (Z.of_nat n) * (fz (a + b - Z.of_nat n + 1) / fz (a + b - 2 * Z.of_nat n + 1))
      * (fz (a + b - 2 * Z.of_nat n) * rf (a - Z.of_nat n) * rf (b - Z.of_nat n) * rf (b - dl - Z.of_nat n) * rf (a + dl - Z.of_nat n)).
  Proof.
    intros Hn Hb. rewrite by_parts_iter by (intros t Ht; apply g_out; lia).
    rewrite (S0_ext _ _ (fun t => (INR (fact n) * hcoef (a + b - 2 * Z.of_nat n) n) * g (Z.of_nat n) t)).
    2:{ intros t _. rewrite (dels_lead n _ _ (hahn_lead (Z.of_nat n) n)). ring. }
    rewrite S0_scal, g_sum by lia. rewrite hcoef_fact by lia.
    replace (a + b - 2 * Z.of_nat n + 1 + Z.of_nat n)%Z with (a + b - Z.of_nat n + 1)%Z by lia.
    replace (INR (fact n)) with (fz (Z.of_nat n)) by (unfold fz; rewrite Nat2Z.id; reflexivity).
    assert (P : (-1) ^ n * (-1) ^ n = 1).
    { rewrite <- pow_add. replace (n + n)%nat with (2 * n)%nat by lia. apply pow_1_even. }
    transitivity (((-1) ^ n * (-1) ^ n) * (fz (Z.of_nat n) * (fz (a + b - Z.of_nat n + 1) / fz (a + b - 2 * Z.of_nat n + 1))
      * (fz (a + b - 2 * Z.of_nat n) * rf (a - Z.of_nat n) * rf (b - Z.of_nat n) * rf (b - dl - Z.of_nat n) * rf (a + dl - Z.of_nat n)))).
    - unfold Rdiv. ring.
    - rewrite P. ring.
  Qed.
End Hahn.

(** ** Racah's formula as a finite difference *)
Lemma racah_g j1 j2 n x dl k : 
  racah_term j1 (j1 - 2 * x) j2 (2 * (x + dl) - j2) (j1 + j2 - 2 * n) k
  = (-1) ^ k * beta n (Z.of_nat k) * g j1 j2 dl n (x - Z.of_nat k).
Proof.
  unfold racah_term, beta, g.
  replace (j1 + j2 - (j1 + j2 - 2 * n))%Z with (2 * n)%Z by lia.
  replace (j1 - (j1 - 2 * x))%Z with (2 * x)%Z by lia.
  replace (j2 + (2 * (x + dl) - j2))%Z with (2 * (x + dl))%Z by lia.
  replace (j1 + j2 - 2 * n - j2 + (j1 - 2 * x))%Z with (2 * (j1 - n - x))%Z by lia.
  replace (j1 + j2 - 2 * n - j1 - (2 * (x + dl) - j2))%Z with (2 * (j2 - dl - n - x))%Z by lia.
  rewrite !half_2. set (z := Z.of_nat k).
  replace (x - z + dl)%Z with (x + dl - z)%Z by lia.
  replace (j1 - n - (x - z))%Z with (j1 - n - x + z)%Z by lia.
  replace (j2 - dl - n - (x - z))%Z with (j2 - dl - n - x + z)%Z by lia.
  rewrite (rf_nonneg z) by (unfold z; lia).
  destruct (Z.leb_spec 0 (n - z)); cbn [andb]; [|rewrite (rf_neg (n - z)) by lia; ring].
  destruct (Z.leb_spec 0 (x - z)); cbn [andb]; [|rewrite (rf_neg (x - z)) by lia; ring].
  destruct (Z.leb_spec 0 (x + dl - z)); cbn [andb]; [|rewrite (rf_neg (x + dl - z)) by lia; ring].
  destruct (Z.leb_spec 0 (j1 - n - x + z)); cbn [andb]; [|rewrite (rf_neg (j1 - n - x + z)) by lia; ring].
  destruct (Z.leb_spec 0 (j2 - dl - n - x + z)); cbn [andb]; [|rewrite (rf_neg (j2 - dl - n - x + z)) by lia; ring].
  rewrite !rf_nonneg by lia. field. repeat split; apply fz_neq.
Qed.

Section Orth.
  Variables j1 j2 dl : Z.
  Hypothesis J1 : (0 <= j1)%Z.
  Hypothesis J2 : (0 <= j2)%Z.
  Definition cgx (n x : Z) : R := cg j1 (j1 - 2 * x) j2 (2 * (x + dl) - j2) (j1 + j2 - 2 * n) (j1 - j2 + 2 * dl).
  (** the coupled spin j1 + j2 - n is possible, and has the projection *)
  Definition okn (n : Z) : Prop := (0 <= n <= j1 /\ n <= j2 /\ 0 <= j1 - n + dl /\ 0 <= j2 - n - dl)%Z.
  Definition K (n : Z) : R := IZR (j1 + j2 - 2 * n + 1) * fz (j1 - n) * fz (j2 - n) * fz n
     / fz (j1 + j2 - n + 1) * (fz (j1 - n + dl) * fz (j2 - n - dl)).
  Definition w (x : Z) : R := fz x * fz (j1 - x) * fz (x + dl) * fz (j2 - dl - x).
  Lemma K_pos n : okn n -> 0 < K n.
  Proof.
    intros (? & ? & ? & ?). unfold K. assert (0 < IZR (j1 + j2 - 2 * n + 1)) by (apply IZR_lt; lia).
    repeat apply Rmult_lt_0_compat; auto using fz_pos. apply Rinv_0_lt_compat, fz_pos.
  Qed.
  Lemma w_pos x : 0 < w x.
  Proof. unfold w. repeat apply Rmult_lt_0_compat; apply fz_pos. Qed.
  Lemma even_diff a b : a = (2 * b)%Z -> Z.even a = true.
  Proof. intros ->. rewrite Z.even_mul. reflexivity. Qed.
  Lemma cgx_couples n x : okn n -> (0 <= x <= j1)%Z ->
    cg_couples j1 (j1 - 2 * x) j2 (2 * (x + dl) - j2) (j1 + j2 - 2 * n) (j1 - j2 + 2 * dl)
    = ((0 <=? x + dl) && (x + dl <=? j2))%Z%bool.
  Proof.
    intros (? & ? & ? & ?) Hx. apply eq_true_iff_eq. rewrite couples_spec, !is_projection_spec, andb_true_iff, !Z.leb_le.
    split; [intuition lia|]. intros Hd.
    repeat split; try lia.
    - apply (even_diff _ x). lia.
    - apply (even_diff _ (j2 - x - dl)). lia.
    - apply (even_diff _ (j2 - n - dl)). lia.
    - apply (even_diff _ n). lia.
  Qed.
  Lemma cgx_form n x : okn (Z.of_nat n) -> (0 <= x <= j1)%Z ->
    cgx (Z.of_nat n) x = if ((0 <=? x + dl) && (x + dl <=? j2))%Z%bool
      then sqrt (K (Z.of_nat n)) * sqrt (w x) * (nabs n (g j1 j2 dl (Z.of_nat n)) x / fz (Z.of_nat n)) else 0.
  Proof.
    intros On Hx. unfold cgx, cg. rewrite cgx_couples by auto.
    destruct ((0 <=? x + dl) && (x + dl <=? j2))%Z%bool eqn:E; [|reflexivity].
    apply andb_true_iff in E. rewrite !Z.leb_le in E. destruct On as (? & ? & ? & ?). set (N := Z.of_nat n) in *.
    assert (SU : Rsum (seq 0 (S (Z.to_nat ((j1 + j2 - (j1 + j2 - 2 * N)) / 2))))
        (racah_term j1 (j1 - 2 * x) j2 (2 * (x + dl) - j2) (j1 + j2 - 2 * N))
      = nabs n (g j1 j2 dl N) x / fz N).
    { replace (j1 + j2 - (j1 + j2 - 2 * N))%Z with (2 * N)%Z by lia. rewrite half_2.
      unfold N at 1. rewrite Nat2Z.id.
      rewrite (Rsum_ext _ _ _ (fun k _ => racah_g j1 j2 N x dl k)).
      rewrite nabs_explicit. fold N. 
      replace (S0 n (fun k : Z => (-1) ^ Z.to_nat k * beta N k * g j1 j2 dl N (x - k)))
        with (Rsum (seq 0 (S n)) (fun k => (-1) ^ k * beta N (Z.of_nat k) * g j1 j2 dl N (x - Z.of_nat k))).
      - field. apply fz_neq.
      - unfold S0. apply Rsum_ext. intros k _. rewrite Nat2Z.id. reflexivity. }
    rewrite SU. clear SU.
    replace (j1 + j2 - 2 * N + j1 - j2)%Z with (2 * (j1 - N))%Z by lia.
    replace (j1 + j2 - 2 * N - j1 + j2)%Z with (2 * (j2 - N))%Z by lia.
    replace (j1 + j2 - (j1 + j2 - 2 * N))%Z with (2 * N)%Z by lia.
    replace (j1 + j2 + (j1 + j2 - 2 * N))%Z with (2 * (j1 + j2 - N))%Z by lia.
    replace (j1 + j2 - 2 * N + (j1 - j2 + 2 * dl))%Z with (2 * (j1 - N + dl))%Z by lia.
    replace (j1 + j2 - 2 * N - (j1 - j2 + 2 * dl))%Z with (2 * (j2 - N - dl))%Z by lia.
    replace (j1 - (j1 - 2 * x))%Z with (2 * x)%Z by lia.
    replace (j1 + (j1 - 2 * x))%Z with (2 * (j1 - x))%Z by lia.
    replace (j2 - (2 * (x + dl) - j2))%Z with (2 * (j2 - dl - x))%Z by lia.
    replace (j2 + (2 * (x + dl) - j2))%Z with (2 * (x + dl))%Z by lia.
    rewrite !half_2. f_equal.
    rewrite <- sqrt_mult_alt, <- sqrt_mult_alt.
    - f_equal. unfold K, w. field. apply fz_neq.
    - left. apply K_pos. repeat split; lia.
    - apply Rmult_le_pos; [|left; apply Rinv_0_lt_compat, fz_pos].
      repeat apply Rmult_le_pos; try (left; apply fz_pos). apply IZR_le. lia.
  Qed.
  Lemma g0_w x : (0 <= x <= j1)%Z -> (0 <= x + dl <= j2)%Z -> g j1 j2 dl 0 x * w x = 1.
  Proof.
    intros H1 H2. unfold g, w. rewrite !rf_nonneg by lia.
    rewrite !Z.sub_0_r. field. repeat split; apply fz_neq.
  Qed.
  Lemma cgx_prod n n' x : okn (Z.of_nat n) -> okn (Z.of_nat n') -> (0 <= x <= j1)%Z ->
    cgx (Z.of_nat n) x * cgx (Z.of_nat n') x
    = sqrt (K (Z.of_nat n)) * sqrt (K (Z.of_nat n')) / (fz (Z.of_nat n) * fz (Z.of_nat n'))
      * (nabs n (g j1 j2 dl (Z.of_nat n)) x * hahn j1 j2 dl (Z.of_nat n') n' x).
  Proof.
    intros On On' Hx. rewrite !cgx_form by auto.
    destruct ((0 <=? x + dl) && (x + dl <=? j2))%Z%bool eqn:E.
    - apply andb_true_iff in E. rewrite !Z.leb_le in E.
      rewrite (nabs_hahn j1 j2 dl (Z.of_nat n') n'). rewrite Z.sub_diag.
      pose proof (g0_w x Hx E) as G. pose proof (sqrt_def (w x) (Rlt_le _ _ (w_pos x))) as W.
      transitivity (sqrt (K (Z.of_nat n)) * sqrt (K (Z.of_nat n')) / (fz (Z.of_nat n) * fz (Z.of_nat n'))
        * (nabs n (g j1 j2 dl (Z.of_nat n)) x * hahn j1 j2 dl (Z.of_nat n') n' x)
        * (g j1 j2 dl 0 x * (sqrt (w x) * sqrt (w x)))).
      + field. split; apply fz_neq.
      + rewrite W, G. ring.
    - rewrite nabs_hahn, Z.sub_diag.
      replace (g j1 j2 dl 0 x) with 0; [ring|].
      apply andb_false_iff in E. rewrite !Z.leb_gt in E. unfold g.
      destruct E as [E|E]; [rewrite (rf_neg (x + dl))|rewrite (rf_neg (j2 - dl - 0 - x))]; ring || lia.
  Qed.
  Lemma cgx_orth n n' : okn (Z.of_nat n) -> okn (Z.of_nat n') ->
    S0 (Z.to_nat j1) (fun x => cgx (Z.of_nat n) x * cgx (Z.of_nat n') x) = if Nat.eqb n n' then 1 else 0.
  Proof.
    intros On On'.
    assert (G : forall n n', okn (Z.of_nat n) -> okn (Z.of_nat n') -> (n' < n)%nat ->
      S0 (Z.to_nat j1) (fun x => cgx (Z.of_nat n) x * cgx (Z.of_nat n') x) = 0).
    { clear n n' On On'. intros n n' On On' Hn.
      erewrite S0_ext; [|intros x Hx; apply (cgx_prod n n' x On On'); lia].
      rewrite S0_scal, hahn_orth by auto. ring. }
    destruct (Nat.eqb_spec n n') as [<-|Ne].
    - erewrite S0_ext; [|intros x Hx; apply (cgx_prod n n x On On); lia].
      rewrite S0_scal. destruct On as (? & ? & ? & ?) eqn:EO. rewrite hahn_norm by lia.
      pose proof (sqrt_def (K (Z.of_nat n)) (Rlt_le _ _ (K_pos _ On))) as Q. unfold Rdiv at 1. rewrite Q.
      unfold K. rewrite !rf_nonneg by lia.
      rewrite (fz_succ (j1 + j2 - 2 * Z.of_nat n)) by lia.
      replace (j2 - dl - Z.of_nat n)%Z with (j2 - Z.of_nat n - dl)%Z by lia.
      replace (j1 + dl - Z.of_nat n)%Z with (j1 - Z.of_nat n + dl)%Z by lia.
      field. repeat split; try apply fz_neq. apply not_0_IZR. lia.
    - destruct (Nat.lt_ge_cases n' n) as [L|L]; [apply G; auto|].
      rewrite (S0_ext _ _ (fun x => cgx (Z.of_nat n') x * cgx (Z.of_nat n) x)) by (intros; ring).
      apply G; auto. lia.
  Qed.
End Orth.
