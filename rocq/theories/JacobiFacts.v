(** Integrals of products of Wigner d functions over the cosine of the angle:
    d functions of different spin are orthogonal, and those of spin j have norm 2/(2j+1). *)
From Coq Require Import ZArith List Bool Reals Arith Lra Lia Psatz.
From Coquelicot Require Import Rcomplements Hierarchy Continuity Derive RInt RInt_analysis AutoDerive.
From Verif Require Import Sums Wigner Prelude Spin SpinFacts WignerFacts.
Import ListNotations.
Local Open Scope R_scope.

(** ** Finite differences of polynomials *)
Fixpoint diff (d : nat) (f : nat -> R) (x : nat) : R :=
  match d with O => f x | S d => diff d (fun y => f (S y) - f y) x end.
Lemma diff_ext d : forall f g, (forall x, f x = g x) -> forall x, diff d f x = diff d g x.
Proof. induction d; intros f g H x; cbn [diff]; [apply H|]. apply IHd. intros y. rewrite !H. reflexivity. Qed.
Lemma diff_plus d : forall f g x, diff d (fun y => f y + g y) x = diff d f x + diff d g x.
Proof.
  induction d; intros f g x; cbn [diff]; [reflexivity|]. rewrite <- IHd. apply diff_ext. intros y. ring.
Qed.
Lemma diff_scal d c : forall f x, diff d (fun y => c * f y) x = c * diff d f x.
Proof. induction d; intros f x; cbn [diff]; [reflexivity|]. rewrite <- IHd. apply diff_ext. intros y. ring. Qed.
(** [f] is a polynomial of degree at most [d] whose leading coefficient is [A / d!] *)
Definition deg (d : nat) (A : R) (f : nat -> R) : Prop := forall x, diff d f x = A.
Lemma deg_linear d : forall A f p q, deg d A f -> deg (S d) (INR (S d) * p * A) (fun x => (p * INR x + q) * f x).
Proof.
  induction d; intros A f p q H x.
  - cbn [diff]. cbn [deg diff] in H. unfold deg in H. cbn [diff] in H. rewrite !H, S_INR. simpl. ring.
  - cbn [diff]. change (diff d (fun y => ((p * INR (S (S y)) + q) * f (S (S y)) - (p * INR (S y) + q) * f (S y)) -
        ((p * INR (S y) + q) * f (S y) - (p * INR y + q) * f y)) x)
      with (diff (S d) (fun y => (p * INR (S y) + q) * f (S y) - (p * INR y + q) * f y) x).
    rewrite (diff_ext (S d) _ (fun y => (p * INR y + (q + p)) * (f (S y) - f y) + p * f y))
      by (intros y; rewrite S_INR; ring).
    rewrite diff_plus, diff_scal. rewrite (IHd A (fun y => f (S y) - f y) p (q + p) H). rewrite (H x).
    rewrite !S_INR. ring.
Qed.
Lemma diff_const c d x : (0 < d)%nat -> diff d (fun _ => c) x = 0.
Proof.
  destruct d; [lia|]. intros _. cbn [diff]. revert x. induction d; intros x; cbn [diff]; [ring|].
  rewrite (diff_ext d _ (fun _ => c - c)) by (intros; ring). apply IHd.
Qed.
Lemma deg_more e d : forall A f, deg d A f -> (d < e)%nat -> deg e 0 f.
Proof.
  revert d. induction e; intros d A f H L x; [lia|]. destruct d.
  - unfold deg in H. cbn [diff] in H. cbn [diff]. rewrite (diff_ext e _ (fun _ => 0)) by (intros; rewrite !H; ring).
    destruct e; [reflexivity|]. apply diff_const. lia.
  - cbn [diff]. apply (IHe d A); [exact H|lia].
Qed.

(** ** Alternating sums *)
Lemma bin_0 n : bin n 0 = 1.
Proof. unfold bin. rewrite Nat.sub_0_r. simpl (fact 0). simpl (INR 1). assert (H := fact_pos n). field. lra. Qed.
Lemma bin_n n : bin n n = 1.
Proof. unfold bin. rewrite Nat.sub_diag. simpl (fact 0). simpl (INR 1). assert (H := fact_pos n). field. lra. Qed.
Lemma fact_S n : INR (fact (S n)) = (INR n + 1) * INR (fact n).
Proof. rewrite fact_simpl, mult_INR, S_INR. reflexivity. Qed.
Lemma bin_pascal n k : (k < n)%nat -> bin (S n) (S k) = bin n k + bin n (S k).
Proof.
  intros H. unfold bin. replace (S n - S k)%nat with (S (n - S k)) by lia. replace (n - k)%nat with (S (n - S k)) by lia.
  rewrite !fact_S. assert (A := fact_pos n). assert (B := fact_pos k). assert (D := fact_pos (n - S k)).
  assert (E : INR (n - S k) = INR n - INR k - 1) by (rewrite minus_INR, S_INR by lia; ring).
  assert (F := pos_INR k). assert (G : 0 <= INR (n - S k)) by apply pos_INR. rewrite E in *.
  field. repeat split; lra.
Qed.
Lemma alternating_diff n : forall f x,
  Rsum (seq 0 (S n)) (fun k => (-1) ^ k * bin n k * f (k + x)%nat) = (-1) ^ n * diff n f x.
Proof.
  induction n; intros f x.
  - cbn [seq Rsum diff]. rewrite bin_0. simpl. ring.
  - cbn [diff]. change ((-1) ^ S n * diff n (fun y => f (S y) - f y) x) with (-1 * (-1) ^ n * diff n (fun y => f (S y) - f y) x).
    rewrite (Rmult_assoc (-1)), <- IHn.
    rewrite <- Rsum_scal_l.
    (* left: split first and last, right: two sums *)
    rewrite (Rsum_ext _ (fun x0 => -1 * ((-1) ^ x0 * bin n x0 * (f (S (x0 + x)) - f (x0 + x)%nat)))
      (fun k => (-1) ^ S k * bin n k * f (S k + x)%nat + (-1) ^ k * bin n k * f (k + x)%nat))
      by (intros k _; cbn [pow]; rewrite Nat.add_succ_l; ring).
    rewrite Rsum_plus.
    rewrite (seq_S (S n) 0), Rsum_app. cbn [Rsum]. rewrite Nat.add_0_l, Rplus_0_r.
    change (seq 0 (S n)) with (0%nat :: seq 1 n) at 1 3. cbn [Rsum].
    rewrite (seq_S n 0), Rsum_app. cbn [Rsum]. rewrite Nat.add_0_l, Rplus_0_r.
    rewrite !bin_0, !bin_n.
    rewrite <- seq_shift, !Rsum_map.
    rewrite (Rsum_ext _ (fun x0 => (-1) ^ S x0 * bin (S n) (S x0) * f (S x0 + x)%nat)
      (fun k => (-1) ^ S k * bin n k * f (S k + x)%nat + (-1) ^ S k * bin n (S k) * f (S k + x)%nat)).
    + rewrite Rsum_plus. change (0 + n)%nat with n. ring.
    + intros k Hk. apply seq_in' in Hk. rewrite bin_pascal by lia. ring.
Qed.
Lemma alternating_zero n d A f : deg d A f -> (d < n)%nat ->
  Rsum (seq 0 (S n)) (fun k => (-1) ^ k * bin n k * f k) = 0.
Proof.
  intros H L. assert (X := alternating_diff n f 0). rewrite (deg_more n d A f H L) in X.
  rewrite Rmult_0_r in X. rewrite <- X. apply Rsum_ext. intros k _. rewrite Nat.add_0_r. reflexivity.
Qed.
Lemma alternating_top n A f : deg n A f ->
  Rsum (seq 0 (S n)) (fun k => (-1) ^ k * bin n k * f k) = (-1) ^ n * A.
Proof.
  intros H. assert (X := alternating_diff n f 0). rewrite (H 0%nat) in X.
  rewrite <- X. apply Rsum_ext. intros k _. rewrite Nat.add_0_r. reflexivity.
Qed.

(** ** (x+1)(x+2)...(x+r) *)
Fixpoint rise (x : R) (r : nat) : R := match r with O => 1 | S r => (x + INR (S r)) * rise x r end.
Lemma rise_fact p r : rise (INR p) r = INR (fact (p + r)) / INR (fact p).
Proof.
  induction r; cbn [rise].
  - rewrite Nat.add_0_r. field. apply Rgt_not_eq, fact_pos.
  - rewrite IHr. replace (p + S r)%nat with (S (p + r)) by lia. rewrite fact_S, S_INR, plus_INR.
    assert (H := fact_pos p). field. lra.
Qed.
Lemma rise_zero q r : (1 <= q <= r)%nat -> rise (- INR q) r = 0.
Proof.
  induction r; intros H; [lia|]. cbn [rise]. destruct (Nat.eq_dec q (S r)) as [->|N].
  - rewrite Rplus_opp_l. apply Rmult_0_l.
  - rewrite IHr by lia. apply Rmult_0_r.
Qed.
Lemma deg_rise p q r : forall d A f, deg d A f ->
  deg (d + r) (A * p ^ r * INR (fact (d + r)) / INR (fact d)) (fun x => rise (p * INR x + q) r * f x).
Proof.
  induction r; intros d A f H.
  - rewrite Nat.add_0_r. cbn [rise pow]. intros x. rewrite (diff_ext d _ f) by (intros; ring). rewrite (H x).
    assert (X := fact_pos d). field. lra.
  - assert (X := IHr d A f H). apply (deg_linear _ _ _ p (q + INR (S r))) in X.
    replace (d + S r)%nat with (S (d + r)) by lia. intros x.
    rewrite (diff_ext _ _ (fun x => (p * INR x + (q + INR (S r))) * (rise (p * INR x + q) r * f x)))
      by (intros y; cbn [rise]; ring).
    rewrite (X x). rewrite fact_S, (S_INR (d + r)). cbn [pow]. assert (Y := fact_pos d). field. lra.
Qed.

(** ** The Beta integral *)
Definition beta_fun (p q : nat) (z : R) : R := ((1 + z) / 2) ^ p * ((1 - z) / 2) ^ q.
Lemma beta_derive p q z : is_derive (fun z => ((1 + z) / 2) ^ S p * ((1 - z) / 2) ^ S q) z
  (INR (S p) / 2 * beta_fun p (S q) z - INR (S q) / 2 * beta_fun (S p) q z).
Proof.
  unfold beta_fun. auto_derive; [trivial|].
  change (match p with O => 1 | S _ => INR p + 1 end) with (INR (S p)).
  change (match q with O => 1 | S _ => INR q + 1 end) with (INR (S q)).
  unfold Rminus, Rdiv. cbn [pow]. field.
Qed.
Lemma beta_continuous p q z : continuous (beta_fun p q) z.
Proof.
  unfold beta_fun. apply (ex_derive_continuous (fun z => ((1 + z) / 2) ^ p * ((1 - z) / 2) ^ q)).
  auto_derive. trivial.
Qed.
Lemma beta_0 p : is_RInt (beta_fun p 0) (-1) 1 (2 / INR (S p)).
Proof.
  assert (D : forall z, is_derive (fun z => 2 / INR (S p) * ((1 + z) / 2) ^ S p) z (beta_fun p 0 z)).
  { intros z. auto_derive; [trivial|]. change (match p with O => 1 | S _ => INR p + 1 end) with (INR (S p)).
    unfold beta_fun, Rdiv. rewrite pow_O. field. rewrite S_INR. assert (X := pos_INR p). lra. }
  replace (2 / INR (S p)) with (minus (2 / INR (S p) * ((1 + 1) / 2) ^ S p) (2 / INR (S p) * ((1 + -1) / 2) ^ S p)).
  - apply (is_RInt_derive (fun z => 2 / INR (S p) * ((1 + z) / 2) ^ S p)); intros x _; [apply D|apply beta_continuous].
  - unfold minus, plus, opp. cbn. replace ((1 + 1) / 2) with 1 by field. replace ((1 + -1) / 2) with 0 by field.
    rewrite pow1. ring.
Qed.
Lemma beta_step p q v : is_RInt (beta_fun (S p) q) (-1) 1 v -> is_RInt (beta_fun p (S q)) (-1) 1 (INR (S q) / INR (S p) * v).
Proof.
  intros H.
  assert (B : is_RInt (fun z => INR (S p) / 2 * beta_fun p (S q) z - INR (S q) / 2 * beta_fun (S p) q z) (-1) 1 0).
  { replace 0 with (minus (((1 + 1) / 2) ^ S p * ((1 - 1) / 2) ^ S q) (((1 + -1) / 2) ^ S p * ((1 - -1) / 2) ^ S q)).
    - apply (is_RInt_derive (fun z => ((1 + z) / 2) ^ S p * ((1 - z) / 2) ^ S q)); intros x _; [apply beta_derive|].
      apply (continuous_minus (fun z => INR (S p) / 2 * beta_fun p (S q) z) (fun z => INR (S q) / 2 * beta_fun (S p) q z));
        [apply (continuous_scal_r (INR (S p) / 2) (beta_fun p (S q)))|apply (continuous_scal_r (INR (S q) / 2) (beta_fun (S p) q))];
        apply beta_continuous.
    - unfold minus, plus, opp. cbn. replace ((1 - 1) / 2) with 0 by field. replace ((1 + -1) / 2) with 0 by field. ring. }
  assert (X := is_RInt_plus _ _ _ _ _ _ B (is_RInt_scal _ _ _ (INR (S q) / 2) _ H)).
  assert (Y := is_RInt_scal _ _ _ (2 / INR (S p)) _ X). clear X B.
  assert (P : 0 < INR (S p)) by (rewrite S_INR; assert (X := pos_INR p); lra).
  replace (INR (S q) / INR (S p) * v) with (scal (2 / INR (S p)) (plus 0 (scal (INR (S q) / 2) v))).
  - eapply is_RInt_ext; [|exact Y]. intros z _. unfold scal, plus. cbn. unfold mult. cbn. field. exact (Rgt_not_eq _ _ P).
  - unfold scal, plus. cbn. unfold mult. cbn. field. exact (Rgt_not_eq _ _ P).
Qed.

Lemma beta q : forall p, is_RInt (beta_fun p q) (-1) 1 (2 * INR (fact p) * INR (fact q) / INR (fact (p + q + 1))).
Proof.
  induction q; intros p.
  - replace (2 * INR (fact p) * INR (fact 0) / INR (fact (p + 0 + 1))) with (2 / INR (S p)); [apply beta_0|].
    replace (p + 0 + 1)%nat with (S p) by lia. rewrite fact_S, S_INR. simpl (fact 0). simpl (INR 1).
    assert (X := fact_pos p). assert (Y := pos_INR p). field. split; lra.
  - replace (2 * INR (fact p) * INR (fact (S q)) / INR (fact (p + S q + 1)))
      with (INR (S q) / INR (S p) * (2 * INR (fact (S p)) * INR (fact q) / INR (fact (S p + q + 1)))).
    + apply beta_step, IHq.
    + replace (p + S q + 1)%nat with (S p + q + 1)%nat by lia. rewrite (fact_S p), (fact_S q), !S_INR.
      assert (X := fact_pos (S p + q + 1)). assert (Y := pos_INR p). field. split; lra.
Qed.

(** ** Vandermonde *)
Lemma bin_pos n k : bin n k <> 0.
Proof.
  unfold bin. assert (A := fact_pos n). assert (B := fact_pos k). assert (D := fact_pos (n - k)).
  apply Rgt_not_eq, Rdiv_lt_0_compat; [assumption|]. apply Rmult_lt_0_compat; assumption.
Qed.
Lemma vandermonde_sum n a b : (a <= n)%nat -> (b <= n)%nat ->
  Rsum (seq 0 (S n)) (fun i => if ((i <=? a) && (i <=? b) && (a + b <=? n + i))%nat then bin a i * bin (n - a) (b - i) else 0) = bin n b.
Proof.
  intros Ha Hb.
  apply (poly_unique n (fun b => Rsum (seq 0 (S n)) (fun i =>
    if ((i <=? a) && (i <=? b) && (a + b <=? n + i))%nat then bin a i * bin (n - a) (b - i) else 0)) (fun b => bin n b)); [|exact Hb].
  clear b Hb. intros x.
  transitivity ((x + 1) ^ a * (x + 1) ^ (n - a)).
  - rewrite !binom, Rsum_mult, regroup. replace (a + (n - a))%nat with n by lia.
    apply Rsum_ext. intros b Hb. apply seq_in in Hb. rewrite <- Rsum_scal_r. apply Rsum_ext. intros i Hi. apply seq_in in Hi.
    destruct (Nat.leb_spec i a) as [H1|H1], (Nat.leb_spec i b) as [H2|H2], (Nat.leb_spec (a + b) (n + i)) as [H3|H3],
      (Nat.leb_spec (b - i) (n - a)) as [H4|H4]; cbn [andb]; try lia; try ring.
    replace (x ^ b) with (x ^ i * x ^ (b - i)) by (rewrite <- pow_add; f_equal; lia). rewrite !pow1. ring.
  - rewrite <- pow_add. replace (a + (n - a))%nat with n by lia. rewrite binom. apply Rsum_ext. intros k _. rewrite pow1. ring.
Qed.

(** ** Products of two d functions *)
Definition wrange (n a b i : nat) : bool := ((i <=? a) && (i <=? b) && (a + b <=? n + i))%nat.
Lemma wrange_spec n a b i : wrange n a b i = true <-> (i <= a /\ i <= b /\ a + b <= n + i)%nat.
Proof. unfold wrange. rewrite !andb_true_iff, !Nat.leb_le. tauto. Qed.
Definition wc (n a b i : nat) : R :=
  if wrange n a b i
  then (-1) ^ (a - i) / (INR (fact i) * INR (fact (a - i)) * INR (fact (b - i)) * INR (fact (n + i - a - b)))
  else 0.
Definition wnorm (n a b : nat) : R := sqrt (INR (fact a) * INR (fact (n - a)) * INR (fact b) * INR (fact (n - b))).
Lemma half_angle z : -1 <= z <= 1 ->
  cos (acos z / 2) * cos (acos z / 2) = (1 + z) / 2 /\ sin (acos z / 2) * sin (acos z / 2) = (1 - z) / 2.
Proof.
  intros H. assert (E := cos_acos z H). replace (acos z) with (2 * (acos z / 2)) in E by field.
  assert (A := cos_2a_cos (acos z / 2)). assert (B := cos_2a_sin (acos z / 2)). lra.
Qed.
Lemma is_RInt_zero x y : is_RInt (fun _ : R => 0) x y 0.
Proof.
  assert (X := is_RInt_const x y 0). unfold scal in X. cbn in X. unfold mult in X. cbn in X. rewrite Rmult_0_r in X. exact X.
Qed.
Lemma is_RInt_Rsum {A} (l : list A) (f : A -> R -> R) (v : A -> R) x y :
  (forall k, In k l -> is_RInt (f k) x y (v k)) -> is_RInt (fun z => Rsum l (fun k => f k z)) x y (Rsum l v).
Proof.
  induction l as [|k l IH]; intros H; cbn [Rsum]; [apply is_RInt_zero|].
  apply (is_RInt_plus (f k) (fun z => Rsum l (fun k => f k z))); [apply H; left; reflexivity|].
  apply IH. intros k' Hk. apply H. right. exact Hk.
Qed.
Section product.
Variables n a b t : nat.
Hypothesis Ha : (a <= n)%nat.
Hypothesis Hb : (b <= n)%nat.
Let n' := (n + 2 * t)%nat.
Let a' := (a + t)%nat.
Let b' := (b + t)%nat.
Lemma term_product c s i k :
  wd_term n a b c s i * wd_term n' a' b' c s k =
  wc n a b i * wc n' a' b' k * ((c * c) ^ (i + k + n - a - b) * (s * s) ^ (a + b + t - i - k)).
Proof.
  unfold wd_term, wc. fold (wrange n a b i). fold (wrange n' a' b' k).
  destruct (wrange n a b i) eqn:R1; [|ring]. destruct (wrange n' a' b' k) eqn:R2; [|ring].
  apply wrange_spec in R1, R2. unfold n', a', b' in *.
  assert (C2 : (c * c) ^ (i + k + n - a - b) = c ^ (2 * i + n - a - b) * c ^ (2 * k + (n + 2 * t) - (a + t) - (b + t))).
  { rewrite <- pow_add. replace (c * c) with (c ^ 2) by ring. rewrite <- pow_mult. f_equal. lia. }
  assert (S2 : (s * s) ^ (a + b + t - i - k) = s ^ (a + b - 2 * i) * s ^ ((a + t) + (b + t) - 2 * k)).
  { rewrite <- pow_add. replace (s * s) with (s ^ 2) by ring. rewrite <- pow_mult. f_equal. lia. }
  rewrite C2, S2. unfold Rdiv. ring.
Qed.
Definition overlap : R :=
  Rsum (seq 0 (S n)) (fun i => Rsum (seq 0 (S n')) (fun k =>
    wc n a b i * wc n' a' b' k * (2 * INR (fact (i + k + n - a - b)) * INR (fact (a + b + t - i - k)) / INR (fact (n + t + 1))))).
Lemma overlap_int : is_RInt (fun z => wd n a b (acos z) * wd n' a' b' (acos z)) (-1) 1 (wnorm n a b * wnorm n' a' b' * overlap).
Proof.
  apply (is_RInt_ext (fun z => wnorm n a b * wnorm n' a' b' * Rsum (seq 0 (S n)) (fun i => Rsum (seq 0 (S n')) (fun k =>
    wc n a b i * wc n' a' b' k * beta_fun (i + k + n - a - b) (a + b + t - i - k) z)))).
  - intros z Hz. rewrite Rmin_left, Rmax_right in Hz by lra. destruct (half_angle z ltac:(lra)) as [C2 S2].
    unfold wd. fold (wnorm n a b). fold (wnorm n' a' b').
    match goal with |- @eq _ ?l ?r => change (@eq R l r) end.
    match goal with |- _ = ?x * ?y * (?u * ?v) => transitivity (x * u * (y * v)); [|ring] end.
    f_equal. rewrite Rsum_mult. apply Rsum_ext. intros i _. apply Rsum_ext. intros k _.
    rewrite term_product, C2, S2. reflexivity.
  - apply (is_RInt_scal (fun z => Rsum (seq 0 (S n)) (fun i => Rsum (seq 0 (S n')) (fun k =>
      wc n a b i * wc n' a' b' k * beta_fun (i + k + n - a - b) (a + b + t - i - k) z)))).
    unfold overlap. apply is_RInt_Rsum. intros i _. apply is_RInt_Rsum. intros k _.
    unfold wc. destruct (wrange n a b i) eqn:R1.
    + destruct (wrange n' a' b' k) eqn:R2.
      * apply (is_RInt_scal (beta_fun (i + k + n - a - b) (a + b + t - i - k))).
        apply wrange_spec in R1, R2. unfold n', a', b' in *.
        replace (n + t + 1)%nat with ((i + k + n - a - b) + (a + b + t - i - k) + 1)%nat by lia. apply beta.
      * rewrite Rmult_0_r, Rmult_0_l. apply (is_RInt_ext (fun _ => 0)); [intros z _; symmetry; apply Rmult_0_l|]. apply is_RInt_zero.
    + rewrite !Rmult_0_l. apply (is_RInt_ext (fun _ => 0)); [intros z _; symmetry; apply Rmult_0_l|]. apply is_RInt_zero.
Qed.

(** The sum over the second index is an alternating sum of a polynomial of degree b *)
Definition gpoly (i k : nat) : R := rise (-1 * INR k + INR a') (b - i) * (rise (1 * INR k + (INR n - INR a - INR b)) i * 1).
Lemma gpoly_deg i : (i <= b)%nat -> deg b ((-1) ^ (b - i) * INR (fact b)) (gpoly i).
Proof.
  intros Hi. assert (D0 : deg 0 1 (fun _ => 1)) by (intros x; reflexivity).
  apply (deg_rise 1 (INR n - INR a - INR b) i) in D0.
  apply (deg_rise (-1) (INR a') (b - i)) in D0. intros x. change (0 + i)%nat with i in D0.
  replace (i + (b - i))%nat with b in D0 by lia. unfold gpoly. rewrite (D0 x). rewrite pow1. simpl (fact 0). simpl (INR 1).
  assert (X := fact_pos i). field. lra.
Qed.
Lemma inner_term i k : wrange n a b i = true -> (k <= b')%nat ->
  wc n' a' b' k * (INR (fact (i + k + n - a - b)) * INR (fact (a + b + t - i - k))) =
  (-1) ^ a' / INR (fact b') * ((-1) ^ k * bin b' k * gpoly i k).
Proof.
  intros R1 Hk. apply wrange_spec in R1. unfold wc, gpoly. rewrite Rmult_1_l, Rmult_1_r.
  destruct (wrange n' a' b' k) eqn:R2.
  - apply wrange_spec in R2. unfold n', a', b' in *.
    replace (-1 * INR k + INR (a + t)) with (INR (a + t - k)) by (rewrite minus_INR by lia; ring).
    replace (INR k + (INR n - INR a - INR b)) with (INR (n + k - a - b))
      by (rewrite !minus_INR, plus_INR by lia; ring).
    rewrite !rise_fact. replace (n + 2 * t + k - (a + t) - (b + t))%nat with (n + k - a - b)%nat by lia.
    replace (a + t - k + (b - i))%nat with (a + b + t - i - k)%nat by lia.
    replace (n + k - a - b + i)%nat with (i + k + n - a - b)%nat by lia.
    replace ((-1) ^ (a + t)) with ((-1) ^ (a + t - k) * (-1) ^ k) by (rewrite <- pow_add; f_equal; lia).
    assert (S2 : (-1) ^ k * (-1) ^ k = 1) by (rewrite <- Rpow_mult_distr; replace (-1 * -1) with 1 by ring; apply pow1).
    unfold bin. 
    assert (F1 := fact_pos k). assert (F2 := fact_pos (a + t - k)). assert (F3 := fact_pos (b + t - k)).
    assert (F4 := fact_pos (n + k - a - b)). assert (F5 := fact_pos (b + t)).
    match goal with |- _ = ?r => replace r with ((-1) ^ k * (-1) ^ k * ((-1) ^ (a + t - k) * (INR (fact (i + k + n - a - b)) * INR (fact (a + b + t - i - k)))
       / (INR (fact k) * INR (fact (a + t - k)) * INR (fact (b + t - k)) * INR (fact (n + k - a - b))))) end.
    + rewrite S2. field. repeat split; lra.
    + field. repeat split; lra.
  - rewrite Rmult_0_l.
    assert (X : (a' < k)%nat \/ (n + k < a + b)%nat).
    { destruct (le_lt_dec k a') as [L|L]; [|auto]. right. destruct (le_lt_dec (a' + b') (n' + k)) as [M|M]; [|unfold n', a', b' in *; lia].
      exfalso. assert (wrange n' a' b' k = true) by (apply wrange_spec; auto). congruence. }
    destruct X as [X|X].
    + replace (-1 * INR k + INR a') with (- INR (k - a')) by (rewrite minus_INR by lia; ring).
      rewrite rise_zero by (unfold a', b' in *; lia). ring.
    + replace (INR k + (INR n - INR a - INR b)) with (- INR (a + b - n - k))
        by (rewrite !minus_INR, plus_INR by lia; ring).
      rewrite (rise_zero (a + b - n - k) i) by lia. ring.
Qed.
Lemma inner_sum i : wrange n a b i = true ->
  Rsum (seq 0 (S n')) (fun k => wc n' a' b' k * (INR (fact (i + k + n - a - b)) * INR (fact (a + b + t - i - k)))) =
  if (t =? 0)%nat then (-1) ^ (a + i) else 0.
Proof.
  intros R1. assert (Hi : (i <= b)%nat) by (apply wrange_spec in R1; lia).
  replace (seq 0 (S n')) with (seq 0 (S b') ++ seq (S b') (n' - b'))
    by (rewrite <- seq_app; f_equal; unfold n', b'; lia).
  rewrite Rsum_app, (Rsum_zero (seq (S b') (n' - b'))).
  2:{ intros k Hk. apply in_seq in Hk. unfold wc. destruct (wrange n' a' b' k) eqn:R2; [|ring].
      apply wrange_spec in R2. lia. }
  rewrite Rplus_0_r. rewrite (Rsum_ext _ _ (fun k => (-1) ^ a' / INR (fact b') * ((-1) ^ k * bin b' k * gpoly i k))).
  2:{ intros k Hk. apply seq_in in Hk. apply inner_term; assumption. }
  rewrite Rsum_scal_l. destruct (Nat.eqb_spec t 0) as [T|T].
  - assert (B : b' = b) by (unfold b'; lia). assert (A : a' = a) by (unfold a'; lia). rewrite A, B.
    rewrite (alternating_top b ((-1) ^ (b - i) * INR (fact b))) by (apply gpoly_deg; assumption).
    replace ((-1) ^ b) with ((-1) ^ (b - i) * (-1) ^ i) by (rewrite <- pow_add; f_equal; lia).
    assert (S2 : (-1) ^ (b - i) * (-1) ^ (b - i) = 1) by (rewrite <- Rpow_mult_distr; replace (-1 * -1) with 1 by ring; apply pow1).
    rewrite pow_add. assert (F := fact_pos b).
    match goal with |- ?l = _ => replace l with ((-1) ^ (b - i) * (-1) ^ (b - i) * ((-1) ^ a * (-1) ^ i)) by (field; lra) end.
    rewrite S2. ring.
  - rewrite (alternating_zero b' b ((-1) ^ (b - i) * INR (fact b))); [ring|apply gpoly_deg; assumption|unfold b'; lia].
Qed.
Lemma overlap_value : wnorm n a b * wnorm n' a' b' * overlap = if (t =? 0)%nat then 2 / INR (S n) else 0.
Proof.
  unfold overlap.
  rewrite (Rsum_ext _ _ (fun i => 2 / INR (fact (n + t + 1)) * (wc n a b i * (if (t =? 0)%nat then (-1) ^ (a + i) else 0)))).
  2:{ intros i _. destruct (wrange n a b i) eqn:R1.
      - rewrite <- (inner_sum i R1), <- !Rsum_scal_l. apply Rsum_ext. intros k _. unfold Rdiv. ring.
      - assert (W : wc n a b i = 0) by (unfold wc; rewrite R1; reflexivity).
        rewrite W, Rmult_0_l, Rmult_0_r. apply Rsum_zero. intros k _. ring. }
  rewrite Rsum_scal_l. destruct (Nat.eqb_spec t 0) as [T|T].
  - assert (B : b' = b) by (unfold b'; lia). assert (A : a' = a) by (unfold a'; lia). assert (N : n' = n) by (unfold n'; lia).
    rewrite A, B, N. replace (n + t + 1)%nat with (S n) by lia.
    assert (F1 := fact_pos a). assert (F2 := fact_pos (n - a)). assert (F3 := fact_pos b). assert (F4 := fact_pos (n - b)).
    assert (F5 := fact_pos n).
    assert (K : wnorm n a b * wnorm n a b = INR (fact a) * INR (fact (n - a)) * INR (fact b) * INR (fact (n - b))).
    { unfold wnorm. apply sqrt_sqrt. apply Rlt_le. repeat apply Rmult_lt_0_compat; assumption. }
    rewrite K.
    rewrite (Rsum_ext _ _ (fun i => / (INR (fact a) * INR (fact (n - a))) *
      (if ((i <=? a) && (i <=? b) && (a + b <=? n + i))%nat then bin a i * bin (n - a) (b - i) else 0))).
    + rewrite Rsum_scal_l, vandermonde_sum by assumption. unfold bin. rewrite fact_S, S_INR.
      assert (X := pos_INR n). field. repeat split; lra.
    + intros i _. unfold wc. fold (wrange n a b i). destruct (wrange n a b i) eqn:R1; [|ring]. apply wrange_spec in R1.
      replace ((-1) ^ (a + i)) with ((-1) ^ (a - i)).
      * assert (S2 : (-1) ^ (a - i) * (-1) ^ (a - i) = 1) by (rewrite <- Rpow_mult_distr; replace (-1 * -1) with 1 by ring; apply pow1).
        unfold bin. replace (n - a - (b - i))%nat with (n + i - a - b)%nat by lia.
        assert (G1 := fact_pos i). assert (G2 := fact_pos (a - i)). assert (G3 := fact_pos (b - i)). assert (G4 := fact_pos (n + i - a - b)).
        match goal with |- ?l = _ => replace l with ((-1) ^ (a - i) * (-1) ^ (a - i) /
          (INR (fact i) * INR (fact (a - i)) * INR (fact (b - i)) * INR (fact (n + i - a - b)))) by (field; repeat split; lra) end.
        rewrite S2. field. repeat split; lra.
      * apply minus_one_pow_parity. replace (a - i + (a + i))%nat with (2 * a)%nat by lia. apply Nat.even_spec. exists a. lia.
  - rewrite Rsum_zero; [ring|]. intros; ring.
Qed.
Lemma wd_overlap : exists v, is_RInt (fun z => wd n a b (acos z) * wd n' a' b' (acos z)) (-1) 1 v /\
  v = if (t =? 0)%nat then 2 / INR (S n) else 0.
Proof. exists (wnorm n a b * wnorm n' a' b' * overlap). split; [exact overlap_int|exact overlap_value]. Qed.
End product.

(** ** Doubled spins *)
Definition d_norm (j j' : Z) : R := if (j =? j')%Z then 2 / IZR (j + 1) else 0.
Lemma overlap_le j j' m m' : (j <= j')%Z ->
  is_projection j m = true -> is_projection j m' = true -> is_projection j' m = true -> is_projection j' m' = true ->
  is_RInt (fun z => wigner_d j m m' (acos z) * wigner_d j' m m' (acos z)) (-1) 1 (d_norm j j').
Proof.
  intros L P1 P2 Q1 Q2.
  destruct (is_projection_ex j m P1) as (a & Ha & Em & Ea & J0). destruct (is_projection_ex j m' P2) as (b & Hb & Em' & Eb & _).
  destruct (is_projection_ex j' m Q1) as (a' & Ha' & Fm & Ea' & J0'). destruct (is_projection_ex j' m' Q2) as (b' & Hb' & Fm' & Eb' & _).
  destruct (wd_overlap (Z.to_nat j) a b (a' - a) Ha Hb) as (v & I & V).
  replace (Z.to_nat j + 2 * (a' - a))%nat with (Z.to_nat j') in I by lia.
  replace (a + (a' - a))%nat with a' in I by lia. replace (b + (a' - a))%nat with b' in I by lia.
  replace (d_norm j j') with v.
  - eapply is_RInt_ext; [|exact I]. intros z _. rewrite !wigner_d_in by assumption. rewrite Ea, Eb, Ea', Eb'. reflexivity.
  - rewrite V. unfold d_norm. destruct (Nat.eqb_spec (a' - a) 0), (Z.eqb_spec j j'); try lia; [|reflexivity].
    rewrite INR_IZR_INZ. do 2 f_equal. lia.
Qed.
Theorem wigner_d_overlap j j' m m' :
  is_projection j m = true -> is_projection j m' = true -> is_projection j' m = true -> is_projection j' m' = true ->
  is_RInt (fun z => wigner_d j m m' (acos z) * wigner_d j' m m' (acos z)) (-1) 1 (d_norm j j').
Proof.
  intros P1 P2 Q1 Q2. destruct (Z.le_ge_cases j j') as [L|L]; [apply overlap_le; assumption|].
  replace (d_norm j j') with (d_norm j' j).
  - eapply is_RInt_ext; [|apply (overlap_le j' j m m'); assumption]. intros z _. apply Rmult_comm.
  - unfold d_norm. rewrite (Z.eqb_sym j' j). destruct (Z.eqb_spec j j') as [->|]; reflexivity.
Qed.
