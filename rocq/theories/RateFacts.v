(** Rates are linear in the distribution (proofs for C144) *)
From Coq Require Import String ZArith List Bool Reals Lra Lia Psatz Permutation.
From Coquelicot Require Import Coquelicot.
From Verif Require Import Prelude Decay Expr Sums CExpr Angles SpecKin SpecDPD Builder SpecObs ObsKin SpecBounded SpecNormal SpecFractions NormalKin NormalFacts.
Import ListNotations.
Local Open Scope R_scope.

Section Linear.
  Variables (base : symbol -> C) (i j k : Z).
  Hypothesis (Cy : cyclic i j k) (Op : open_phase_space base).
  Lemma projects_line I P s : projects_to base I i j k P -> lower_limit base k < s < upper_limit base k ->
    is_RInt (fun x => I (dalitz_line (with_sigma base k s) i j k x)) (line_at base i j k s (-1)) (line_at base i j k s 1) (P s).
  Proof.
    intros H Hs. destruct (H s Hs) as (a & b & _ & Rg & J).
    destruct (line_range_unique _ i j k Cy (line_between base i j k Cy Op s Hs) a b Rg) as [-> ->].
    rewrite !(line_end_at base i j k Cy s _ Hs) in J. exact J.
  Qed.
  Lemma line_projects I (P : R -> R) : (forall s, lower_limit base k < s < upper_limit base k ->
    is_RInt (fun x => I (dalitz_line (with_sigma base k s) i j k x)) (line_at base i j k s (-1)) (line_at base i j k s 1) (P s)) -> projects_to base I i j k P.
  Proof. intros H s Hs. destruct (line_ends_at base i j k Cy Op s Hs) as [L Rg]. do 2 eexists. split; [exact L|]. split; [exact Rg|exact (H s Hs)]. Qed.
  Lemma rate_plus I I' N N' : integrates_to base I i j k N -> integrates_to base I' i j k N' -> integrates_to base (fun pt => I pt + I' pt) i j k (N + N').
  Proof.
    intros (P & H & J) (P' & H' & J'). exists (fun s => P s + P' s). split.
    - apply line_projects. intros s Hs. exact (is_RInt_plus _ _ _ _ _ _ (projects_line I P s H Hs) (projects_line I' P' s H' Hs)).
    - exact (is_RInt_plus _ _ _ _ _ _ J J').
  Qed.
  Lemma rate_scal c I N : integrates_to base I i j k N -> integrates_to base (fun pt => c * I pt) i j k (c * N).
  Proof.
    intros (P & H & J). exists (fun s => c * P s). split.
    - apply line_projects. intros s Hs. exact (is_RInt_scal _ _ _ c _ (projects_line I P s H Hs)).
    - exact (is_RInt_scal _ _ _ c _ J).
  Qed.
  Lemma rate_zero : integrates_to base (fun _ => 0) i j k 0.
  Proof.
    assert (Z : forall a b, is_RInt (fun _ : R => 0) a b 0).
    { intros a b. pose proof (is_RInt_const a b 0) as Q. change (is_RInt (fun _ : R => 0) a b ((b - a) * 0)) in Q. rewrite Rmult_0_r in Q. exact Q. }
    exists (fun _ => 0). split; [apply line_projects; intros s _; apply Z|apply Z].
  Qed.
  Lemma rate_sum {A} (xs : list A) I N : (forall x, In x xs -> integrates_to base (I x) i j k (N x)) ->
    integrates_to base (fun pt => Rsum xs (fun x => I x pt)) i j k (Rsum xs N).
  Proof.
    induction xs as [|x xs IH]; intros H; cbn [Rsum]; [exact rate_zero|].
    apply (rate_plus (I x) (fun pt => Rsum xs (fun x => I x pt))); [apply H; left; reflexivity|apply IH; intros; apply H; right; assumption].
  Qed.
  Lemma rate_le I I' N N' : (forall pt, I pt <= I' pt) -> integrates_to base I i j k N -> integrates_to base I' i j k N' -> N <= N'.
  Proof.
    intros L (P & H & J) (P' & H' & J'). pose proof (line_open base i j k Cy Op) as O.
    rewrite <- (is_RInt_unique _ _ _ _ J), <- (is_RInt_unique _ _ _ _ J'). apply RInt_le; [lra|exists N; exact J|exists N'; exact J'|].
    intros s Hs. pose proof (projects_line I P s H Hs) as K. pose proof (projects_line I' P' s H' Hs) as K'.
    destruct (line_ends_at base i j k Cy Op s Hs) as [E _].
    rewrite <- (is_RInt_unique _ _ _ _ K), <- (is_RInt_unique _ _ _ _ K'). apply RInt_le; [lra|exists (P s); exact K|exists (P' s); exact K'|].
    intros x _. apply L.
  Qed.
  Lemma rate_ext I I' N N' : (forall pt, I pt = I' pt) -> integrates_to base I i j k N -> integrates_to base I' i j k N' -> N = N'.
  Proof. intros E H H'. apply Rle_antisym; [apply (rate_le I I' N N')|apply (rate_le I' I N' N)]; auto; intros; rewrite E; lra. Qed.
  Lemma rate_nonneg I N : (forall pt, 0 <= I pt) -> integrates_to base I i j k N -> 0 <= N.
  Proof. intros L H. exact (rate_le (fun _ => 0) I 0 N L rate_zero H). Qed.
End Linear.

Lemma rate_same base i j k I I' N : (forall pt, I pt = I' pt) -> integrates_to base I i j k N -> integrates_to base I' i j k N.
Proof.
  intros E (P & H & J). exists P. split; [|exact J]. intros s Hs. destruct (H s Hs) as (a & b & L & Rg & K). exists a, b. split; [exact L|]. split; [exact Rg|].
  eapply is_RInt_ext; [|exact K]. intros x _. apply E.
Qed.

(** ** Means *)
Lemma best_mean e : 0 < e -> forall a b, {t | 0 < t /\ (0 <= a -> 0 <= b -> t * a + b / t <= 2 * sqrt (a * b) + e)}.
Proof.
  intros He a b. destruct (Rlt_dec 0 a) as [A|A].
  - destruct (Rlt_dec 0 b) as [B|B].
    + exists (sqrt b / sqrt a). set (u := sqrt a). set (v := sqrt b). assert (U : u * u = a) by (apply sqrt_sqrt; lra). assert (V : v * v = b) by (apply sqrt_sqrt; lra).
      assert (U0 : 0 < u) by (apply sqrt_lt_R0; lra). assert (V0 : 0 < v) by (apply sqrt_lt_R0; lra). split; [apply Rdiv_lt_0_compat; lra|]. intros _ _.
      rewrite sqrt_mult by lra. fold u v. rewrite <- U, <- V. replace (v / u * (u * u) + v * v / (v / u)) with (2 * (u * v)) by (field; lra). lra.
    + exists (e / a). split; [apply Rdiv_lt_0_compat; lra|]. intros _ B0. replace b with 0 by lra. rewrite Rmult_0_r, sqrt_0.
      replace (e / a * a + 0 / (e / a)) with e by (field; lra). lra.
  - exists ((Rmax b 0 + 1) / e). pose proof (Rmax_r b 0). split; [apply Rdiv_lt_0_compat; lra|]. intros A0 B0. replace a with 0 by lra. rewrite Rmult_0_l, sqrt_0.
    rewrite Rmax_left by exact B0. replace ((b + 1) / e * 0 + b / ((b + 1) / e)) with (e * (b / (b + 1))) by (field; lra).
    assert (b / (b + 1) <= 1). { apply (Rmult_le_reg_r (b + 1)); [lra|]. unfold Rdiv. rewrite Rmult_assoc, Rinv_l by lra. lra. }
    assert (e * (b / (b + 1)) <= e * 1) by (apply Rmult_le_compat_l; lra). lra.
Qed.
Lemma bound_mean g a b t : 0 <= a -> 0 <= b -> 0 < t -> g ^ 2 <= a * b -> 2 * Rabs g <= t * a + b / t.
Proof.
  intros A B T G. assert (Q : 0 <= b / t) by (apply Rmult_le_pos; [lra|left; apply Rinv_0_lt_compat; lra]). set (c := b / t) in *.
  assert (E : b = t * c) by (unfold c; field; lra). rewrite E in G. clearbody c. clear E. pose proof (Rabs_pos g). rewrite <- pow2_abs in G. set (h := Rabs g) in *. clearbody h. clear B.
  assert (0 <= t * a) by nra. destruct (Rle_or_lt (2 * h) (t * a + c)) as [L|L]; [exact L|]. exfalso.
  assert ((t * a + c) * (t * a + c) < 2 * h * (2 * h)) by nra. pose proof (Rle_0_sqr (t * a - c)) as S. unfold Rsqr in S. nra.
Qed.
Lemma mean_bound_list {A} (l : list A) (a b : A -> R) D : (forall x, In x l -> 0 <= a x /\ 0 <= b x) ->
  (forall t : A -> R, (forall x, 0 < t x) -> D <= Rsum l (fun x => t x * a x + b x / t x)) -> D <= Rsum l (fun x => 2 * sqrt (a x * b x)).
Proof.
  intros AB H. apply le_epsilon. intros e He. set (n := INR (length l)). assert (N0 : 0 <= n) by apply pos_INR.
  assert (E0 : 0 < e / (n + 1)) by (apply Rdiv_lt_0_compat; lra).
  set (t := fun x => proj1_sig (best_mean (e / (n + 1)) E0 (a x) (b x))).
  assert (T : forall x, 0 < t x /\ (0 <= a x -> 0 <= b x -> t x * a x + b x / t x <= 2 * sqrt (a x * b x) + e / (n + 1))) by (intros x; exact (proj2_sig (best_mean _ E0 (a x) (b x)))).
  specialize (H t (fun x => proj1 (T x))). clearbody t.
  assert (Q : forall l', incl l' l -> Rsum l' (fun x => t x * a x + b x / t x) <= Rsum l' (fun x => 2 * sqrt (a x * b x)) + INR (length l') * (e / (n + 1))).
  { induction l' as [|x l' IH]; intros I; cbn [Rsum length]; [cbn; lra|]. rewrite S_INR.
    pose proof (IH (fun y Hy => I y (or_intror Hy))) as IH'. destruct (AB x (I x (or_introl eq_refl))) as [A0 B0]. pose proof (proj2 (T x) A0 B0). lra. }
  pose proof (Q l (incl_refl l)) as Q'. fold n in Q'.
  assert (n * (e / (n + 1)) <= e).
  { replace (n * (e / (n + 1))) with (e * (n / (n + 1))) by (field; lra). rewrite <- (Rmult_1_r e) at 2. apply Rmult_le_compat_l; [lra|].
    apply (Rmult_le_reg_r (n + 1)); [lra|]. unfold Rdiv. rewrite Rmult_assoc, Rinv_l by lra. lra. }
  lra.
Qed.
