(** Limits of invariant masses and bounds of lineshapes (proofs for C141) *)
From Coq Require Import String ZArith QArith Qcanon Qreals List Bool Reals Lia Lra Psatz Permutation.
From Coquelicot Require Import Coquelicot.
From Verif Require Import Prelude Spin Decay Expr Angles Sums Wigner CG CExpr SpecKin SpecDPD Builder SpecBuilder Dynamics
  SpecDynamics SpinFacts DecayFacts CExprFacts BuilderFacts ModelFacts RefFacts KinFacts AnglesProofs DynamicsProofs LineshapeFacts
  LineshapeProofs SpecFinite FiniteFacts FiniteShapes SpecContinuity ContinuityFacts ContinuityProofs SpecBounded.
Import ListNotations.
Local Open Scope R_scope.

(** ** Kinematic limits *)
Lemma mdot_le p q a b : on_shell a p -> on_shell b q -> a * b <= vE p * vE q - dot (vp p) (vp q).
Proof.
  intros (A & Ep & Mp) (B & Eq & Mq). unfold msq in *.
  set (P := dot (vp p) (vp p)) in *. set (Q := dot (vp q) (vp q)) in *. set (u := dot (vp p) (vp q)).
  assert (CS : u * u <= P * Q).
  { subst P Q u. destruct p as [? [x y z]], q as [? [x' y' z']]. unfold dot. cbn [vp vx vy vz].
    assert (0 <= (x * y' - y * x') ^ 2 + (x * z' - z * x') ^ 2 + (y * z' - z * y') ^ 2) by (repeat apply Rplus_le_le_0_compat; apply pow2_ge_0). nra. }
  assert (W : 2 * (a * b * u) <= a * a * Q + b * b * P).
  { subst P Q u. destruct p as [? [x y z]], q as [? [x' y' z']]. unfold dot. cbn [vp vx vy vz].
    assert (0 <= (a * x' - b * x) ^ 2 + (a * y' - b * y) ^ 2 + (a * z' - b * z) ^ 2) by (repeat apply Rplus_le_le_0_compat; apply pow2_ge_0). nra. }
  assert (AB : 0 <= a * b) by (apply Rmult_le_pos; auto).
  assert (EE : 0 <= vE p * vE q) by (apply Rmult_le_pos; auto).
  set (x := vE p) in *. set (y := vE q) in *. clearbody P Q u x y.
  assert (X : x * x = a * a + P) by lra. assert (Y : y * y = b * b + Q) by lra.
  assert (E2 : (x * y) * (x * y) = (a * a + P) * (b * b + Q)) by (rewrite <- X, <- Y; ring).
  destruct (Rle_or_lt (a * b + u) 0) as [L|L]; [lra|].
  assert ((a * b + u) * (a * b + u) <= (x * y) * (x * y)) by (rewrite E2; nra).
  assert (a * b + u <= x * y) by (clear - L EE H; nra). lra.
Qed.
Lemma pair_limits p1 p2 p3 m1 m2 m3 m0 : on_shell m1 p1 -> on_shell m2 p2 -> on_shell m3 p3 -> on_shell m0 (add4 p1 (add4 p2 p3)) ->
  (m2 + m3) ^ 2 <= msq (add4 p2 p3) <= (m0 - m1) ^ 2.
Proof.
  intros H1 H2 H3 H0. pose proof (mdot_le _ _ _ _ H2 H3) as A. pose proof (mdot_le _ _ _ _ H0 H1) as B.
  destruct H1 as (_ & _ & M1), H2 as (_ & _ & M2), H3 as (_ & _ & M3), H0 as (_ & _ & M0).
  split.
  - replace (msq (add4 p2 p3)) with (msq p2 + msq p3 + 2 * (vE p2 * vE p3 - dot (vp p2) (vp p3)))
      by (unfold msq, add4, add3, dot; cbn [vE vp vx vy vz]; ring). rewrite M2, M3. lra.
  - set (p0 := add4 p1 (add4 p2 p3)) in *.
    replace (msq (add4 p2 p3)) with (msq p0 + msq p1 - 2 * (vE p0 * vE p1 - dot (vp p0) (vp p1)))
      by (unfold p0, msq, add4, add3, dot; cbn [vE vp vx vy vz]; ring). rewrite M0, M1. lra.
Qed.
Lemma add4_comm p q : add4 p q = add4 q p.
Proof. unfold add4, add3. f_equal; [ring|f_equal; ring]. Qed.
Lemma add4_rot p q r : add4 p (add4 q r) = add4 q (add4 r p).
Proof. unfold add4, add3. cbn [vE vp vx vy vz]. f_equal; [ring|f_equal; ring]. Qed.
Lemma sigma_limits base s1 s2 s3 k : physical (fun x => Re (at_sigmas base s1 s2 s3 x)) -> In k [1; 2; 3]%Z ->
  lower_limit base k <= sigma_value s1 s2 s3 k <= upper_limit base k.
Proof.
  intros (p1 & p2 & p3 & H1 & H2 & H3 & H0 & S1 & S2 & S3) Hk.
  change (at_m0 (fun x => Re (at_sigmas base s1 s2 s3 x))) with (particle_mass base 0) in *.
  change (at_m1 (fun x => Re (at_sigmas base s1 s2 s3 x))) with (particle_mass base 1) in *.
  change (at_m2 (fun x => Re (at_sigmas base s1 s2 s3 x))) with (particle_mass base 2) in *.
  change (at_m3 (fun x => Re (at_sigmas base s1 s2 s3 x))) with (particle_mass base 3) in *.
  change (at_s1 (fun x => Re (at_sigmas base s1 s2 s3 x))) with s1 in *.
  change (at_s2 (fun x => Re (at_sigmas base s1 s2 s3 x))) with s2 in *.
  change (at_s3 (fun x => Re (at_sigmas base s1 s2 s3 x))) with s3 in *.
  unfold lower_limit, upper_limit.
  destruct Hk as [<-|[<-|[<-|[]]]].
  - change (sigma_value s1 s2 s3 1) with s1. rewrite S1. apply (pair_limits p1 p2 p3); auto.
  - change (sigma_value s1 s2 s3 2) with s2. rewrite S2. apply (pair_limits p2 p3 p1); auto. rewrite <- add4_rot. exact H0.
  - change (sigma_value s1 s2 s3 3) with s3. rewrite S3. apply (pair_limits p3 p1 p2); auto. rewrite add4_rot. exact H0.
Qed.

(** ** Continuous lineshapes are bounded *)
Lemma continuous_bounded (f : R -> C) lo hi : (forall t0, lo <= t0 <= hi -> tends (locally t0) f (f t0)) ->
  exists B, 0 <= B /\ forall t, lo <= t <= hi -> Cmod (f t) <= B.
Proof.
  intros H. destruct (Rle_or_lt lo hi) as [L|L].
  - destruct (continuity_ab_maj (fun t => Cmod (f t)) lo hi L) as (tm & M & _).
    + intros t Ht. apply (proj2 (continuity_pt_filterlim (fun t => Cmod (f t)) t)). exact (t_cmod (locally t) _ _ (H t Ht)).
    + exists (Cmod (f tm)). split; [apply Cmod_ge_0|exact M].
  - exists 0. split; [lra|]. intros t Ht. lra.
Qed.
Lemma shape_bounded base cpl k e : In k [1; 2; 3]%Z -> own_sigma_only base cpl k e -> continuous_on_range base cpl k e ->
  exists B, 0 <= B /\ forall s1 s2 s3, on_dalitz_plot base s1 s2 s3 ->
    Cmod (ceval (Env (at_sigmas base s1 s2 s3) cpl) (fun _ => 0%Z) e) <= B.
Proof.
  intros Hk O Ct. destruct (continuous_bounded _ _ _ Ct) as (B & B0 & HB). exists B. split; auto.
  intros s1 s2 s3 (Ph & _). rewrite (O s1 s2 s3). apply HB. apply sigma_limits; auto.
Qed.
Lemma sum_bounded {A T} (P : T -> Prop) (f : A -> T -> R) l : (forall a, In a l -> exists B, forall t, P t -> f a t <= B) ->
  exists B, forall t, P t -> Rsum l (fun a => f a t) <= B.
Proof.
  induction l as [|a l IH]; intros H; [exists 0; intros; cbn; lra|].
  destruct (H a (or_introl eq_refl)) as (B & HB). destruct IH as (B' & HB'); [intros; apply H; right; auto|].
  exists (B + B'). intros t Pt. cbn [Rsum]. specialize (HB t Pt). specialize (HB' t Pt). lra.
Qed.
Lemma sum_nonneg {A} (f : A -> R) l : (forall a, 0 <= f a) -> 0 <= Rsum l f.
Proof. intros H. induction l as [|a l IH]; cbn [Rsum]; [lra|]. specialize (H a). lra. Qed.
