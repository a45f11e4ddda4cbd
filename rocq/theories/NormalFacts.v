(** Projections and integrals of continuous, bounded distributions on the Dalitz plot (proofs for C142) *)
From Coq Require Import String ZArith List Bool Reals Lra Lia Psatz.
From Coquelicot Require Import Coquelicot.
From Verif Require Import Prelude Decay Expr CExpr Angles SpecKin KinFacts SpecDPD Builder SpecObs ObsKin SpecBounded SpecSmooth SpecNormal
  IntegralFacts NormalKin.
Import ListNotations.
Local Open Scope R_scope.

Section Distribution.
  Variables (base : symbol -> C) (i j k : Z) (I : (symbol -> C) -> R) (B : R).
  Hypothesis (Cy : cyclic i j k) (Op : open_phase_space base).
  Hypothesis HB : forall s1 s2 s3, on_dalitz_plot base s1 s2 s3 -> 0 <= I (at_sigmas base s1 s2 s3) <= B.
  Hypothesis HC : forall (p : R * R) (f1 f2 f3 : R * R -> R), continuous f1 p -> continuous f2 p -> continuous f3 p ->
    on_dalitz_plot base (f1 p) (f2 p) (f3 p) -> continuous (fun t => I (at_sigmas base (f1 t) (f2 t) (f3 t))) p.
  Let lo := lower_limit base k. Let hi := upper_limit base k.
  Let half := line_half base i j k. Let centre := line_centre base i j k.
  Let F (s z : R) : R := I (line_point base j k s (line_at base i j k s z)).

  Lemma half_continuous s : lo < s < hi -> continuous half s.
  Proof.
    intros Hs. pose proof (line_pos base i j k Cy s Hs) as S0.
    pose proof (line_between base i j k Cy Op s Hs) as BT.
    pose proof (line_A_pos _ i j k BT) as A0. pose proof (line_B_pos _ i j k BT) as B0.
    unfold line_A in A0. unfold line_B in B0. rewrite (with_self base i j k Cy) in A0, B0.
    rewrite !(with_square base i j k Cy) in A0 by (cbn; tauto). rewrite !(with_square base i j k Cy) in B0 by (cbn; tauto).
    cbn [RtoC Re fst] in A0, B0.
    apply (ex_derive_continuous half). unfold half, line_half, kallen in *.
    set (a := square_at base 0) in *. set (b := square_at base k) in *. set (c := square_at base i) in *. set (d := square_at base j) in *.
    auto_derive. repeat split; lra.
  Qed.
  Lemma centre_continuous s : lo < s < hi -> continuous centre s.
  Proof.
    intros Hs. pose proof (line_pos base i j k Cy s Hs) as S0.
    apply (ex_derive_continuous centre). unfold centre, line_centre, n_theta. auto_derive. lra.
  Qed.
  Lemma at_continuous s z : lo < s < hi -> continuous (fun t : R * R => line_at base i j k (fst t) (snd t)) (s, z).
  Proof.
    intros Hs. unfold line_at.
    apply (continuous_plus (fun t : R * R => line_centre base i j k (fst t)) (fun t : R * R => snd t * line_half base i j k (fst t))).
    - apply (continuous_comp (fun t : R * R => fst t) (line_centre base i j k)); [apply continuous_fst|exact (centre_continuous s Hs)].
    - apply (continuous_mult (fun t : R * R => snd t) (fun t : R * R => line_half base i j k (fst t))); [apply continuous_snd|].
      apply (continuous_comp (fun t : R * R => fst t) (line_half base i j k)); [apply continuous_fst|exact (half_continuous s Hs)].
  Qed.
  Lemma sigma_continuous s z n : lo < s < hi ->
    continuous (fun t : R * R => line_sigma base j k (fst t) (line_at base i j k (fst t) (snd t)) n) (s, z).
  Proof.
    intros Hs. unfold line_sigma. destruct (n =? k)%Z; [apply continuous_fst|]. destruct (n =? j)%Z; [exact (at_continuous s z Hs)|].
    apply (continuous_minus (fun t : R * R => line_total base - fst t) (fun t : R * R => line_at base i j k (fst t) (snd t))); [|exact (at_continuous s z Hs)].
    apply (continuous_minus (fun t : R * R => line_total base) (fun t : R * R => fst t)); [apply continuous_const|apply continuous_fst].
  Qed.
  Lemma F_continuous s z : lo < s < hi -> -1 < z < 1 -> continuity_2d_pt F s z.
  Proof.
    intros Hs Hz. apply (proj2 (continuity_2d_pt_filterlim F s z)).
    exact (HC (s, z) _ _ _ (sigma_continuous s z 1 Hs) (sigma_continuous s z 2 Hs) (sigma_continuous s z 3 Hs) (line_inside base i j k Cy Op s z Hs Hz)).
  Qed.
  Lemma F_range s z : lo < s < hi -> -1 < z < 1 -> 0 <= F s z <= B.
  Proof. intros Hs Hz. exact (HB _ _ _ (line_inside base i j k Cy Op s z Hs Hz)). Qed.
  Lemma F_bounded s z : lo < s < hi -> -1 < z < 1 -> Rabs (F s z) <= B.
  Proof. intros Hs Hz. pose proof (F_range s z Hs Hz). rewrite Rabs_pos_eq; lra. Qed.
  Let P (s : R) : R := half s * RInt (F s) (-1) 1.

  Lemma slice_is_RInt s : lo < s < hi -> exists a b, a < b /\ dalitz_range (with_sigma base k s) i j k a b /\
    is_RInt (fun x => I (dalitz_line (with_sigma base k s) i j k x)) a b (P s).
  Proof.
    intros Hs. destruct (line_ends_at base i j k Cy Op s Hs) as [L Rg]. do 2 eexists. split; [exact L|]. split; [exact Rg|].
    pose proof (RInt_correct _ _ _ (slice_integrable F lo hi B F_continuous F_bounded s Hs)) as J.
    pose proof (line_integral (with_sigma base k s) i j k Cy (line_between base i j k Cy Op s Hs) _ _ (F s) _ Rg J) as K.
    replace ((line_at base i j k s 1 - line_at base i j k s (-1)) / 2 * RInt (F s) (-1) 1) with (P s) in K.
    - eapply is_RInt_ext; [|exact K]. intros x _. unfold F. cbn beta. rewrite (line_is_point base i j k Cy s x). f_equal. f_equal.
      rewrite (line_N_at base i j k Cy), (line_root_at base i j k Cy). unfold line_at, line_centre, line_half, n_theta.
      pose proof (line_pos base i j k Cy s Hs) as S0.
      pose proof (line_root_pos _ i j k (line_between base i j k Cy Op s Hs)) as R0. rewrite (line_root_at base i j k Cy) in R0.
      set (u := sqrt (kallen (square_at base 0) _ _)) in *. set (v := sqrt (kallen s _ _)) in *. assert (u <> 0) by (intros E; rewrite E in R0; lra).
      assert (v <> 0) by (intros E; rewrite E in R0; lra). field. repeat split; try assumption; lra.
    - unfold P, half, line_at. match goal with |- @eq _ ?l ?r => change (@eq R l r) end. field.
  Qed.
  Lemma P_nonneg s : lo < s < hi -> 0 <= P s.
  Proof.
    intros Hs. apply Rmult_le_pos; [left; exact (line_half_pos base i j k Cy Op s Hs)|].
    apply RInt_ge_0; [lra|exact (slice_integrable F lo hi B F_continuous F_bounded s Hs)|]. intros z Hz. apply (F_range s z Hs Hz).
  Qed.
  Lemma P_bounded s : lo < s < hi -> Rabs (P s) <= (upper_limit base j - lower_limit base j) * (2 * B).
  Proof.
    intros Hs. unfold P. rewrite Rabs_mult.
    apply Rmult_le_compat; [apply Rabs_pos|apply Rabs_pos| |exact (slice_bound F lo hi B F_continuous F_bounded s Hs)].
    pose proof (line_half_pos base i j k Cy Op s Hs) as H0. rewrite Rabs_pos_eq by (unfold half; lra). exact (line_half_bound base i j k Cy Op s Hs).
  Qed.
  Lemma P_continuous s : lo < s < hi -> continuous P s.
  Proof.
    intros Hs. apply (continuous_mult half (fun s => RInt (F s) (-1) 1)); [exact (half_continuous s Hs)|].
    exact (parameter_continuous F lo hi B F_continuous F_bounded s Hs).
  Qed.
  Lemma P_integrable : ex_RInt P lo hi.
  Proof. exact (open_ex_RInt P lo hi _ (line_open base i j k Cy Op) P_bounded P_continuous). Qed.

  Theorem rate_exists : exists N, integrates_to base I i j k N /\ 0 <= N /\
    ((exists s1 s2 s3, inside (fun x => Re (at_sigmas base s1 s2 s3 x)) /\ 0 < I (at_sigmas base s1 s2 s3)) -> 0 < N).
  Proof.
    exists (RInt P lo hi). split; [exists P; split; [exact slice_is_RInt|exact (RInt_correct _ _ _ P_integrable)]|]. split.
    - apply RInt_ge_0; [left; exact (line_open base i j k Cy Op)|exact P_integrable|exact P_nonneg].
    - intros (s1 & s2 & s3 & In0 & Pos). destruct (inside_line base i j k Cy Op s1 s2 s3 In0) as (s & z & Hs & Hz & E).
      apply (open_RInt_positive P lo hi s Hs P_integrable P_nonneg (P_continuous s Hs)).
      apply Rmult_lt_0_compat; [exact (line_half_pos base i j k Cy Op s Hs)|].
      apply (open_RInt_positive (F s) (-1) 1 z Hz (slice_integrable F lo hi B F_continuous F_bounded s Hs)).
      + intros y Hy. apply (F_range s y Hs Hy).
      + exact (slice_continuous F lo hi F_continuous s z Hs Hz).
      + unfold F. rewrite <- E. exact Pos.
  Qed.
End Distribution.

Theorem projection_unique base I i j k P P' s : cyclic i j k -> open_phase_space base -> projects_to base I i j k P -> projects_to base I i j k P' ->
  lower_limit base k < s < upper_limit base k -> P s = P' s.
Proof.
  intros Cy Op H H' Hs. destruct (H s Hs) as (a & b & _ & Rg & J), (H' s Hs) as (a' & b' & _ & Rg' & J').
  destruct (line_range_unique _ i j k Cy (line_between base i j k Cy Op s Hs) a b Rg) as [-> ->].
  destruct (line_range_unique _ i j k Cy (line_between base i j k Cy Op s Hs) a' b' Rg') as [-> ->].
  rewrite <- (is_RInt_unique _ _ _ _ J). exact (is_RInt_unique _ _ _ _ J').
Qed.
Theorem rate_unique base I i j k N N' : cyclic i j k -> open_phase_space base -> integrates_to base I i j k N -> integrates_to base I i j k N' -> N = N'.
Proof.
  intros Cy Op (P & H & J) (P' & H' & J'). rewrite <- (is_RInt_unique _ _ _ _ J).
  refine (is_RInt_unique _ _ _ _ (is_RInt_ext _ _ _ _ _ _ J')).
  pose proof (line_open base i j k Cy Op) as L. intros s. rewrite Rmin_left, Rmax_right by lra. intros Hs.
  exact (projection_unique base I i j k P' P s Cy Op H' H Hs).
Qed.
