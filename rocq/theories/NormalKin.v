(** Lines in the Dalitz plot (proofs for C142) *)
From Coq Require Import String ZArith List Bool Reals Lra Lia Psatz FunctionalExtensionality.
From Coquelicot Require Import Coquelicot.
From Verif Require Import Prelude Decay Expr CExpr Angles SpecKin KinFacts AnglesFacts SpecDPD Builder SpecDynamics SpecObs ObsKin SpecBounded
  SpecSmooth BoundedFacts SmoothAngles SpecNormal.
Import ListNotations.
Local Open Scope R_scope.

(** ** Inside the Dalitz plot all break-up momenta are positive *)
Lemma kallen_pair s a b : kallen s (a * a) (b * b) = (s - (a + b) ^ 2) * (s - (a - b) ^ 2).
Proof. unfold kallen. ring. Qed.
Lemma kallen_prod s a b : kallen (a * a) (b * b) s = (s - (a + b) ^ 2) * (s - (a - b) ^ 2).
Proof. unfold kallen. ring. Qed.
Lemma pair_nonneg s a b : 0 <= a -> 0 <= b -> (a + b) ^ 2 <= s -> 0 <= kallen s (a * a) (b * b).
Proof. intros A B S. rewrite kallen_pair. apply Rmult_le_pos; [lra|]. nra. Qed.
Lemma prod_nonneg s a b : 0 <= a -> 0 <= b -> s <= (a - b) ^ 2 -> 0 <= kallen (a * a) (b * b) s.
Proof.
  intros A B S. rewrite kallen_prod. replace (_ * _) with (((a + b) ^ 2 - s) * ((a - b) ^ 2 - s)) by ring. apply Rmult_le_pos; [nra|lra].
Qed.
Lemma both_pos a b n : 0 <= a -> 0 <= b -> n * n < a * b -> 0 < a /\ 0 < b.
Proof. intros A B L. assert (0 <= n * n) by nra. split; nra. Qed.

Lemma gram_zero1 x1 s2 s3 : gram x1 0 0 0 s2 s3 = 0. Proof. unfold gram. field. Qed.
Lemma gram_zero2 x2 s1 s3 : gram 0 x2 0 s1 0 s3 = 0. Proof. unfold gram. field. Qed.
Lemma gram_zero3 x3 s1 s2 : gram 0 0 x3 s1 s2 0 = 0. Proof. unfold gram. field. Qed.
Lemma sum_zero a b : 0 <= a -> 0 <= b -> (a + b) ^ 2 <= 0 -> a = 0 /\ b = 0.
Proof. intros A B L. split; nra. Qed.

Lemma gram_nonsingular env : physical env ->
  0 < gram (at_m1 env * at_m1 env) (at_m2 env * at_m2 env) (at_m3 env * at_m3 env) (at_s1 env) (at_s2 env) (at_s3 env) -> nonsingular env.
Proof.
  intros (p1 & p2 & p3 & H) G. pose proof (pf_mand _ _ _ _ _ _ _ (physical_facts _ _ _ _ H)) as Md.
  destruct H as (O1 & O2 & O3 & O0 & S1 & S2 & S3).
  assert (L1 := pair_limits _ _ _ _ _ _ _ O1 O2 O3 O0). rewrite <- S1 in L1.
  assert (O0' : on_shell (at_m0 env) (add4 p2 (add4 p3 p1))) by (rewrite <- add4_rot; exact O0).
  assert (L2 := pair_limits _ _ _ _ _ _ _ O2 O3 O1 O0'). rewrite <- S2 in L2.
  assert (O0'' : on_shell (at_m0 env) (add4 p3 (add4 p1 p2))) by (rewrite <- add4_rot; exact O0').
  assert (L3 := pair_limits _ _ _ _ _ _ _ O3 O1 O2 O0''). rewrite <- S3 in L3.
  destruct O1 as (N1 & _), O2 as (N2 & _), O3 as (N3 & _), O0 as (N0 & _). clear S1 S2 S3 O0' O0'' p1 p2 p3.
  unfold nonsingular.
  set (m0 := at_m0 env) in *. set (m1 := at_m1 env) in *. set (m2 := at_m2 env) in *. set (m3 := at_m3 env) in *.
  set (s1 := at_s1 env) in *. set (s2 := at_s2 env) in *. set (s3 := at_s3 env) in *. clearbody m0 m1 m2 m3 s1 s2 s3.
  assert (P1 : 0 < s1).
  { destruct (Rle_or_lt s1 0) as [Z|Z]; [|exact Z]. exfalso. assert (E : s1 = 0) by nra.
    destruct (sum_zero m2 m3 N2 N3) as [-> ->]; [lra|]. subst s1. replace (0 * 0) with 0 in G by ring. rewrite gram_zero1 in G. lra. }
  assert (P2 : 0 < s2).
  { destruct (Rle_or_lt s2 0) as [Z|Z]; [|exact Z]. exfalso. assert (E : s2 = 0) by nra.
    destruct (sum_zero m3 m1 N3 N1) as [-> ->]; [lra|]. subst s2. replace (0 * 0) with 0 in G by ring. rewrite gram_zero2 in G. lra. }
  assert (P3 : 0 < s3).
  { destruct (Rle_or_lt s3 0) as [Z|Z]; [|exact Z]. exfalso. assert (E : s3 = 0) by nra.
    destruct (sum_zero m1 m2 N1 N2) as [-> ->]; [lra|]. subst s3. replace (0 * 0) with 0 in G by ring. rewrite gram_zero3 in G. lra. }
  pose proof (id_theta12 _ _ _ _ _ _ _ Md) as I3. pose proof (id_theta23 _ _ _ _ _ _ _ Md) as I1. pose proof (id_theta31 _ _ _ _ _ _ _ Md) as I2.
  cbv zeta in I1, I2, I3.
  set (g := gram _ _ _ _ _ _) in *. clearbody g.
  assert (Q1 : 0 < 16 * s1 * g) by (repeat apply Rmult_lt_0_compat; lra).
  assert (Q2 : 0 < 16 * s2 * g) by (repeat apply Rmult_lt_0_compat; lra).
  assert (Q3 : 0 < 16 * s3 * g) by (repeat apply Rmult_lt_0_compat; lra).
  rewrite <- I1 in Q1. rewrite <- I2 in Q2. rewrite <- I3 in Q3.
  destruct (both_pos _ _ _ (prod_nonneg s1 m0 m1 N0 N1 (proj2 L1)) (pair_nonneg s1 m2 m3 N2 N3 (proj1 L1)) (proj2 (Rminus_lt_0 _ _) Q1)) as [A1 B1].
  destruct (both_pos _ _ _ (prod_nonneg s2 m0 m2 N0 N2 (proj2 L2)) (pair_nonneg s2 m3 m1 N3 N1 (proj1 L2)) (proj2 (Rminus_lt_0 _ _) Q2)) as [A2 B2].
  destruct (both_pos _ _ _ (prod_nonneg s3 m0 m3 N0 N3 (proj2 L3)) (pair_nonneg s3 m1 m2 N1 N2 (proj1 L3)) (proj2 (Rminus_lt_0 _ _) Q3)) as [A3 B3].
  repeat split; assumption.
Qed.

(** ** The points of a line in terms of the three invariant masses *)
Definition line_total (base : symbol -> C) : R := square_at base 0 + square_at base 1 + square_at base 2 + square_at base 3.
Definition line_sigma (base : symbol -> C) (j k : Z) (s x : R) (n : Z) : R :=
  if (n =? k)%Z then s else if (n =? j)%Z then x else line_total base - s - x.
Definition line_point (base : symbol -> C) (j k : Z) (s x : R) : symbol -> C :=
  at_sigmas base (line_sigma base j k s x 1) (line_sigma base j k s x 2) (line_sigma base j k s x 3).

Section Line.
  Variables (base : symbol -> C) (i j k : Z).
  Hypothesis (Cy : cyclic i j k) (Op : open_phase_space base).
  Let lo := lower_limit base k. Let hi := upper_limit base k.
  Lemma line_is_point s x : dalitz_line (with_sigma base k s) i j k x = line_point base j k s x.
  Proof.
    apply functional_extensionality. intros y. unfold dalitz_line, line_point, at_sigmas, line_total.
    destruct Cy as [E|[E|[E|[]]]]; injection E as <- <- <-; unfold line_sigma, with_sigma, sigma_at; cbn [Z.eqb Pos.eqb];
      change ("sigma" ++ str_of_Z 1)%string with "sigma1"%string; change ("sigma" ++ str_of_Z 2)%string with "sigma2"%string;
      change ("sigma" ++ str_of_Z 3)%string with "sigma3"%string.
    - destruct (eqb y (Sym "sigma2" ANonneg)) eqn:E2, (eqb y (Sym "sigma1" ANonneg)) eqn:E1, (eqb y (Sym "sigma3" ANonneg)) eqn:E3; try reflexivity.
      all: try (apply (proj1 (eqb_eq _ _)) in E1); try (apply (proj1 (eqb_eq _ _)) in E2); try (apply (proj1 (eqb_eq _ _)) in E3);
        try congruence; try (exfalso; rewrite E1 in E2; discriminate E2); try (exfalso; rewrite E1 in E3; discriminate E3); try (exfalso; rewrite E2 in E3; discriminate E3).
    - destruct (eqb y (Sym "sigma2" ANonneg)) eqn:E2, (eqb y (Sym "sigma1" ANonneg)) eqn:E1, (eqb y (Sym "sigma3" ANonneg)) eqn:E3; try reflexivity.
      all: try (apply (proj1 (eqb_eq _ _)) in E1); try (apply (proj1 (eqb_eq _ _)) in E2); try (apply (proj1 (eqb_eq _ _)) in E3);
        try congruence; try (exfalso; rewrite E1 in E2; discriminate E2); try (exfalso; rewrite E1 in E3; discriminate E3); try (exfalso; rewrite E2 in E3; discriminate E3).
    - destruct (eqb y (Sym "sigma2" ANonneg)) eqn:E2, (eqb y (Sym "sigma1" ANonneg)) eqn:E1, (eqb y (Sym "sigma3" ANonneg)) eqn:E3; try reflexivity.
      all: try (apply (proj1 (eqb_eq _ _)) in E1); try (apply (proj1 (eqb_eq _ _)) in E2); try (apply (proj1 (eqb_eq _ _)) in E3);
        try congruence; try (exfalso; rewrite E1 in E2; discriminate E2); try (exfalso; rewrite E1 in E3; discriminate E3); try (exfalso; rewrite E2 in E3; discriminate E3).
  Qed.
  Notation bs s := (with_sigma base k s).
  Notation mi := (Re (base (mass_at i))). Notation mj := (Re (base (mass_at j))). Notation mk := (Re (base (mass_at k))).
  Notation m0 := (Re (base (mass_at 0))).
  Lemma with_mass s n : In n [0; i; j; k]%Z -> with_sigma base k s (mass_at n) = base (mass_at n).
  Proof.
    intros Hn. destruct Cy as [E|[E|[E|[]]]]; injection E as <- <- <-; repeat destruct Hn as [<-|Hn]; try contradiction; reflexivity.
  Qed.
  Lemma with_self s : with_sigma base k s (sigma_at k) = RtoC s.
  Proof. destruct Cy as [E|[E|[E|[]]]]; injection E as <- <- <-; reflexivity. Qed.
  Lemma with_square s n : In n [0; i; j; k]%Z -> square_at (with_sigma base k s) n = square_at base n.
  Proof. intros Hn. unfold square_at. rewrite (with_mass s n Hn). reflexivity. Qed.
  Lemma line_masses : 0 <= mi /\ 0 <= mj /\ 0 <= mk /\ mi + mj + mk < m0.
  Proof.
    destruct Op as (A & B & D & E). destruct Cy as [F|[F|[F|[]]]]; injection F as <- <- <-.
    - exact (conj A (conj B (conj D E))).
    - repeat split; try assumption. change (particle_mass base 2 + particle_mass base 3 + particle_mass base 1 < particle_mass base 0). lra.
    - repeat split; try assumption. change (particle_mass base 3 + particle_mass base 1 + particle_mass base 2 < particle_mass base 0). lra.
  Qed.
  Lemma line_lo : lo = (mi + mj) ^ 2.
  Proof. unfold lo. destruct Cy as [F|[F|[F|[]]]]; injection F as <- <- <-; reflexivity. Qed.
  Lemma line_hi : hi = (m0 - mk) ^ 2. Proof. reflexivity. Qed.
  Lemma line_open : lo < hi.
  Proof. rewrite line_lo, line_hi. destruct line_masses as (A & B & D & E). nra. Qed.
  Lemma line_between s : lo < s < hi -> between_thresholds (bs s) i j k.
  Proof.
    rewrite line_lo, line_hi. intros [L H]. destruct line_masses as (A & B & D & E). unfold between_thresholds. cbv zeta.
    rewrite !with_mass by (cbn; tauto). rewrite with_self. cbn [RtoC Re fst].
    repeat split; try assumption.
    - rewrite <- (sqrt_pow2 (mi + mj)) by lra. pose proof (pow2_ge_0 (mi + mj)). apply sqrt_lt_1; lra.
    - rewrite <- (sqrt_pow2 (m0 - mk)) by lra. pose proof (pow2_ge_0 (mi + mj)). pose proof (pow2_ge_0 (m0 - mk)). apply sqrt_lt_1; lra.
  Qed.
  Lemma line_pos s : lo < s < hi -> 0 < s.
  Proof. rewrite line_lo. intros [L _]. apply Rle_lt_trans with (2 := L). apply pow2_ge_0. Qed.

  (** centre and half the length of the line *)
  Definition line_half (s : R) : R :=
    sqrt (kallen (square_at base 0) (square_at base k) s) * sqrt (kallen s (square_at base i) (square_at base j)) / (2 * s).
  Definition line_centre (s : R) : R := - n_theta (square_at base 0) (square_at base i) (square_at base j) (square_at base k) 0 s / (2 * s).
  Definition line_at (s z : R) : R := line_centre s + z * line_half s.
  Lemma line_root_at s : line_root (bs s) i j k =
    sqrt (kallen (square_at base 0) (square_at base k) s) * sqrt (kallen s (square_at base i) (square_at base j)).
  Proof. unfold line_root, line_A, line_B. rewrite with_self, !with_square by (cbn; tauto). reflexivity. Qed.
  Lemma line_N_at s x : line_N (bs s) i j k x = n_theta (square_at base 0) (square_at base i) (square_at base j) (square_at base k) x s.
  Proof. unfold line_N. rewrite with_self, !with_square by (cbn; tauto). reflexivity. Qed.
  Lemma line_end_at s z : lo < s < hi -> line_end (bs s) i j k z = line_at s z.
  Proof.
    intros Hs. pose proof (line_pos s Hs). unfold line_end, line_at, line_centre, line_half. rewrite line_root_at, line_N_at, with_self. cbn [RtoC Re fst].
    field. lra.
  Qed.
  Lemma line_half_pos s : lo < s < hi -> 0 < line_half s.
  Proof.
    intros Hs. pose proof (line_root_pos (bs s) i j k (line_between s Hs)) as X. rewrite line_root_at in X. unfold line_half.
    apply Rdiv_lt_0_compat; [exact X|]. pose proof (line_pos s Hs). lra.
  Qed.
  Lemma line_N_z s z : lo < s < hi -> line_N (bs s) i j k (line_at s z) = z * line_root (bs s) i j k.
  Proof.
    intros Hs. pose proof (line_pos s Hs). rewrite line_N_at, line_root_at. unfold line_at, line_centre, line_half, n_theta. field. lra.
  Qed.
  Lemma line_physical_at s z : lo < s < hi -> -1 <= z <= 1 -> physical (fun y => Re (line_point base j k s (line_at s z) y)).
  Proof.
    intros Hs Hz. rewrite <- line_is_point. change (physical (line_env (bs s) i j k (line_at s z))).
    apply (proj2 (line_physical (bs s) i j k Cy (line_between s Hs) (line_at s z))).
    rewrite line_N_z by exact Hs. rewrite <- (line_root_sq (bs s) i j k (line_between s Hs)).
    pose proof (line_root_pos (bs s) i j k (line_between s Hs)) as X. set (r := line_root (bs s) i j k) in *.
    replace (z * r * (z * r)) with (z * z * (r * r)) by ring. assert (0 < r * r) by nra. assert (z * z <= 1) by nra. nra.
  Qed.
  (** the Gram determinant on the line *)
  Let g (env : symbol -> R) : R :=
    gram (at_m1 env * at_m1 env) (at_m2 env * at_m2 env) (at_m3 env * at_m3 env) (at_s1 env) (at_s2 env) (at_s3 env).
  Lemma line_gram s x : physical (line_env (bs s) i j k x) ->
    line_A (bs s) k * line_B (bs s) i j k - line_N (bs s) i j k x * line_N (bs s) i j k x = 16 * s * g (line_env (bs s) i j k x).
  Proof.
    intros (p1 & p2 & p3 & H). pose proof (pf_mand _ _ _ _ _ _ _ (physical_facts _ _ _ _ H)) as Md.
    destruct Cy as [E|[E|[E|[]]]]; injection E as <- <- <-.
    - exact (id_theta12 _ _ _ _ _ _ _ Md).
    - exact (id_theta23 _ _ _ _ _ _ _ Md).
    - exact (id_theta31 _ _ _ _ _ _ _ Md).
  Qed.
  Lemma line_inside s z : lo < s < hi -> -1 < z < 1 ->
    on_dalitz_plot base (line_sigma base j k s (line_at s z) 1) (line_sigma base j k s (line_at s z) 2) (line_sigma base j k s (line_at s z) 3).
  Proof.
    intros Hs Hz. pose proof (line_physical_at s z Hs ltac:(lra)) as Ph. split; [exact Ph|].
    change (nonsingular (fun y => Re (line_point base j k s (line_at s z) y))). rewrite <- line_is_point in Ph |- *.
    change (physical (line_env (bs s) i j k (line_at s z))) in Ph. change (nonsingular (line_env (bs s) i j k (line_at s z))).
    apply gram_nonsingular; [exact Ph|]. pose proof (line_gram s (line_at s z) Ph) as G.
    fold (g (line_env (bs s) i j k (line_at s z))). set (d := g _) in *. clearbody d.
    rewrite line_N_z in G by exact Hs. rewrite <- (line_root_sq (bs s) i j k (line_between s Hs)) in G.
    pose proof (line_root_pos (bs s) i j k (line_between s Hs)) as X. set (r := line_root (bs s) i j k) in *. clearbody r. clear Ph.
    assert (Q : 0 < r * r - z * r * (z * r)).
    { replace (r * r - z * r * (z * r)) with (r * r * ((1 - z) * (1 + z))) by ring. repeat apply Rmult_lt_0_compat; lra. }
    rewrite G in Q. pose proof (line_pos s Hs) as S. clear - Q S. destruct (Rle_or_lt d 0) as [D|D]; [|exact D]. exfalso. nra.
  Qed.
  (** every point inside the Dalitz plot is on such a line *)
  Lemma inside_line s1 s2 s3 : inside (fun x => Re (at_sigmas base s1 s2 s3 x)) ->
    exists s z, lo < s < hi /\ -1 < z < 1 /\ at_sigmas base s1 s2 s3 = line_point base j k s (line_at s z).
  Proof.
    intros In0. pose proof (inside_physical _ In0) as Ph. pose proof (inside_gram _ In0) as G.
    pose proof (gram_nonsingular _ Ph G) as Ns.
    assert (Hk : In k [1; 2; 3]%Z) by (destruct Cy as [E|[E|[E|[]]]]; injection E as <- <- <-; cbn; tauto).
    pose proof (sigma_limits base s1 s2 s3 k Ph Hk) as Lim. fold lo hi in Lim.
    set (s := sigma_value s1 s2 s3 k) in *. set (x := sigma_value s1 s2 s3 j).
    assert (Kal : 0 < kallen s (mi * mi) (mj * mj) /\ 0 < kallen (m0 * m0) (mk * mk) s).
    { destruct Ns as (A1 & A2 & A3 & B1 & B2 & B3). clear Lim. unfold s. destruct Cy as [E|[E|[E|[]]]]; injection E as <- <- <-; split; assumption. }
    assert (Hs : lo < s < hi).
    { destruct Kal as [K1 K2]. rewrite kallen_pair, <- line_lo in K1. rewrite kallen_prod, <- line_hi in K2. destruct Lim as [L1 L2].
      split; [destruct L1 as [L|L]; [exact L|]|destruct L2 as [L|L]; [exact L|]]; exfalso; rewrite L in *; nra. }
    assert (Eq : at_sigmas base s1 s2 s3 = line_point base j k s x).
    { destruct Ph as (p1 & p2 & p3 & H). pose proof (pf_mand _ _ _ _ _ _ _ (physical_facts _ _ _ _ H)) as Md.
      change (square_at base 0 = s1 + s2 + s3 - square_at base 1 - square_at base 2 - square_at base 3) in Md.
      unfold line_point, line_sigma, line_total, s, x. destruct Cy as [E|[E|[E|[]]]]; injection E as <- <- <-; unfold sigma_value; cbn [Z.eqb Pos.eqb]; f_equal; lra. }
    pose proof (line_half_pos s Hs) as Hp. set (z := (x - line_centre s) / line_half s).
    assert (Ez : line_at s z = x) by (unfold line_at, z; field; lra).
    exists s, z. rewrite Ez. split; [exact Hs|]. split; [|exact Eq].
    rewrite Eq in Ph, G. rewrite <- line_is_point in Ph, G. change (physical (line_env (bs s) i j k x)) in Ph.
    pose proof (line_gram s x Ph) as Gr. change (0 < g (line_env (bs s) i j k x)) in G. set (d := g _) in *. clearbody d.
    rewrite <- Ez, line_N_z in Gr by exact Hs. rewrite <- (line_root_sq (bs s) i j k (line_between s Hs)) in Gr.
    pose proof (line_root_pos (bs s) i j k (line_between s Hs)) as X. set (r := line_root (bs s) i j k) in *. clearbody r.
    assert (Q : 0 < 16 * s * d) by (pose proof (line_pos s Hs); repeat apply Rmult_lt_0_compat; lra).
    rewrite <- Gr in Q. clear - Q X. replace (r * r - z * r * (z * r)) with (r * r * (1 - z * z)) in Q by ring.
    assert (0 < 1 - z * z). { destruct (Rle_or_lt (1 - z * z) 0) as [D|D]; [|exact D]. exfalso. nra. } split; nra.
  Qed.
  Lemma line_ends_at s : lo < s < hi -> line_at s (-1) < line_at s 1 /\ dalitz_range (bs s) i j k (line_at s (-1)) (line_at s 1).
  Proof.
    intros Hs. destruct (line_range_ex (bs s) i j k Cy (line_between s Hs)) as (a & b & L & Rg).
    destruct (line_range_unique (bs s) i j k Cy (line_between s Hs) a b Rg) as [Ea Eb]. rewrite line_end_at in Ea, Eb by exact Hs. subst a b.
    exact (conj L Rg).
  Qed.
  (** the lines are not longer than the range of sigma_j *)
  Lemma line_half_bound s : lo < s < hi -> line_half s <= upper_limit base j - lower_limit base j.
  Proof.
    intros Hs. assert (Hj : In j [1; 2; 3]%Z) by (destruct Cy as [E|[E|[E|[]]]]; injection E as <- <- <-; cbn; tauto).
    assert (V : forall x, sigma_value (line_sigma base j k s x 1) (line_sigma base j k s x 2) (line_sigma base j k s x 3) j = x).
    { intros x. destruct Cy as [E|[E|[E|[]]]]; injection E as <- <- <-; reflexivity. }
    pose proof (sigma_limits base _ _ _ j (line_physical_at s 1 Hs ltac:(lra)) Hj) as A. pose proof (sigma_limits base _ _ _ j (line_physical_at s 0 Hs ltac:(lra)) Hj) as B.
    rewrite V in A, B. unfold line_at in A, B. lra.
  Qed.
End Line.
