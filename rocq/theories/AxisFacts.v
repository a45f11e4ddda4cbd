(** The integral over the Dalitz plot does not depend on the order of integration (proofs for C142) *)
From Coq Require Import String ZArith List Bool Reals Lra Lia Psatz.
From Coquelicot Require Import Coquelicot.
From Verif Require Import Prelude Decay Expr CExpr Angles SpecKin KinFacts AnglesFacts SpecDPD Builder SpecObs ObsKin SpecBounded SpecSmooth SpecNormal
  BoundedFacts IntegralFacts FubiniFacts NormalKin NormalFacts.
Import ListNotations.
Local Open Scope R_scope.

(** The Gram determinant at a point *)
Definition gram_at (pt : symbol -> C) : R :=
  let env := fun x => Re (pt x) in
  gram (at_m1 env * at_m1 env) (at_m2 env * at_m2 env) (at_m3 env * at_m3 env) (at_s1 env) (at_s2 env) (at_s3 env).
Definition gram_line (base : symbol -> C) (j k : Z) (s x : R) : R := gram_at (line_point base j k s x).

Lemma gram_continuous a b c (f1 f2 f3 : R * R -> R) p : continuous f1 p -> continuous f2 p -> continuous f3 p ->
  continuous (fun t => gram a b c (f1 t) (f2 t) (f3 t)) p.
Proof.
  intros C1 C2 C3.
  assert (Pl : forall g h : R * R -> R, continuous g p -> continuous h p -> continuous (fun t => g t + h t) p) by (intros g h; apply (continuous_plus g h)).
  assert (Mi : forall g h : R * R -> R, continuous g p -> continuous h p -> continuous (fun t => g t - h t) p) by (intros g h; apply (continuous_minus g h)).
  assert (Mu : forall g h : R * R -> R, continuous g p -> continuous h p -> continuous (fun t => g t * h t) p) by (intros g h; apply (continuous_mult g h)).
  assert (Co : forall r : R, continuous (fun t : R * R => r) p) by (intros; apply continuous_const).
  assert (Aff : forall (f : R * R -> R) u v, continuous f p -> continuous (fun t => (f t - u - v) / 2) p).
  { intros f u v Hf. apply (Mu (fun t => f t - u - v) (fun _ => / 2)); [|apply Co].
    apply (Mi (fun t => f t - u) (fun _ => v)); [apply (Mi f (fun _ => u))|]; auto. }
  assert (Poly : forall c12 c13 c23 : R * R -> R, continuous c12 p -> continuous c13 p -> continuous c23 p ->
    continuous (fun t => a * (b * c - c23 t * c23 t) - c12 t * (c12 t * c - c23 t * c13 t) + c13 t * (c12 t * c23 t - b * c13 t)) p).
  { intros c12 c13 c23 A3 A2 A1.
  apply (Pl (fun t => a * (b * c - c23 t * c23 t) - c12 t * (c12 t * c - c23 t * c13 t)) (fun t => c13 t * (c12 t * c23 t - b * c13 t))).
  - apply (Mi (fun t => a * (b * c - c23 t * c23 t)) (fun t => c12 t * (c12 t * c - c23 t * c13 t))).
    + apply (Mu (fun _ => a) (fun t => b * c - c23 t * c23 t)); [apply Co|]. apply (Mi (fun _ => b * c) (fun t => c23 t * c23 t)); [apply Co|]. apply (Mu c23 c23); assumption.
    + apply (Mu c12 (fun t => c12 t * c - c23 t * c13 t)); [assumption|]. apply (Mi (fun t => c12 t * c) (fun t => c23 t * c13 t)); [apply (Mu c12 (fun _ => c))|apply (Mu c23 c13)]; auto.
  - apply (Mu c13 (fun t => c12 t * c23 t - b * c13 t)); [assumption|]. apply (Mi (fun t => c12 t * c23 t) (fun t => b * c13 t)); [apply (Mu c12 c23)|apply (Mu (fun _ => b) c13)]; auto. }
  exact (Poly _ _ _ (Aff f3 a b C3) (Aff f2 a c C2) (Aff f1 b c C1)).
Qed.

Section Gram.
  Variables (base : symbol -> C) (i j k : Z).
  Hypothesis (Cy : cyclic i j k) (Op : open_phase_space base).
  Let lo := lower_limit base k. Let hi := upper_limit base k.
  Notation bs s := (with_sigma base k s).
  Let A (s : R) := kallen (square_at base 0) (square_at base k) s.
  Let B (s : R) := kallen s (square_at base i) (square_at base j).
  Let N (s x : R) := n_theta (square_at base 0) (square_at base i) (square_at base j) (square_at base k) x s.
  Lemma gram_line_id s x : A s * B s - N s x * N s x = 16 * s * gram_line base j k s x.
  Proof.
    unfold A, B, N, gram_line, gram_at, line_point. cbv zeta.
    assert (Md : square_at base 0 = line_sigma base j k s x 1 + line_sigma base j k s x 2 + line_sigma base j k s x 3
      - square_at base 1 - square_at base 2 - square_at base 3).
    { unfold line_sigma, line_total. destruct Cy as [E|[E|[E|[]]]]; injection E as <- <- <-; cbn [Z.eqb Pos.eqb]; ring. }
    destruct Cy as [E|[E|[E|[]]]]; injection E as <- <- <-.
    - exact (id_theta12 _ _ _ _ _ _ _ Md).
    - exact (id_theta23 _ _ _ _ _ _ _ Md).
    - exact (id_theta31 _ _ _ _ _ _ _ Md).
  Qed.
  Lemma roots_pos s : lo < s < hi -> 0 < A s /\ 0 < B s.
  Proof.
    intros Hs. pose proof (line_between base i j k Cy Op s Hs) as BT.
    pose proof (line_A_pos _ i j k BT) as A0. pose proof (line_B_pos _ i j k BT) as B0.
    unfold line_A in A0. unfold line_B in B0. rewrite (with_self base i j k Cy) in A0, B0.
    rewrite !(with_square base i j k Cy) in A0 by (cbn; tauto). rewrite !(with_square base i j k Cy) in B0 by (cbn; tauto).
    exact (conj A0 B0).
  Qed.
  Definition gram_scale (s : R) : R :=
    kallen (square_at base 0) (square_at base k) s * kallen s (square_at base i) (square_at base j) / (16 * s).
  Lemma gram_scale_pos s : lo < s < hi -> 0 < gram_scale s.
  Proof.
    intros Hs. destruct (roots_pos s Hs) as [A0 B0]. pose proof (line_pos base i j k Cy s Hs). unfold gram_scale.
    apply Rdiv_lt_0_compat; [apply Rmult_lt_0_compat; assumption|lra].
  Qed.
  Lemma gram_line_z s z : lo < s < hi -> gram_line base j k s (line_at base i j k s z) = gram_scale s * (1 - z * z).
  Proof.
    intros Hs. destruct (roots_pos s Hs) as [A0 B0]. pose proof (line_pos base i j k Cy s Hs) as S0.
    pose proof (gram_line_id s (line_at base i j k s z)) as E.
    assert (En : N s (line_at base i j k s z) = z * (sqrt (A s) * sqrt (B s))).
    { unfold N, A, B. rewrite <- (line_N_at base i j k Cy), <- (line_root_at base i j k Cy). exact (line_N_z base i j k Cy s z Hs). }
    rewrite En in E.
    replace (z * (sqrt (A s) * sqrt (B s)) * (z * (sqrt (A s) * sqrt (B s)))) with (z * z * ((sqrt (A s) * sqrt (A s)) * (sqrt (B s) * sqrt (B s)))) in E by ring.
    rewrite !sqrt_sqrt in E by lra. unfold gram_scale. fold (A s) (B s).
    apply (Rmult_eq_reg_l (16 * s)); [|lra]. rewrite <- E. field. lra.
  Qed.
  Lemma line_z s x : lo < s < hi -> exists z, x = line_at base i j k s z /\
    (line_at base i j k s (-1) < x < line_at base i j k s 1 <-> -1 < z < 1).
  Proof.
    intros Hs. pose proof (line_half_pos base i j k Cy Op s Hs) as H0. exists ((x - line_centre base i j k s) / line_half base i j k s). split.
    - unfold line_at. field. lra.
    - set (z := (x - line_centre base i j k s) / line_half base i j k s).
      assert (E : x = line_centre base i j k s + z * line_half base i j k s) by (unfold z; field; lra). rewrite E. unfold line_at. clearbody z. clear E.
      split; intros [H1 H2]; split; nra.
  Qed.
  Lemma gram_line_pos s x : lo < s < hi -> (0 < gram_line base j k s x <-> line_at base i j k s (-1) < x < line_at base i j k s 1).
  Proof.
    intros Hs. destruct (line_z s x Hs) as (z & -> & ->). rewrite (gram_line_z s z Hs). pose proof (gram_scale_pos s Hs).
    split; [intros G|intros [Z1 Z2]; apply Rmult_lt_0_compat; nra].
    assert (0 < 1 - z * z) by (destruct (Rle_or_lt (1 - z * z) 0); [exfalso; nra|assumption]). split; nra.
  Qed.
  Lemma gram_line_end s x : s = lo \/ s = hi -> gram_line base j k s x <= 0.
  Proof.
    intros Hs. pose proof (gram_line_id s x) as E. pose proof (line_open base i j k Cy Op) as L. fold lo hi in L.
    pose proof (line_lo base i j k Cy) as El. pose proof (line_hi base k) as Eh. fold lo in El. fold hi in Eh.
    destruct (line_masses base i j k Cy Op) as (M1 & M2 & M3 & M0).
    set (mi := Re (base (mass_at i))) in *. set (mj := Re (base (mass_at j))) in *. set (mk := Re (base (mass_at k))) in *. set (m0 := Re (base (mass_at 0))) in *.
    assert (EA : A s = (s - (m0 + mk) ^ 2) * (s - (m0 - mk) ^ 2)) by (unfold A, square_at; fold mk m0; apply kallen_prod).
    assert (EB : B s = (s - (mi + mj) ^ 2) * (s - (mi - mj) ^ 2)) by (unfold B, square_at; fold mi mj; apply kallen_pair).
    assert (Z : A s * B s = 0).
    { destruct Hs as [Hs|Hs]; rewrite EA, EB; [rewrite <- El, Hs|rewrite <- Eh, Hs]; ring. }
    rewrite Z in E. pose proof (Rle_0_sqr (N s x)) as Q. unfold Rsqr in Q. set (n2 := N s x * N s x) in *. clearbody n2.
    assert (S0 : 0 <= s) by (destruct Hs as [-> | ->]; [rewrite El|rewrite Eh]; apply pow2_ge_0).
    destruct S0 as [S0|S0].
    - destruct (Rle_or_lt (gram_line base j k s x) 0) as [G|G]; [exact G|]. exfalso.
      assert (0 < 16 * s * gram_line base j k s x) by (repeat apply Rmult_lt_0_compat; lra). lra.
    - (* the pair is massless *)
      assert (Hl : s = lo). { destruct Hs as [Hs|Hs]; [exact Hs|]. exfalso. rewrite El in L. pose proof (pow2_ge_0 (mi + mj)). lra. }
      assert (Zm : mi = 0 /\ mj = 0). { apply sum_zero; try assumption. rewrite <- El, <- Hl. lra. }
      destruct Zm as [Zi Zj]. right. unfold gram_line, gram_at, line_point. cbv zeta. rewrite <- S0. clear - Cy Zi Zj. subst mi mj.
      destruct Cy as [E|[E|[E|[]]]]; injection E as <- <- <-.
      + assert (Q1 : forall s1 s2 s3, at_m1 (fun x => Re (at_sigmas base s1 s2 s3 x)) = 0) by (intros; exact Zi).
        assert (Q2 : forall s1 s2 s3, at_m2 (fun x => Re (at_sigmas base s1 s2 s3 x)) = 0) by (intros; exact Zj).
        rewrite Q1, Q2. replace (0 * 0) with 0 by ring. exact (gram_zero3 _ _ _).
      + assert (Q1 : forall s1 s2 s3, at_m2 (fun x => Re (at_sigmas base s1 s2 s3 x)) = 0) by (intros; exact Zi).
        assert (Q2 : forall s1 s2 s3, at_m3 (fun x => Re (at_sigmas base s1 s2 s3 x)) = 0) by (intros; exact Zj).
        rewrite Q1, Q2. replace (0 * 0) with 0 by ring. exact (gram_zero1 _ _ _).
      + assert (Q1 : forall s1 s2 s3, at_m3 (fun x => Re (at_sigmas base s1 s2 s3 x)) = 0) by (intros; exact Zi).
        assert (Q2 : forall s1 s2 s3, at_m1 (fun x => Re (at_sigmas base s1 s2 s3 x)) = 0) by (intros; exact Zj).
        rewrite Q1, Q2. replace (0 * 0) with 0 by ring. exact (gram_zero2 _ _ _).
  Qed.
  Lemma line_sigma_continuous s x n : continuous (fun t : R * R => line_sigma base j k (fst t) (snd t) n) (s, x).
  Proof.
    unfold line_sigma. destruct (n =? k)%Z; [apply continuous_fst|]. destruct (n =? j)%Z; [apply continuous_snd|].
    apply (continuous_minus (fun t : R * R => line_total base - fst t) (fun t : R * R => snd t)); [|apply continuous_snd].
    apply (continuous_minus (fun t : R * R => line_total base) (fun t : R * R => fst t)); [apply continuous_const|apply continuous_fst].
  Qed.
  Lemma gram_line_continuous s x : continuous (fun t : R * R => gram_line base j k (fst t) (snd t)) (s, x).
  Proof.
    set (a := particle_mass base 1 * particle_mass base 1). set (b := particle_mass base 2 * particle_mass base 2). set (c := particle_mass base 3 * particle_mass base 3).
    exact (gram_continuous a b c _ _ _ (s, x) (line_sigma_continuous s x 1) (line_sigma_continuous s x 2) (line_sigma_continuous s x 3)).
  Qed.
  (** all three invariant masses are between their limits *)
  Lemma gram_line_limits s x : lo < s < hi -> 0 < gram_line base j k s x -> forall n, In n [i; j; k] ->
    lower_limit base n < line_sigma base j k s x n < upper_limit base n.
  Proof.
    intros Hs G. pose proof (proj1 (gram_line_pos s x Hs) G) as [X1 X2].
    assert (V : forall x n, In n [i; j; k] -> sigma_value (line_sigma base j k s x 1) (line_sigma base j k s x 2) (line_sigma base j k s x 3) n = line_sigma base j k s x n).
    { intros y n Hn. clear - Cy Hn. destruct Cy as [E|[E|[E|[]]]]; injection E as <- <- <-; repeat destruct Hn as [<-|Hn]; try contradiction; reflexivity. }
    assert (H3 : forall n, In n [i; j; k] -> In n [1; 2; 3]%Z).
    { intros n Hn. clear - Cy Hn. destruct Cy as [E|[E|[E|[]]]]; injection E as <- <- <-; repeat destruct Hn as [<-|Hn]; try contradiction; cbn; tauto. }
    assert (D : line_sigma base j k s x k = s /\ (forall y, line_sigma base j k s y j = y) /\ (forall y, line_sigma base j k s y i = line_total base - s - y)).
    { clear - Cy. destruct Cy as [E|[E|[E|[]]]]; injection E as <- <- <-; repeat split. }
    destruct D as (Dk & Dj & Di).
    intros n Hn.
    pose proof (sigma_limits base _ _ _ n (line_physical_at base i j k Cy Op s 1 Hs ltac:(lra)) (H3 n Hn)) as L1.
    pose proof (sigma_limits base _ _ _ n (line_physical_at base i j k Cy Op s (-1) Hs ltac:(lra)) (H3 n Hn)) as L2.
    rewrite V in L1, L2 by exact Hn. destruct Hn as [<-|[<-|[<-|[]]]].
    - rewrite !Di in *. lra.
    - rewrite !Dj in *. lra.
    - rewrite Dk. exact Hs.
  Qed.
  Lemma line_range_limits s : lo < s < hi -> lower_limit base j <= line_at base i j k s (-1) /\ line_at base i j k s 1 <= upper_limit base j /\
    lower_limit base i <= line_total base - s - line_at base i j k s 1 /\ line_total base - s - line_at base i j k s (-1) <= upper_limit base i.
  Proof.
    intros Hs.
    assert (H3 : In i [1; 2; 3]%Z /\ In j [1; 2; 3]%Z). { clear - Cy. destruct Cy as [E|[E|[E|[]]]]; injection E as <- <- <-; cbn; tauto. }
    destruct H3 as [Hi Hj].
    assert (V : forall x, sigma_value (line_sigma base j k s x 1) (line_sigma base j k s x 2) (line_sigma base j k s x 3) j = x /\
      sigma_value (line_sigma base j k s x 1) (line_sigma base j k s x 2) (line_sigma base j k s x 3) i = line_total base - s - x).
    { intros y. clear - Cy. destruct Cy as [E|[E|[E|[]]]]; injection E as <- <- <-; split; reflexivity. }
    pose proof (sigma_limits base _ _ _ j (line_physical_at base i j k Cy Op s 1 Hs ltac:(lra)) Hj) as L1.
    pose proof (sigma_limits base _ _ _ j (line_physical_at base i j k Cy Op s (-1) Hs ltac:(lra)) Hj) as L2.
    pose proof (sigma_limits base _ _ _ i (line_physical_at base i j k Cy Op s 1 Hs ltac:(lra)) Hi) as L3.
    pose proof (sigma_limits base _ _ _ i (line_physical_at base i j k Cy Op s (-1) Hs ltac:(lra)) Hi) as L4.
    rewrite (proj1 (V _)) in L1. rewrite (proj1 (V _)) in L2. rewrite (proj2 (V _)) in L3. rewrite (proj2 (V _)) in L4. lra.
  Qed.
End Gram.

(** ** A smooth cut at the boundary of the Dalitz plot *)
Definition soft (n u : R) : R := n * Rmax u 0 / (1 + n * Rmax u 0).
Lemma soft_range n u : 0 < n -> 0 <= soft n u <= 1.
Proof.
  intros Hn. unfold soft. pose proof (Rmax_r u 0) as M. set (v := Rmax u 0) in *. assert (0 <= n * v) by nra. split.
  - apply Rmult_le_pos; [assumption|]. left. apply Rinv_0_lt_compat. lra.
  - apply (Rmult_le_reg_r (1 + n * v)); [lra|]. unfold Rdiv. rewrite Rmult_assoc, Rinv_l by lra. lra.
Qed.
Lemma soft_zero n u : u <= 0 -> soft n u = 0.
Proof. intros H. unfold soft. rewrite Rmax_right by exact H. unfold Rdiv. ring. Qed.
Lemma soft_near n u c : 0 < n -> 0 < c -> c <= u -> 1 - soft n u <= / (n * c).
Proof.
  intros Hn Hc Hu. unfold soft. rewrite Rmax_left by lra. assert (0 < n * c) by nra. assert (n * c <= n * u) by nra.
  replace (1 - n * u / (1 + n * u)) with (/ (1 + n * u)) by (field; lra). apply Rinv_le_contravar; lra.
Qed.
Lemma soft_continuous n u : 0 < n -> continuous (soft n) u.
Proof.
  intros Hn. pose proof (Rmax_r u 0) as M. assert (0 <= n * Rmax u 0) by nra.
  assert (Cm : continuous (fun u => n * Rmax u 0) u).
  { apply (continuous_mult (fun _ => n) (fun u => Rmax u 0)); [apply continuous_const|].
    apply (continuous_ext (fun u => (u + Rabs u) / 2)).
    - intros v. unfold Rmax, Rabs. match goal with |- @eq _ ?l ?r => change (@eq R l r) end. destruct (Rle_dec v 0), (Rcase_abs v); lra.
    - apply (continuous_mult (fun u => u + Rabs u) (fun _ => / 2)); [|apply continuous_const].
      apply (continuous_plus (fun u => u) Rabs); [apply continuous_id|]. apply continuous_Rabs. }
  unfold soft. apply (continuous_mult (fun u => n * Rmax u 0) (fun u => / (1 + n * Rmax u 0))); [exact Cm|].
  apply (continuous_comp (fun u => 1 + n * Rmax u 0) Rinv); [apply (continuous_plus (fun _ => 1) (fun u => n * Rmax u 0)); [apply continuous_const|exact Cm]|].
  apply (ex_derive_continuous Rinv). auto_derive. lra.
Qed.

(** ** Bounds of integrals *)
Lemma RInt_margins (f : R -> R) a b d K e : ex_RInt f a b -> 0 < d -> a + d <= b - d -> 0 <= e -> (forall x, a < x < b -> f x <= K) ->
  (forall x, a + d < x < b - d -> f x <= e) -> RInt f a b <= 2 * d * K + (b - a) * e.
Proof.
  intros Ex Hd Hab He HK Hf.
  assert (X1 : ex_RInt f a (b - d)) by (apply (ex_RInt_Chasles_1 f a (b - d) b); [lra|exact Ex]).
  assert (X2 : ex_RInt f (b - d) b) by (apply (ex_RInt_Chasles_2 f a (b - d) b); [lra|exact Ex]).
  assert (X3 : ex_RInt f a (a + d)) by (apply (ex_RInt_Chasles_1 f a (a + d) (b - d)); [lra|exact X1]).
  assert (X4 : ex_RInt f (a + d) (b - d)) by (apply (ex_RInt_Chasles_2 f a (a + d) (b - d)); [lra|exact X1]).
  pose proof (RInt_Chasles f a (b - d) b X1 X2) as E1. pose proof (RInt_Chasles f a (a + d) (b - d) X3 X4) as E2.
  change (RInt f a (b - d) + RInt f (b - d) b = RInt f a b) in E1. change (RInt f a (a + d) + RInt f (a + d) (b - d) = RInt f a (b - d)) in E2.
  assert (Le : forall u v M, u <= v -> ex_RInt f u v -> (forall x, u < x < v -> f x <= M) -> RInt f u v <= (v - u) * M).
  { intros u v M Huv X HM. pose proof (RInt_le f (fun _ => M) u v Huv X (ex_RInt_const _ _ _) HM) as Q. rewrite RInt_const in Q. exact Q. }
  pose proof (Le a (a + d) K ltac:(lra) X3 ltac:(intros; apply HK; lra)) as Q1.
  pose proof (Le (a + d) (b - d) e ltac:(lra) X4 ltac:(intros; apply Hf; lra)) as Q2.
  pose proof (Le (b - d) b K ltac:(lra) X2 ltac:(intros; apply HK; lra)) as Q3.
  assert ((b - d - (a + d)) * e <= (b - a) * e) by (apply Rmult_le_compat_r; lra). lra.
Qed.
Lemma is_RInt_vanish (f : R -> R) L U a b (v : R) : L <= a -> a <= b -> b <= U -> (forall x, L < x < a -> f x = 0) -> (forall x, b < x < U -> f x = 0) ->
  is_RInt f a b v -> is_RInt f L U v.
Proof.
  intros La Hab Ub Z1 Z2 J.
  assert (Z : forall u w, u <= w -> (forall x, u < x < w -> f x = 0) -> is_RInt f u w 0).
  { intros u w Huw Hz. apply (is_RInt_ext (fun _ => 0)).
    - intros x. rewrite Rmin_left, Rmax_right by lra. intros Hx. symmetry. apply Hz, Hx.
    - pose proof (is_RInt_const u w 0) as Q. change (is_RInt (fun _ : R => 0) u w ((w - u) * 0)) in Q. rewrite Rmult_0_r in Q. exact Q. }
  pose proof (is_RInt_Chasles _ _ _ _ _ _ (is_RInt_Chasles _ _ _ _ _ _ (Z L a La Z1) J) (Z b U Ub Z2)) as Q.
  change (is_RInt f L U (0 + v + 0)) in Q. replace (0 + v + 0) with v in Q by ring. exact Q.
Qed.

(** ** Limits of inequalities *)
Lemma small_le N X Q d : 0 < d -> 0 <= Q -> (forall e, 0 < e < d -> N <= X + Q * e) -> N <= X.
Proof.
  intros Hd HQ H. apply le_epsilon. intros e He. set (t := Rmin (d / 2) (e / (Q + 1))).
  assert (T0 : 0 < t) by (apply Rmin_glb_lt; [lra|apply Rdiv_lt_0_compat; lra]). pose proof (Rmin_l (d / 2) (e / (Q + 1))) as M1. pose proof (Rmin_r (d / 2) (e / (Q + 1))) as M2. fold t in M1, M2.
  specialize (H t ltac:(lra)). assert (Q * t <= e); [|lra].
  apply Rle_trans with ((Q + 1) * t); [nra|]. apply Rle_trans with ((Q + 1) * (e / (Q + 1))); [apply Rmult_le_compat_l; lra|]. right. field. lra.
Qed.
