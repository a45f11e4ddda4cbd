(** Spin density matrices of aligned amplitudes (C140) *)
From Coq Require Import String ZArith QArith Qcanon List Bool Reals Lia Lra Permutation.
From Coquelicot Require Import Complex.
From Verif Require Import Prelude Spin Decay Expr Angles Sums Wigner CG CExpr SpecKin SpecDPD Builder
  SpinFacts DecayFacts KinFacts AnglesFacts AnglesProofs WignerFacts CExprFacts BuilderFacts ModelFacts RefFacts
  SpecBuilder SpecLine LineProofs SpecParity ParityProofs FractionProofs EnvelopeFacts SpecPolar.
Import ListNotations.
Local Open Scope Z_scope.

Definition spinless : state := State (Particle "" "" 0 None (Q2Qc 0) (Q2Qc 0)) 0.
Definition without (s : Z -> state) (n i : Z) : state := if i =? n then spinless else s i.
Lemma other_tuples_eq s n : other_tuples s n = tuples (without s n).
Proof.
  unfold other_tuples, tuples. cbv zeta.
  assert (H : forall i, (if i =? n then [0] else helicities (p_spin (s i))) = helicities (p_spin (without s n i))).
  { intros i. unfold without. destruct (i =? n); reflexivity. }
  rewrite <- !H. reflexivity.
Qed.
Ltac four H := apply In_0123 in H; destruct H as [->|[->|[->| ->]]].
Lemma split_tuples s n f : In n [0; 1; 2; 3] ->
  Csum (tuples s) f = Csum (other_tuples s n) (fun l => Csum (helicities (p_spin (s n))) (fun z => f (with_helicity l n z))).
Proof.
  intros Hn. unfold tuples, other_tuples. cbv zeta.
  four Hn; cbn [Z.eqb Pos.eqb]; rewrite !Csum_flat_map; cbn [Csum]; rewrite ?Cplus_0_r.
  - transitivity (Csum (helicities (p_spin (s 0))) (fun l0 => Csum (helicities (p_spin (s 1))) (fun l1 => Csum (helicities (p_spin (s 2))) (fun l2 =>
      Csum (helicities (p_spin (s 3))) (fun l3 => f (l0, l1, l2, l3)))))).
    { apply Csum_ext. intros l0 _. rewrite Csum_flat_map. apply Csum_ext. intros l1 _. rewrite Csum_flat_map. apply Csum_ext. intros l2 _. apply Csum_map. }
    rewrite Csum_flat_map, Csum_swap. apply Csum_ext. intros l1 _. rewrite Csum_flat_map, Csum_swap. apply Csum_ext. intros l2 _. rewrite Csum_map, Csum_swap.
    reflexivity.
  - apply Csum_ext. intros l0 _. rewrite !Csum_flat_map. cbn [Csum]. rewrite Cplus_0_r.
    transitivity (Csum (helicities (p_spin (s 1))) (fun l1 => Csum (helicities (p_spin (s 2))) (fun l2 =>
      Csum (helicities (p_spin (s 3))) (fun l3 => f (l0, l1, l2, l3))))).
    { apply Csum_ext. intros l1 _. rewrite Csum_flat_map. apply Csum_ext. intros l2 _. apply Csum_map. }
    rewrite Csum_flat_map, Csum_swap. apply Csum_ext. intros l2 _. rewrite Csum_map, Csum_swap. reflexivity.
  - apply Csum_ext. intros l0 _. rewrite !Csum_flat_map. apply Csum_ext. intros l1 _. rewrite !Csum_flat_map. cbn [Csum]. rewrite Cplus_0_r.
    rewrite Csum_map.
    transitivity (Csum (helicities (p_spin (s 2))) (fun l2 => Csum (helicities (p_spin (s 3))) (fun l3 => f (l0, l1, l2, l3)))).
    { apply Csum_ext. intros l2 _. apply Csum_map. }
    rewrite Csum_swap. reflexivity.
  - apply Csum_ext. intros l0 _. rewrite !Csum_flat_map. apply Csum_ext. intros l1 _. rewrite !Csum_flat_map. apply Csum_ext. intros l2 _.
    rewrite !Csum_map. cbn [Csum]. rewrite Cplus_0_r. reflexivity.
Qed.
Lemma with_helicity_tuple s n l z : In n [0; 1; 2; 3] -> In l (other_tuples s n) -> In z (helicities (p_spin (s n))) -> helicity_tuple s (with_helicity l n z).
Proof.
  intros Hn Hl Hz. rewrite other_tuples_eq in Hl. apply tuples_In in Hl. destruct l as [[[l0 l1] l2] l3]. unfold helicity_tuple in Hl.
  destruct Hl as (A & B & C & D).
  four Hn; unfold with_helicity, helicity_tuple, without in *; simpl in A, B, C, D; auto.
Qed.

(** ** Any amplitudes *)
Section Any.
  Variables (s : Z -> state) (A : Z * Z * Z * Z -> C) (n : Z).
  Hypothesis Hn : In n [0; 1; 2; 3].
  Lemma density_trace : Csum (helicities (p_spin (s n))) (fun x => density s A n x x) = RtoC (Rsum (tuples s) (fun l => (Cmod (A l) ^ 2)%R)).
  Proof.
    rewrite <- Csum_RtoC, (split_tuples s n _ Hn). unfold density. rewrite Csum_swap. apply Csum_ext. intros l _. apply Csum_ext. intros z _.
    rewrite Cmod_sq. destruct (A (with_helicity l n z)) as [u v]. apply injective_projections; cbn; ring.
  Qed.
  Lemma density_hermitian x y : density s A n y x = Cconj (density s A n x y).
  Proof.
    unfold density. rewrite Csum_conj. apply Csum_ext. intros l _. destruct (A (with_helicity l n x)), (A (with_helicity l n y)).
    apply injective_projections; cbn; ring.
  Qed.
  Lemma density_form (L : list Z) (v : Z -> C) : Csum L (fun x => Csum L (fun y => (v x * Cconj (v y) * density s A n x y)%C))
    = RtoC (Rsum (other_tuples s n) (fun l => (Cmod (Csum L (fun x => (v x * A (with_helicity l n x))%C)) ^ 2)%R)).
  Proof.
    rewrite <- Csum_RtoC. unfold density.
    rewrite (Csum_ext L _ (fun x => Csum (other_tuples s n) (fun l => Csum L (fun y => ((v x * A (with_helicity l n x)) * Cconj (v y * A (with_helicity l n y)))%C)))).
    2:{ intros x _. rewrite Csum_swap. apply Csum_ext. intros y _. rewrite <- Csum_scal_l. apply Csum_ext. intros l _.
        destruct (A (with_helicity l n x)), (A (with_helicity l n y)), (v x), (v y). apply injective_projections; cbn; ring. }
    rewrite Csum_swap. apply Csum_ext. intros l _.
    set (f := fun x => (v x * A (with_helicity l n x))%C).
    transitivity (Csum L f * Cconj (Csum L f))%C.
    - rewrite <- Csum_scal_r. apply Csum_ext. intros x _. rewrite Csum_conj, <- Csum_scal_l. reflexivity.
    - rewrite Cmod_sq. destruct (Csum L f). apply injective_projections; cbn; ring.
  Qed.
End Any.
Lemma density_half (s : Z -> state) A n : In n [0; 1; 2; 3] -> p_spin (s n) = 1 ->
  (pol_x s A n ^ 2 + pol_y s A n ^ 2 + pol_z s A n ^ 2 <= Rsum (tuples s) (fun l => (Cmod (A l) ^ 2)%R) ^ 2)%R.
Proof.
  intros Hn Hj. pose proof (density_trace s A n Hn) as T. rewrite Hj in T. change (helicities 1) with [-1; 1] in T. cbn [Csum] in T.
  pose proof (density_hermitian s A n) as H.
  assert (F : forall v : Z -> C, (0 <= Re (Csum [-1; 1]%Z (fun x => Csum [-1; 1]%Z (fun y => (v x * Cconj (v y) * density s A n x y)%C))))%R).
  { intros v. rewrite density_form. cbn [Re fst RtoC]. apply Rsum_nonneg. intros. apply pow2_ge_0. }
  unfold pol_x, pol_y, pol_z.
  set (I := Rsum _ _) in *. pose proof (H 1 1) as H1. pose proof (H (-1) (-1)) as H2. pose proof (H 1 (-1)) as H3.
  destruct (density s A n 1 1) as [a a'] eqn:E1, (density s A n (-1) (-1)) as [b b'] eqn:E2, (density s A n 1 (-1)) as [u w] eqn:E3.
  apply (f_equal Re) in T. apply (f_equal snd) in H1, H2. cbn in T, H1, H2. cbn [Re Im fst snd].
  assert (a' = 0)%R by lra. assert (b' = 0)%R by lra. subst a' b'. replace I with (a + b)%R by lra. clear T H1 H2.
  assert (Q : forall p q p' q', (0 <= (p ^ 2 + q ^ 2) * b + (p' ^ 2 + q' ^ 2) * a + 2 * ((p * p' + q * q') * u + (q * p' - p * q') * (w)))%R).
  { intros p q p' q'. specialize (F (fun z => if z =? 1 then (p', q') else (p, q))). cbn [Csum Z.eqb Pos.eqb] in F.
    rewrite E1, E2, E3, H3 in F. cbn in F. nra. }
  pose proof (Q 1 0 0 0)%R as Qb. pose proof (Q 0 0 1 0)%R as Qa.
  assert (Hb : (0 <= b)%R) by nra. assert (Ha : (0 <= a)%R) by nra.
  assert (K : (u ^ 2 + w ^ 2 <= a * b)%R).
  { destruct (Rle_lt_or_eq_dec 0 b Hb) as [Lb|Eb].
    - pose proof (Q (- u) (- w) b 0)%R as X. assert (Y : (0 <= b * (a * b - (u ^ 2 + w ^ 2)))%R) by (clear - X; nra).
      clear - Y Lb. nra.
    - pose proof (Q (- (a + 1) * u) (- (a + 1) * w) (u ^ 2 + w ^ 2) 0)%R as X. subst b.
      assert (Y : (0 <= - ((u ^ 2 + w ^ 2) ^ 2 * (a + 2)))%R) by (clear - X; nra). pose proof (pow2_ge_0 u). pose proof (pow2_ge_0 w).
      set (N := (u ^ 2 + w ^ 2)%R) in *. assert (0 <= N)%R by (unfold N; lra). clearbody N. clear - Y Ha H1. nra. }
  clear - K. nra.
Qed.

(** ** A change of the reference *)
Lemma alignment_with (s : Z -> state) z n l m x x' : In n [0; 1; 2; 3] -> In l (other_tuples s n) -> In m (other_tuples s n) ->
  alignment s z (with_helicity l n x) (with_helicity m n x') = (turn s n (z n) x x' * alignment (without s n) z l m)%R.
Proof.
  intros Hn Hl Hm. rewrite other_tuples_eq in Hl, Hm. apply tuples_In in Hl, Hm.
  destruct l as [[[l0 l1] l2] l3], m as [[[m0 m1] m2] m3]. unfold helicity_tuple in Hl, Hm.
  destruct Hl as (A & B & C & D), Hm as (A' & B' & C' & D').
  four Hn; unfold with_helicity, alignment, turn, without in *; cbn [at4 Z.eqb Pos.eqb] in *.
  - change (helicities (p_spin spinless)) with [0] in A, A'. destruct A as [<-|[]], A' as [<-|[]]. change (p_spin spinless) with 0. rewrite wigner_d_spin0. ring.
  - change (helicities (p_spin spinless)) with [0] in B, B'. destruct B as [<-|[]], B' as [<-|[]]. change (p_spin spinless) with 0. rewrite wigner_d_spin0. ring.
  - change (helicities (p_spin spinless)) with [0] in C, C'. destruct C as [<-|[]], C' as [<-|[]]. change (p_spin spinless) with 0. rewrite wigner_d_spin0. ring.
  - change (helicities (p_spin spinless)) with [0] in D, D'. destruct D as [<-|[]], D' as [<-|[]]. change (p_spin spinless) with 0. rewrite wigner_d_spin0. ring.
Qed.
Lemma density_rot (s : Z -> state) A1 A2 eps delta n x y : In n [0; 1; 2; 3] -> (eps * eps = 1)%R ->
  (forall l, helicity_tuple s l -> A2 l = (RtoC eps * Csum (tuples s) (fun m => RtoC (alignment s delta l m) * A1 m))%C) ->
  In x (helicities (p_spin (s n))) -> In y (helicities (p_spin (s n))) ->
  density s A2 n x y = Csum (helicities (p_spin (s n))) (fun x' => Csum (helicities (p_spin (s n))) (fun y' =>
    (RtoC (turn s n (delta n) x x' * turn s n (delta n) y y') * density s A1 n x' y')%C)).
Proof.
  intros Hn Eps HA Hx Hy. set (L := helicities (p_spin (s n))) in *. set (O := other_tuples s n). set (s' := without s n).
  set (B := fun (z : Z) (m : Z * Z * Z * Z) => Csum L (fun z' => (RtoC (turn s n (delta n) z z') * A1 (with_helicity m n z'))%C)).
  assert (R : forall l z, In l O -> In z L -> A2 (with_helicity l n z) = (RtoC eps * Csum O (fun m => RtoC (alignment s' delta l m) * B z m))%C).
  { intros l z Hl Hz. rewrite HA by (apply with_helicity_tuple; assumption). f_equal. rewrite (split_tuples s n _ Hn). apply Csum_ext. intros m Hm.
    unfold B. rewrite <- Csum_scal_l. apply Csum_ext. intros z' _. rewrite (alignment_with s delta n l m z z' Hn Hl Hm), RtoC_mult. unfold s'. ring. }
  assert (Orth : forall m m', In m O -> In m' O -> Rsum O (fun l => alignment s' delta l m * alignment s' delta l m')%R = if eq_dec m m' then 1%R else 0%R).
  { intros m m' Hm Hm'. unfold O in *. rewrite other_tuples_eq in *. exact (rot_orthogonal s' delta m m' Hm Hm'). }
  assert (ND : NoDup O) by (unfold O; rewrite other_tuples_eq; apply tuples_NoDup).
  unfold density. fold O.
  transitivity (Csum O (fun m => (B x m * Cconj (B y m))%C)).
  - rewrite (Csum_ext O _ (fun l => Csum O (fun m => Csum O (fun m' => (RtoC (alignment s' delta l m * alignment s' delta l m') * (B x m * Cconj (B y m')))%C)))).
    2:{ intros l Hl. rewrite (R l x Hl Hx), (R l y Hl Hy).
        transitivity (RtoC (eps * eps) * (Csum O (fun m => RtoC (alignment s' delta l m) * B x m) * Cconj (Csum O (fun m => RtoC (alignment s' delta l m) * B y m))))%C.
        { set (P := Csum O _). set (Q := Csum O (fun m => RtoC (alignment s' delta l m) * B y m)%C). destruct P, Q. apply injective_projections; cbn; ring. }
        rewrite Eps, Cmult_1_l, Csum_conj, <- Csum_scal_r. apply Csum_ext. intros m _. rewrite <- Csum_scal_l. apply Csum_ext. intros m' _.
        destruct (B x m), (B y m'). apply injective_projections; cbn; ring. }
    rewrite Csum_swap. apply Csum_ext. intros m Hm. rewrite Csum_swap.
    rewrite (Csum_ext O _ (fun m' => (RtoC (if eq_dec m m' then 1 else 0)%R * (B x m * Cconj (B y m')))%C)).
    2:{ intros m' Hm'. rewrite Csum_scal_r, Csum_RtoC, (Orth m m' Hm Hm'). reflexivity. }
    rewrite (Csum_single O m); auto.
    + destruct (eq_dec m m); [ring|congruence].
    + intros m' _ N. destruct (eq_dec m m'); [congruence|ring].
  - unfold B.
    rewrite (Csum_ext O _ (fun m => Csum L (fun x' => Csum L (fun y' => (RtoC (turn s n (delta n) x x' * turn s n (delta n) y y')
       * (A1 (with_helicity m n x') * Cconj (A1 (with_helicity m n y'))))%C)))).
    2:{ intros m _. rewrite Csum_conj, <- Csum_scal_r. apply Csum_ext. intros x' _. rewrite <- Csum_scal_l. apply Csum_ext. intros y' _.
        destruct (A1 (with_helicity m n x')), (A1 (with_helicity m n y')). apply injective_projections; cbn; ring. }
    rewrite Csum_swap. apply Csum_ext. intros x' _. rewrite Csum_swap. apply Csum_ext. intros y' _. rewrite <- Csum_scal_l. reflexivity.
Qed.
