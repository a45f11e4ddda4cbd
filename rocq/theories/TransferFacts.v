(** Projections and rates with other labels and units (proofs for C147) *)
From Coq Require Import String ZArith List Bool Reals Lra Lia Psatz.
From Coquelicot Require Import Coquelicot.
From Verif Require Import Prelude Decay Expr CExpr Angles SpecKin KinFacts AnglesFacts SpecDPD Builder SpecRelabel SpecObs ObsKin SpecBounded SpecSmooth SpecNormal
  NormalKin NormalFacts SpecTransfer.
Import ListNotations.
Local Open Scope R_scope.

Lemma turn_cyclic p i j k : keeps_order p -> cyclic i j k -> cyclic (p i) (p j) (p k).
Proof.
  intros K Cy. unfold keeps_order in K.
  destruct Cy as [E|[E|[E|[]]]]; injection E as <- <- <-; destruct K as [K|[K|[K|[]]]]; injection K as E1 E2 E3; rewrite <- E1, <- E2, <- E3; cbn; tauto.
Qed.
Lemma turn_exchanged p i j k : exchanges p -> cyclic i j k -> cyclic (p j) (p i) (p k).
Proof.
  intros K Cy. unfold exchanges in K.
  destruct Cy as [E|[E|[E|[]]]]; injection E as <- <- <-; destruct K as [K|[K|[K|[]]]]; injection K as E1 E2 E3; rewrite <- E1, <- E2, <- E3; cbn; tauto.
Qed.
Lemma cyclic_all i j k n : cyclic i j k -> In n [1; 2; 3]%Z -> n = i \/ n = j \/ n = k.
Proof. intros Cy Hn. destruct Cy as [E|[E|[E|[]]]]; injection E as <- <- <-; cbn in Hn; intuition. Qed.
Lemma cyclic_in i j k : cyclic i j k -> In i [1; 2; 3]%Z /\ In j [1; 2; 3]%Z /\ In k [1; 2; 3]%Z /\ i <> j /\ i <> k /\ j <> k.
Proof. intros Cy. destruct Cy as [E|[E|[E|[]]]]; injection E as <- <- <-; cbn; intuition discriminate. Qed.

Lemma sqrt_scale t x y : 0 < t -> sqrt (t ^ 4 * x) * sqrt (t ^ 4 * y) = t ^ 4 * (sqrt x * sqrt y).
Proof.
  intros Ht. assert (E : forall z, sqrt (t ^ 4 * z) = t ^ 2 * sqrt z).
  { intros z. replace (t ^ 4) with ((t ^ 2) ^ 2) by ring. assert (0 <= t ^ 2) by apply pow2_ge_0. destruct (Rle_or_lt 0 z) as [Z|Z].
    - rewrite sqrt_mult by (try apply pow2_ge_0; assumption). rewrite sqrt_pow2 by assumption. reflexivity.
    - rewrite (sqrt_neg_0 z) by lra. rewrite sqrt_neg_0; [ring|]. pose proof (pow2_ge_0 (t ^ 2)). nra. }
  rewrite !E. ring.
Qed.

Section Transfer.
  Variables (base base' : symbol -> C) (I I' : (symbol -> C) -> R) (p : Z -> Z) (t q : R) (i j k i' j' k' : Z) (turn : bool).
  Hypothesis (Ht : 0 < t) (Hp : relabelling p) (Ho : ordered turn p) (Cy : cyclic i j k) (Op : open_phase_space base).
  Hypothesis HM : forall n, In n [0; 1; 2; 3]%Z -> Re (base' (mass_at (p n))) = t * Re (base (mass_at n)).
  Hypothesis Hl : (i', j', k') = if turn then (p j, p i, p k) else (p i, p j, p k).
  Hypothesis HI : forall s1 s2 s3 s1' s2' s3', on_dalitz_plot base s1 s2 s3 -> same_place t p s1 s2 s3 s1' s2' s3' ->
    I' (at_sigmas base' s1' s2' s3') = q * I (at_sigmas base s1 s2 s3).
  Lemma new_cyclic : cyclic i' j' k'.
  Proof.
    revert Hl Ho. unfold ordered. destruct turn; intros E O; injection E as -> -> ->; [exact (turn_exchanged p i j k O Cy)|exact (turn_cyclic p i j k O Cy)].
  Qed.
  Lemma new_k : k' = p k.
  Proof. revert Hl. destruct turn; intros E; injection E as _ _ ->; reflexivity. Qed.
  Lemma new_square n : In n [0; 1; 2; 3]%Z -> square_at base' (p n) = t ^ 2 * square_at base n.
  Proof. intros Hn. unfold square_at. rewrite (HM n Hn). ring. Qed.
  Lemma new_square0 : square_at base' 0 = t ^ 2 * square_at base 0.
  Proof. rewrite <- (proj1 Hp) at 1. apply new_square. cbn. tauto. Qed.
  Lemma new_mass0 : particle_mass base' 0 = t * particle_mass base 0.
  Proof. pose proof (HM 0%Z ltac:(cbn; tauto)) as E. rewrite (proj1 Hp) in E. exact E. Qed.
  Lemma new_total : line_total base' = t ^ 2 * line_total base.
  Proof.
    unfold line_total. rewrite new_square0.
    pose proof (new_square 1 ltac:(cbn; tauto)) as E1. pose proof (new_square 2 ltac:(cbn; tauto)) as E2. pose proof (new_square 3 ltac:(cbn; tauto)) as E3.
    revert Ho. unfold ordered, exchanges, keeps_order. destruct turn; intros [K|[K|[K|[]]]]; injection K as K1 K2 K3; rewrite <- K1 in *; rewrite <- K2 in *; rewrite <- K3 in *; lra.
  Qed.
  Lemma new_open : open_phase_space base'.
  Proof.
    pose proof new_mass0 as E0. pose proof (HM 1%Z ltac:(cbn; tauto)) as E1. pose proof (HM 2%Z ltac:(cbn; tauto)) as E2. pose proof (HM 3%Z ltac:(cbn; tauto)) as E3.
    destruct Op as (A & B & D & E).
    change (Re (base (mass_at 1))) with (particle_mass base 1) in E1. change (Re (base (mass_at 2))) with (particle_mass base 2) in E2.
    change (Re (base (mass_at 3))) with (particle_mass base 3) in E3. unfold open_phase_space.
    assert (P1 := Rmult_le_pos _ _ (Rlt_le _ _ Ht) A). assert (P2 := Rmult_le_pos _ _ (Rlt_le _ _ Ht) B). assert (P3 := Rmult_le_pos _ _ (Rlt_le _ _ Ht) D).
    assert (P4 := Rmult_lt_compat_l t _ _ Ht E). rewrite !Rmult_plus_distr_l in P4.
    revert Ho. unfold ordered, exchanges, keeps_order. destruct turn; intros [K|[K|[K|[]]]]; injection K as K1 K2 K3; rewrite <- K1 in *; rewrite <- K2 in *; rewrite <- K3 in *.
    all: change (Re (base' (mass_at 1))) with (particle_mass base' 1) in *; change (Re (base' (mass_at 2))) with (particle_mass base' 2) in *;
      change (Re (base' (mass_at 3))) with (particle_mass base' 3) in *; rewrite E0, E1, E2, E3; lra.
  Qed.
  Lemma new_lower : lower_limit base' k' = t ^ 2 * lower_limit base k.
  Proof.
    pose proof (line_lo base' i' j' k' new_cyclic) as A. pose proof (line_lo base i j k Cy) as B. rewrite A, B.
    destruct (cyclic_in i j k Cy) as (Ii & Ij & _). pose proof (HM i ltac:(cbn in *; tauto)) as Ei. pose proof (HM j ltac:(cbn in *; tauto)) as Ej.
    revert Hl. destruct turn; intros E; injection E as -> -> _; rewrite Ei, Ej; ring.
  Qed.
  Lemma new_upper : upper_limit base' k' = t ^ 2 * upper_limit base k.
  Proof.
    unfold upper_limit. rewrite new_mass0, new_k. destruct (cyclic_in i j k Cy) as (_ & _ & Ik & _). pose proof (HM k ltac:(cbn in *; tauto)) as Ek.
    change (particle_mass base' (p k) = t * particle_mass base k) in Ek. rewrite Ek. ring.
  Qed.
  (** the line in the new variables *)
  Definition carry (s x : R) : R := t ^ 2 * (if turn then line_total base - s - x else x).
  Lemma new_line_at s z : lower_limit base k < s < upper_limit base k ->
    line_at base' i' j' k' (t ^ 2 * s) z = carry s (line_at base i j k s (if turn then - z else z)).
  Proof.
    intros Hs. pose proof (line_pos base i j k Cy s Hs) as S0.
    destruct (cyclic_in i j k Cy) as (Ii & Ij & Ik & _).
    pose proof (new_square i ltac:(cbn in *; tauto)) as Ei. pose proof (new_square j ltac:(cbn in *; tauto)) as Ej. pose proof (new_square k ltac:(cbn in *; tauto)) as Ek.
    assert (Et : line_total base = square_at base 0 + square_at base i + square_at base j + square_at base k).
    { unfold line_total. clear - Cy. destruct Cy as [E|[E|[E|[]]]]; injection E as <- <- <-; ring. }
    unfold line_at, line_half, line_centre, carry. rewrite Et, new_square0, new_k, Ek. clear Et Op HI HM.
    assert (H2 : t ^ 2 <> 0) by (apply pow_nonzero; lra).
    revert Hl. destruct turn; intros E; injection E as -> -> _; rewrite Ei, Ej.
    all: set (x0 := square_at base 0) in *; set (xi := square_at base i) in *; set (xj := square_at base j) in *; set (xk := square_at base k) in *.
    all: replace (kallen (t ^ 2 * x0) (t ^ 2 * xk) (t ^ 2 * s)) with (t ^ 4 * kallen x0 xk s) by (unfold kallen; ring).
    - replace (kallen (t ^ 2 * s) (t ^ 2 * xj) (t ^ 2 * xi)) with (t ^ 4 * kallen s xi xj) by (unfold kallen; ring).
      rewrite (sqrt_scale t _ _ Ht). unfold n_theta. field. split; [lra|]. lra.
    - replace (kallen (t ^ 2 * s) (t ^ 2 * xi) (t ^ 2 * xj)) with (t ^ 4 * kallen s xi xj) by (unfold kallen; ring).
      rewrite (sqrt_scale t _ _ Ht). unfold n_theta. field. split; [lra|]. lra.
  Qed.
  Lemma new_place s x : same_place t p (line_sigma base j k s x 1) (line_sigma base j k s x 2) (line_sigma base j k s x 3)
    (line_sigma base' j' k' (t ^ 2 * s) (carry s x) 1) (line_sigma base' j' k' (t ^ 2 * s) (carry s x) 2) (line_sigma base' j' k' (t ^ 2 * s) (carry s x) 3).
  Proof.
    assert (V : forall b u v s x n, In n [1; 2; 3]%Z -> sigma_value (line_sigma b u v s x 1) (line_sigma b u v s x 2) (line_sigma b u v s x 3) n = line_sigma b u v s x n).
    { intros b u v s0 x0 n [<-|[<-|[<-|[]]]]; reflexivity. }
    assert (G : forall n, In n [1; 2; 3]%Z -> line_sigma base' j' k' (t ^ 2 * s) (carry s x) (p n) = t * t * line_sigma base j k s x n).
    { intros n Hn. destruct (cyclic_in _ _ _ new_cyclic) as (_ & _ & _ & N1 & N2 & N3). destruct (cyclic_in _ _ _ Cy) as (_ & _ & _ & M1 & M2 & M3).
      destruct (cyclic_all i j k n Cy Hn) as [->|[->| ->]]; unfold line_sigma, carry; rewrite new_total;
        revert N1 N2 N3; revert Hl; destruct turn; intros E; injection E as -> -> ->; intros N1 N2 N3;
        repeat (rewrite Z.eqb_refl || rewrite (proj2 (Z.eqb_neq _ _)) by (assumption || (apply not_eq_sym; assumption))); ring. }
    intros n Hn. rewrite !V by exact Hn || (destruct Hp as [_ Pm]; apply (Permutation.Permutation_in _ Pm); cbn in Hn |- *; intuition congruence).
    exact (G n Hn).
  Qed.
  Lemma new_value s x : lower_limit base k < s < upper_limit base k -> line_at base i j k s (-1) < x < line_at base i j k s 1 ->
    I' (dalitz_line (with_sigma base' k' (t ^ 2 * s)) i' j' k' (carry s x)) = q * I (dalitz_line (with_sigma base k s) i j k x).
  Proof.
    intros Hs Hx. rewrite (line_is_point base i j k Cy), (line_is_point base' i' j' k' new_cyclic). unfold line_point. apply HI; [|apply new_place].
    pose proof (line_half_pos base i j k Cy Op s Hs) as Hh. set (z := (x - line_centre base i j k s) / line_half base i j k s).
    assert (Ez : line_at base i j k s z = x) by (unfold line_at, z; field; lra). rewrite <- Ez. apply (line_inside base i j k Cy Op s z Hs).
    rewrite <- Ez in Hx. unfold line_at in Hx. clear - Hx Hh. split; nra.
  Qed.

  Lemma slice s a b : lower_limit base k < s < upper_limit base k -> dalitz_range (with_sigma base k s) i j k a b ->
    a = line_at base i j k s (-1) /\ b = line_at base i j k s 1.
  Proof.
    intros Hs Rg. destruct (line_range_unique _ i j k Cy (line_between base i j k Cy Op s Hs) a b Rg) as [Ea Eb].
    rewrite (line_end_at base i j k Cy s _ Hs) in Ea. rewrite (line_end_at base i j k Cy s _ Hs) in Eb. exact (conj Ea Eb).
  Qed.
  Theorem projection_transfer P : projects_to base I i j k P -> projects_to base' I' i' j' k' (fun s => t ^ 2 * q * P (s / t ^ 2)).
  Proof.
    intros HP s' Hs'. assert (T2 : 0 < t ^ 2) by (apply pow_lt; exact Ht). set (s := s' / t ^ 2).
    assert (Es : s' = t ^ 2 * s) by (unfold s; field; lra). rewrite new_lower, new_upper, Es in Hs'.
    assert (Hs : lower_limit base k < s < upper_limit base k). { destruct Hs' as [A B]. split; [exact (Rmult_lt_reg_l _ _ _ T2 A)|exact (Rmult_lt_reg_l _ _ _ T2 B)]. }
    destruct (HP s Hs) as (a & b & L & Rg & X). destruct (slice s a b Hs Rg) as [Ea Eb].
    assert (Hs2 : lower_limit base' k' < t ^ 2 * s < upper_limit base' k') by (rewrite new_lower, new_upper; exact Hs').
    destruct (line_ends_at base' i' j' k' new_cyclic new_open (t ^ 2 * s) Hs2) as [L' Rg'].
    exists (line_at base' i' j' k' (t ^ 2 * s) (-1)), (line_at base' i' j' k' (t ^ 2 * s) 1). rewrite Es. split; [exact L'|]. split; [exact Rg'|].
    rewrite !new_line_at in * by exact Hs. fold s.
    assert (Q : is_RInt (fun y => t ^ 2 * q * (/ t ^ 2 * I (dalitz_line (with_sigma base k s) i j k (if turn then line_total base - s - y / t ^ 2 else y / t ^ 2))))
      (carry s (line_at base i j k s (if turn then - -1 else -1))) (carry s (line_at base i j k s (if turn then -1 else 1))) (t ^ 2 * q * P s)).
    { apply (is_RInt_scal (V := R_NormedModule)). set (f := fun x => I (dalitz_line (with_sigma base k s) i j k x)) in *. unfold carry. destruct turn.
      - replace (- -1) with 1 by ring. rewrite <- Ea, <- Eb.
        assert (Y : is_RInt f (- / t ^ 2 * (t ^ 2 * (line_total base - s - a)) + (line_total base - s)) (- / t ^ 2 * (t ^ 2 * (line_total base - s - b)) + (line_total base - s)) (P s)).
        { replace (- / t ^ 2 * (t ^ 2 * (line_total base - s - a)) + (line_total base - s)) with a by (field; lra).
          replace (- / t ^ 2 * (t ^ 2 * (line_total base - s - b)) + (line_total base - s)) with b by (field; lra). exact X. }
        apply is_RInt_comp_lin, is_RInt_swap, is_RInt_opp in Y. change (opp (opp (P s))) with (- - P s) in Y. rewrite Ropp_involutive in Y.
        eapply is_RInt_ext; [|exact Y]. intros y _. change (- (- / t ^ 2 * f (- / t ^ 2 * y + (line_total base - s))) = / t ^ 2 * f (line_total base - s - y / t ^ 2)).
        replace (- / t ^ 2 * y + (line_total base - s)) with (line_total base - s - y / t ^ 2) by (field; lra). ring.
      - rewrite <- Ea, <- Eb.
        assert (Y : is_RInt f (/ t ^ 2 * (t ^ 2 * a) + 0) (/ t ^ 2 * (t ^ 2 * b) + 0) (P s)).
        { replace (/ t ^ 2 * (t ^ 2 * a) + 0) with a by (field; lra). replace (/ t ^ 2 * (t ^ 2 * b) + 0) with b by (field; lra). exact X. }
        apply is_RInt_comp_lin in Y. eapply is_RInt_ext; [|exact Y]. intros y _. change (/ t ^ 2 * f (/ t ^ 2 * y + 0) = / t ^ 2 * f (y / t ^ 2)).
        replace (/ t ^ 2 * y + 0) with (y / t ^ 2) by (field; lra). reflexivity. }
    eapply is_RInt_ext; [|exact Q]. cbn beta. intros y Hy.
    rewrite Rmin_left, Rmax_right in Hy by (apply Rlt_le; exact L').
    set (x := if turn then line_total base - s - y / t ^ 2 else y / t ^ 2).
    assert (Ey : y = carry s x) by (unfold carry, x; destruct turn; field; lra).
    rewrite Ey. rewrite new_value; [match goal with |- @eq _ ?l ?r => change (@eq R l r) end; field; lra|exact Hs|].
    rewrite Ey in Hy. clear - Hy T2. unfold carry in Hy. destruct turn.
    - replace (Ropp (IZR (-1))) with 1 in Hy by ring. replace (Ropp (IZR 1)) with (-1) in Hy by ring. destruct Hy as [A B]. apply Rmult_lt_reg_l in A; [|exact T2]. apply Rmult_lt_reg_l in B; [|exact T2]. lra.
    - destruct Hy as [A B]. apply Rmult_lt_reg_l in A; [|exact T2]. apply Rmult_lt_reg_l in B; [|exact T2]. lra.
  Qed.
  Theorem rate_transfer N : integrates_to base I i j k N -> integrates_to base' I' i' j' k' (t ^ 4 * q * N).
  Proof.
    intros (P & HP & X). exists (fun s => t ^ 2 * q * P (s / t ^ 2)). split; [exact (projection_transfer P HP)|].
    assert (T2 : 0 < t ^ 2) by (apply pow_lt; exact Ht). rewrite new_lower, new_upper.
    assert (Y : is_RInt P (/ t ^ 2 * (t ^ 2 * lower_limit base k) + 0) (/ t ^ 2 * (t ^ 2 * upper_limit base k) + 0) N).
    { replace (/ t ^ 2 * (t ^ 2 * lower_limit base k) + 0) with (lower_limit base k) by (field; lra).
      replace (/ t ^ 2 * (t ^ 2 * upper_limit base k) + 0) with (upper_limit base k) by (field; lra). exact X. }
    apply is_RInt_comp_lin in Y. apply (is_RInt_scal (V := R_NormedModule) _ _ _ (t ^ 4 * q)) in Y. eapply is_RInt_ext; [|exact Y].
    intros s _. change (t ^ 4 * q * (/ t ^ 2 * P (/ t ^ 2 * s + 0)) = t ^ 2 * q * P (s / t ^ 2)). replace (/ t ^ 2 * s + 0) with (s / t ^ 2) by (field; lra).
    replace (t ^ 4) with (t ^ 2 * t ^ 2) by ring. field. lra.
  Qed.
End Transfer.
