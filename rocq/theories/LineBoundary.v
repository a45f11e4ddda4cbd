(** Events on the boundary of the Dalitz plot are on a line (C136) *)
From Coq Require Import String ZArith List Bool Reals Lia Lra.
From Verif Require Import Prelude Expr Angles SpecKin SpecDPD KinFacts AnglesFacts AnglesProofs WignerFrames SpecLine.
Import ListNotations.
Local Open Scope R_scope.

Section Momenta.
  Variables (m x0 x1 x2 x3 s1 s2 s3 e1 e2 e3 a1 a2 c : R).
  Hypotheses (Pm : 0 < m) (X0 : x0 = m * m) (Mand : x0 = s1 + s2 + s3 - x1 - x2 - x3)
    (E1 : 2 * m * e1 = x0 + x1 - s1) (E2 : 2 * m * e2 = x0 + x2 - s2) (E3 : 2 * m * e3 = x0 + x3 - s3)
    (A1 : a1 * a1 = e1 * e1 - x1) (A2 : a2 * a2 = e2 * e2 - x2) (A12 : a1 * a2 = e1 * e2 - (s3 - x1 - x2) / 2).
  Lemma mom_sum : e1 + e2 + e3 = m.
  Proof.
    apply (Rmult_eq_reg_l (2 * m)); [|lra]. replace (2 * m * (e1 + e2 + e3)) with (2 * m * e1 + 2 * m * e2 + 2 * m * e3) by ring.
    rewrite E1, E2, E3. replace (2 * m * m) with (2 * x0) by (rewrite X0; ring). lra.
  Qed.
  Lemma mom_a3 : (- a1 - a2) * (- a1 - a2) = e3 * e3 - x3.
  Proof.
    replace ((- a1 - a2) * (- a1 - a2)) with (a1 * a1 + a2 * a2 + 2 * (a1 * a2)) by ring. rewrite A1, A2, A12.
    assert (e3 = m - e1 - e2) as -> by (pose proof mom_sum; lra).
    replace ((m - e1 - e2) * (m - e1 - e2)) with (m * m - 2 * m * e1 - 2 * m * e2 + e1 * e1 + e2 * e2 + 2 * (e1 * e2)) by ring.
    rewrite E1, E2, <- X0. lra.
  Qed.
  Lemma mom_s ek xk sk ak ei ej : 2 * m * ek = x0 + xk - sk -> ak * ak = ek * ek - xk -> ei + ej = m - ek -> (ei + ej) * (ei + ej) - ak * ak = sk.
  Proof. intros Ek Ak ->. rewrite Ak. replace ((m - ek) * (m - ek) - (ek * ek - xk)) with (m * m - 2 * m * ek + xk) by ring. rewrite Ek, <- X0. ring. Qed.
End Momenta.

Lemma line_exists env : physical env -> nonsingular env ->
  gram (at_m1 env * at_m1 env) (at_m2 env * at_m2 env) (at_m3 env * at_m3 env) (at_s1 env) (at_s2 env) (at_s3 env) = 0 ->
  exists p1 p2 p3 u a, on_line env p1 p2 p3 u a.
Proof.
  intros (q1 & q2 & q3 & P) NS G. destruct (phys_pos _ _ _ _ P) as (_ & (B1 & B2 & B3) & M0).
  pose proof (physical_facts _ _ _ _ P) as [Mand _ X0 X1 X2 X3 Y1 Y2 Y3].
  destruct P as ((N1 & _) & (N2 & _) & (N3 & _) & _). destruct NS as (K1 & K2 & K3 & _).
  pose proof (id_hat12 _ _ _ _ _ _ _ Mand) as H. rewrite G in H.
  set (m := at_m0 env) in *. set (x1 := at_m1 env * at_m1 env) in *. set (x2 := at_m2 env * at_m2 env) in *. set (x3 := at_m3 env * at_m3 env) in *.
  set (s1 := at_s1 env) in *. set (s2 := at_s2 env) in *. set (s3 := at_s3 env) in *.
  assert (Pm : 0 < m).
  { destruct M0 as [M0|M0]; [exact M0|]. exfalso. rewrite <- M0 in *. assert (x1 = 0) by lra. assert (s1 = 0) by lra.
    rewrite H0, H1 in K1. unfold kallen in K1. ring_simplify in K1. lra. }
  set (e1 := (m * m + x1 - s1) / (2 * m)). set (e2 := (m * m + x2 - s2) / (2 * m)). set (e3 := (m * m + x3 - s3) / (2 * m)).
  assert (E1 : 2 * m * e1 = m * m + x1 - s1) by (unfold e1; field; lra).
  assert (E2 : 2 * m * e2 = m * m + x2 - s2) by (unfold e2; field; lra).
  assert (E3 : 2 * m * e3 = m * m + x3 - s3) by (unfold e3; field; lra).
  assert (Pe : forall x s, 0 <= x -> s + x <= m * m -> 0 <= (m * m + x - s) / (2 * m)).
  { intros x s Hx Hs. apply Rmult_le_pos; [lra|]. left. apply Rinv_0_lt_compat. lra. }
  assert (Q : forall x s, kallen (m * m) x s = 4 * (m * m) * ((m * m + x - s) / (2 * m) * ((m * m + x - s) / (2 * m)) - x)).
  { intros x s. unfold kallen. field. lra. }
  set (a1 := sqrt (e1 * e1 - x1)).
  assert (PA : 0 < e1 * e1 - x1).
  { rewrite Q in K1. fold e1 in K1. apply (Rmult_lt_reg_l (4 * (m * m))); [nra|]. lra. }
  assert (A1 : a1 * a1 = e1 * e1 - x1) by (apply sqrt_sqrt; lra).
  assert (Pa : 0 < a1) by (apply sqrt_lt_R0; exact PA).
  set (c := e1 * e2 - (s3 - x1 - x2) / 2). set (a2 := c / a1).
  assert (A12 : a1 * a2 = c) by (unfold a2; field; lra).
  assert (CC : c * c = (e1 * e1 - x1) * (e2 * e2 - x2)).
  { assert (C4 : n_hat (m * m) x1 x2 s1 s2 s3 = 4 * (m * m) * c).
    { unfold n_hat, c. rewrite <- E1, <- E2. field. }
    rewrite C4, (kallen_swap (m * m) x1 s1), !Q in H. fold e1 e2 in H. apply (Rmult_eq_reg_l (16 * (m * m) * (m * m))); [lra|]. apply Rgt_not_eq.
    assert (0 < m * m) by nra. nra. }
  assert (A2 : a2 * a2 = e2 * e2 - x2).
  { apply (Rmult_eq_reg_l (a1 * a1)); [|nra]. replace (a1 * a1 * (a2 * a2)) with ((a1 * a2) * (a1 * a2)) by ring. rewrite A12, CC, A1. reflexivity. }
  pose proof (mom_sum m (m * m) x1 x2 x3 s1 s2 s3 e1 e2 e3 Pm eq_refl Mand E1 E2 E3) as Sum.
  pose proof (mom_a3 m (m * m) x1 x2 x3 s1 s2 s3 e1 e2 e3 a1 a2 Pm eq_refl Mand E1 E2 E3 A1 A2 A12) as A3.
  exists (V4 e1 (V3 0 0 a1)), (V4 e2 (V3 0 0 a2)), (V4 e3 (V3 0 0 (- a1 - a2))), (V3 0 0 1), (fun n => pick n a1 a2 (- a1 - a2)).
  split; [|split; [|split]].
  - unfold momenta_of, on_shell, msq, add4, add3, dot. cbn [vE vp vx vy vz]. fold m x1 x2 x3 s1 s2 s3.
    assert (0 <= e1) by (apply Pe; assumption). assert (0 <= e2) by (apply Pe; assumption). assert (0 <= e3) by (apply Pe; assumption).
    repeat split; try assumption; try lra.
    + replace (e1 + (e2 + e3)) with m by lra. ring.
    + rewrite <- (mom_s m (m * m) eq_refl e1 x1 s1 a1 e2 e3 E1 A1 ltac:(lra)). ring.
    + rewrite <- (mom_s m (m * m) eq_refl e2 x2 s2 a2 e3 e1 E2 A2 ltac:(lra)). ring.
    + rewrite <- (mom_s m (m * m) eq_refl e3 x3 s3 (- a1 - a2) e1 e2 E3 A3 ltac:(lra)). ring.
  - unfold add3, zero3. cbn [vE vp vx vy vz]. f_equal; ring.
  - unfold dot. cbn [vx vy vz]. ring.
  - intros n Hn. destruct (in123 n Hn) as [-> | [-> | ->]]; unfold pick; cbn [Z.eqb Pos.eqb vp vx vy vz]; f_equal; ring.
Qed.

Lemma boundary_cos n A B : 0 < A -> 0 < B -> n * n <= A * B -> (acos (n / (sqrt A * sqrt B)) = 0 \/ acos (n / (sqrt A * sqrt B)) = PI) -> n * n = A * B.
Proof.
  intros PA PB Le H. assert (QA : 0 < sqrt A) by (apply sqrt_lt_R0; exact PA). assert (QB : 0 < sqrt B) by (apply sqrt_lt_R0; exact PB).
  assert (SA : sqrt A * sqrt A = A) by (apply sqrt_sqrt; lra). assert (SB : sqrt B * sqrt B = B) by (apply sqrt_sqrt; lra).
  set (q := n / (sqrt A * sqrt B)) in *.
  assert (N : n = q * (sqrt A * sqrt B)) by (unfold q; field; lra).
  assert (AB : sqrt A * sqrt B * (sqrt A * sqrt B) = A * B) by (rewrite <- SA at 3; rewrite <- SB at 3; ring).
  assert (QQ : q * q <= 1).
  { apply (Rmult_le_reg_r (A * B)); [nra|]. rewrite Rmult_1_l. rewrite N in Le. rewrite <- AB in Le at 1 |- *. lra. }
  assert (QB' : -1 <= q <= 1) by (split; nra).
  assert (C : cos (acos q) = q) by (apply cos_acos; exact QB').
  assert (q = 1 \/ q = -1) as [Z|Z].
  { destruct H as [H|H]; rewrite H in C; [left; rewrite <- C; apply cos_0|right; rewrite <- C; apply cos_PI]. }
  - rewrite N, Z, Rmult_1_l. exact AB.
  - rewrite N, Z. rewrite <- AB. ring.
Qed.
Lemma c136_boundary env i j k x e : physical env -> nonsingular env -> cyclic i j k -> formulate_scattering_angle i j = Ok (x, e) ->
  (reval env e = 0 \/ reval env e = PI) -> exists p1 p2 p3 u a, on_line env p1 p2 p3 u a.
Proof.
  intros PH NS Cy F H. rewrite (rv_of env _ _ _ F) in H. apply (line_exists env PH NS).
  destruct PH as (q1 & q2 & q3 & P). pose proof (physical_facts _ _ _ _ P) as [Mand G X0 X1 X2 X3 Y1 Y2 Y3]. destruct NS as (K1 & K2 & K3 & K4 & K5 & K6).
  assert (S : forall s x y, 0 <= s -> 0 < kallen s x y -> 0 <= x -> 0 <= y -> x + y <= s -> 0 < s).
  { intros s0 x' y' Hs Hk Hx Hy Hle. destruct Hs as [Hs|Hs]; [exact Hs|]. exfalso. rewrite <- Hs in *. assert (x' = 0) by lra. assert (y' = 0) by lra. subst x' y'.
    unfold kallen in Hk. ring_simplify in Hk. lra. }
  destruct (phys_pos _ _ _ _ P) as ((A1 & A2 & A3) & _).
  apply Rmult_eq_reg_l with (r := 16); [|lra]. rewrite Rmult_0_r.
  destruct Cy as [C|[C|[C|[]]]]; injection C as <- <- <-.
  - rewrite th_12 in H. unfold th_ in H. pose proof (id_theta12 _ _ _ _ _ _ _ Mand) as I.
    pose proof (S _ _ _ Y3 K6 X1 X2 A1) as P3.
    assert (PG : 0 <= 16 * at_s3 env * gram (at_m1 env * at_m1 env) (at_m2 env * at_m2 env) (at_m3 env * at_m3 env) (at_s1 env) (at_s2 env) (at_s3 env)) by (apply Rmult_le_pos; [lra|exact G]).
    apply boundary_cos in H; [|assumption|assumption|lra].
    apply Rmult_eq_reg_l with (r := at_s3 env); [|lra]. rewrite Rmult_0_r, <- Rmult_assoc, (Rmult_comm (at_s3 env)). rewrite <- I.
    rewrite H. ring.
  - rewrite th_23 in H. unfold th_ in H. pose proof (id_theta23 _ _ _ _ _ _ _ Mand) as I.
    pose proof (S _ _ _ Y1 K4 X2 X3 A2) as P3.
    assert (PG : 0 <= 16 * at_s1 env * gram (at_m1 env * at_m1 env) (at_m2 env * at_m2 env) (at_m3 env * at_m3 env) (at_s1 env) (at_s2 env) (at_s3 env)) by (apply Rmult_le_pos; [lra|exact G]).
    apply boundary_cos in H; [|assumption|assumption|lra].
    apply Rmult_eq_reg_l with (r := at_s1 env); [|lra]. rewrite Rmult_0_r, <- Rmult_assoc, (Rmult_comm (at_s1 env)). rewrite <- I.
    rewrite H. ring.
  - rewrite th_31 in H. unfold th_ in H. pose proof (id_theta31 _ _ _ _ _ _ _ Mand) as I.
    pose proof (S _ _ _ Y2 K5 X3 X1 A3) as P3.
    assert (PG : 0 <= 16 * at_s2 env * gram (at_m1 env * at_m1 env) (at_m2 env * at_m2 env) (at_m3 env * at_m3 env) (at_s1 env) (at_s2 env) (at_s3 env)) by (apply Rmult_le_pos; [lra|exact G]).
    apply boundary_cos in H; [|assumption|assumption|lra].
    apply Rmult_eq_reg_l with (r := at_s2 env); [|lra]. rewrite Rmult_0_r, <- Rmult_assoc, (Rmult_comm (at_s2 env)). rewrite <- I.
    rewrite H. ring.
Qed.
