(** The angle expressions are angles between momenta. *)
From Coq Require Import String ZArith List Bool Reals Lra Lia Psatz.
From Verif Require Import Prelude Expr Angles SpecKin KinFacts AnglesFacts.
Import ListNotations.
Local Open Scope R_scope.

Lemma dot_nonneg u : 0 <= dot u u.
Proof. unfold dot. nra. Qed.

(** All three quantities are the same positive multiple of the products of vectors. *)
Lemma acos_geo N A B q u v : 0 <= q -> 0 < A -> 0 < B ->
  A = q * q * dot u u -> B = q * q * dot v v -> N = q * q * dot u v ->
  acos (N / (sqrt A * sqrt B)) = angle_between u v.
Proof.
  intros Hq HA HB EA EB EN. unfold angle_between, norm. f_equal.
  assert (0 < q) by (destruct (Rle_lt_or_eq_dec 0 q Hq) as [|E]; auto; subst q; lra).
  assert (0 < dot u u).
  { destruct (Rle_lt_or_eq_dec 0 (dot u u) (dot_nonneg u)) as [|E]; auto.
    rewrite <- E in EA. lra. }
  assert (0 < dot v v).
  { destruct (Rle_lt_or_eq_dec 0 (dot v v) (dot_nonneg v)) as [|E]; auto.
    rewrite <- E in EB. lra. }
  assert (SQ : forall d, sqrt (q * q * d) = q * sqrt d).
  { intros d. rewrite sqrt_mult_alt by nra. rewrite sqrt_square by lra. reflexivity. }
  rewrite EA, EB, EN, !SQ.
  pose proof (sqrt_lt_R0 (dot u u) H0). pose proof (sqrt_lt_R0 (dot v v) H1).
  field. repeat split; lra.
Qed.
Lemma angle_between_sym u v : angle_between u v = angle_between v u.
Proof.
  unfold angle_between. f_equal. rewrite (Rmult_comm (norm u)). f_equal. unfold dot. ring.
Qed.
Lemma angle_between_self u : 0 < dot u u -> angle_between u u = 0.
Proof.
  intros H. unfold angle_between, norm. rewrite sqrt_sqrt by lra.
  unfold Rdiv. rewrite Rinv_r by lra. apply acos_1.
Qed.

Ltac vec :=
  repeat match goal with p : vec4 |- _ => destruct p as [? [? ? ?]] end;
  unfold msq, add4, add3, opp3, zero3, dot, n_theta, n_hat, n_zeta0, n_zeta, kallen in *; simpl in *.

Lemma geo_theta x0 xi xj xk sj sk pi pj pk :
  xi = msq pi -> xj = msq pj -> xk = msq pk ->
  x0 = msq (add4 pi (add4 pj pk)) -> sj = msq (add4 pk pi) -> sk = msq (add4 pi pj) ->
  0 <= vE pi + vE pj -> 0 < kallen x0 xk sk -> 0 < kallen sk xi xj ->
  add3 (vp pi) (vp pj) = zero3 ->
  th_ x0 xi xj xk sj sk = angle_between (vp pi) (opp3 (vp pk)).
Proof.
  intros -> -> -> -> -> -> HE HA HB HF. unfold th_. rewrite angle_between_sym.
  apply acos_geo with (q := 2 * (vE pi + vE pj)); auto; [lra|..]; clear HA HB HE;
    vec; injection HF as F1 F2 F3;
    match goal with a : R, b : R |- _ => idtac end;
    repeat match goal with
    | H : ?a + ?b = 0 |- _ => assert (b = - a) by lra; clear H; subst b
    end; ring.
Qed.

Lemma geo_hat x0 xi xj si sj sk pi pj pk :
  xi = msq pi -> xj = msq pj ->
  x0 = msq (add4 pi (add4 pj pk)) -> si = msq (add4 pj pk) -> sj = msq (add4 pk pi) ->
  sk = msq (add4 pi pj) ->
  0 <= vE pi + vE pj + vE pk -> 0 < kallen x0 xj sj -> 0 < kallen x0 si xi ->
  add3 (vp pi) (add3 (vp pj) (vp pk)) = zero3 ->
  hat_ x0 xi xj si sj sk = angle_between (vp pi) (vp pj).
Proof.
  intros -> -> -> -> -> -> HE HA HB HF. unfold hat_. rewrite angle_between_sym.
  apply acos_geo with (q := 2 * (vE pi + vE pj + vE pk)); auto; [lra|..]; clear HA HB HE;
    vec; injection HF as F1 F2 F3;
    repeat match goal with
    | H : ?a + (?b + ?c) = 0 |- _ => assert (c = - (a + b)) by lra; clear H; subst c
    end; ring.
Qed.

Lemma geo_z0 x0 xa xb sa sb sc pa pb pc :
  xa = msq pa -> xb = msq pb ->
  x0 = msq (add4 pa (add4 pb pc)) -> sa = msq (add4 pb pc) -> sb = msq (add4 pc pa) ->
  sc = msq (add4 pa pb) ->
  0 <= vE pa -> 0 < kallen x0 xa sa -> 0 < kallen sc xa xb ->
  vp pa = zero3 ->
  z0_ x0 xa xb sa sb sc = angle_between (vp (add4 pa (add4 pb pc))) (vp pb).
Proof.
  intros -> -> -> -> -> -> HE HA HB HF. unfold z0_.
  apply acos_geo with (q := 2 * vE pa); auto; [lra|..]; clear HA HB HE;
    vec; injection HF as -> -> ->; ring.
Qed.

Lemma geo_z xa xb xc sa sb sc pa pb pc :
  xa = msq pa -> xb = msq pb -> xc = msq pc ->
  sa = msq (add4 pb pc) -> sb = msq (add4 pc pa) -> sc = msq (add4 pa pb) ->
  0 <= vE pa -> 0 < kallen sb xc xa -> 0 < kallen sc xa xb ->
  vp pa = zero3 ->
  z_ xa xb xc sa sb sc = angle_between (vp pc) (vp pb).
Proof.
  intros -> -> -> -> -> -> HE HA HB HF. unfold z_.
  apply acos_geo with (q := 2 * vE pa); auto; [lra|..]; clear HA HB HE;
    vec; injection HF as -> -> ->; ring.
Qed.
