(** The three-body decay of BoundedProofs.v has points inside its Dalitz plot (for C142). *)
From Coq Require Import String ZArith List Bool Reals Lra Lia Psatz FunctionalExtensionality.
From Coquelicot Require Import Complex.
From Verif Require Import Prelude Expr CExpr SpecKin SpecDPD SpecBounded SpecSmooth SpecNormal BoundedProofs NormalProofs SerFiniteExamples.
Import ListNotations.
Local Open Scope R_scope.

Lemma bo_open : open_phase_space bo_base.
Proof. exact (open_of_physical _ (proj1 bo_physical) (proj2 bo_physical)). Qed.
Lemma bo_inside : inside (fun x => Re (at_sigmas bo_base 13 13 13 x)).
Proof.
  assert (Q : sqrt 3 * sqrt 3 = 3) by (apply sqrt_sqrt; lra). assert (Q0 : 0 < sqrt 3) by (apply sqrt_lt_R0; lra).
  exists (V4 2 (V3 (sqrt 3) 0 0)), (V4 2 (V3 (- (sqrt 3 / 2)) (3 / 2) 0)), (V4 2 (V3 (- (sqrt 3 / 2)) (- (3 / 2)) 0)). split; [|split].
  - change (momenta_of bo_env (V4 2 (V3 (sqrt 3) 0 0)) (V4 2 (V3 (- (sqrt 3 / 2)) (3 / 2) 0)) (V4 2 (V3 (- (sqrt 3 / 2)) (- (3 / 2)) 0))).
    unfold momenta_of, on_shell. destruct bo_vals as (-> & -> & -> & -> & -> & -> & ->).
    unfold msq, add4, add3, dot; cbn [vE vp vx vy vz]. repeat split; nra.
  - unfold add3, zero3. cbn [vp vx vy vz]. f_equal; lra.
  - unfold cross, zero3. cbn [vp vx vy vz]. intros E. injection E as E1. nra.
Qed.
