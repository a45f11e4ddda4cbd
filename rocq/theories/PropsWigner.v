(** C131: the alignment angles are the Wigner rotations between the helicity frames of the chains *)
From Coq Require Import ZArith Reals List.
From Verif Require Import Prelude Expr SpecKin Angles AnglesProofs SpecWigner WignerProofs WignerUnique.
Import ListNotations.
Local Open Scope R_scope.

(** The spinor matrices represent the Lorentz transformations. *)
Theorem C131_transform :
  (forall a b v, transform (mul2 a b) v = transform a (transform b v)) /\
  (forall a v, transform (spinor_rot a) v = rot_y a v) /\
  (forall m p v, 0 < m -> transform (spinor_boost m p) v = boost_z m p v).
Proof. exact (conj transform_mul (conj transform_rot transform_boost)). Qed.
Print Assumptions C131_transform.

(** The frame of particle i in the chain r is its frame in the chain k, rotated by zeta^i_k(r) before and by theta-hat_k(r) after. *)
Theorem C131_frames env i k r tk tr x e y f : physical env -> nonsingular env ->
  (1 <= i <= 3)%Z -> (1 <= k <= 3)%Z -> (1 <= r <= 3)%Z -> 0 < mass_at env i ->
  scattering_angle env k tk -> scattering_angle env r tr ->
  formulate_theta_hat_angle k r = Ok (x, e) -> formulate_zeta_angle i k r = Ok (y, f) ->
  forall v, helicity_frame env r tr i v = rot_y (reval env e) (helicity_frame env k tk i (rot_y (reval env f) v)).
Proof. exact (c131_frames env i k r tk tr x e y f). Qed.
Print Assumptions C131_frames.

(** For spinors, up to the sign of a full turn. *)
Theorem C131_spinor env i k r tk tr x e y f : physical env -> nonsingular env ->
  (1 <= i <= 3)%Z -> (1 <= k <= 3)%Z -> (1 <= r <= 3)%Z -> 0 < mass_at env i ->
  scattering_angle env k tk -> scattering_angle env r tr ->
  formulate_theta_hat_angle k r = Ok (x, e) -> formulate_zeta_angle i k r = Ok (y, f) ->
  spinor_frame env r tr i
  = scale2 (frame_sign i k r) (mul2 (spinor_rot (reval env e)) (mul2 (spinor_frame env k tk i) (spinor_rot (reval env f)))).
Proof. exact (c131_spinor env i k r tk tr x e y f). Qed.
Print Assumptions C131_spinor.
Example C131_example : physical ex_env /\ nonsingular ex_env /\ (forall i, (1 <= i <= 3)%Z -> 0 < mass_at ex_env i) /\
  (exists t, scattering_angle ex_env 3 t) /\ (exists t, scattering_angle ex_env 1 t) /\
  (exists x e, formulate_theta_hat_angle 3 1 = Ok (x, e)) /\ (exists y f, formulate_zeta_angle 2 3 1 = Ok (y, f)) /\
  frame_sign 2 3 1 = -1.
Proof. exact ex_frames. Qed.

(** The frames give momenta with the masses and invariant masses of the point. *)
Theorem C131_momenta env k theta : physical env -> nonsingular env ->
  (forall i, (1 <= i <= 3)%Z -> 0 < mass_at env i) -> (1 <= k <= 3)%Z -> scattering_angle env k theta ->
  let q i := helicity_frame env k theta i (at_rest (mass_at env i)) in
  momenta_of env (q 1%Z) (q 2%Z) (q 3%Z) /\ add4 (q 1%Z) (add4 (q 2%Z) (q 3%Z)) = at_rest (mass_at env 0) /\
  vp (q k) = V3 0 0 (- spectator_momentum env k) /\ 0 <= vx (vp (q (next_label k))) /\ (forall i, vy (vp (q i)) = 0).
Proof. exact (c131_momenta env k theta). Qed.
Print Assumptions C131_momenta.

(** They are the only ones in the rest frame of particle 0 with that orientation. *)
Theorem C131_unique env k theta p : physical env -> nonsingular env ->
  (forall i, (1 <= i <= 3)%Z -> 0 < mass_at env i) -> (1 <= k <= 3)%Z -> scattering_angle env k theta ->
  momenta_of env (p 1%Z) (p 2%Z) (p 3%Z) -> add4 (p 1%Z) (add4 (p 2%Z) (p 3%Z)) = at_rest (mass_at env 0) ->
  vx (vp (p k)) = 0 -> vz (vp (p k)) <= 0 -> (forall i, vy (vp (p i)) = 0) -> 0 <= vx (vp (p (next_label k))) ->
  forall i, (1 <= i <= 3)%Z -> p i = helicity_frame env k theta i (at_rest (mass_at env i)).
Proof. exact (c131_unique env k theta p). Qed.
Print Assumptions C131_unique.
Example C131_unique_example : exists p : Z -> vec4, momenta_of ex_env (p 1%Z) (p 2%Z) (p 3%Z) /\
  add4 (p 1%Z) (add4 (p 2%Z) (p 3%Z)) = at_rest (mass_at ex_env 0) /\ vx (vp (p 3%Z)) = 0 /\ vz (vp (p 3%Z)) <= 0 /\
  (forall i, vy (vp (p i)) = 0) /\ 0 <= vx (vp (p (next_label 3))).
Proof. exact ex_unique. Qed.
