(** Properties C11-C20: the angles of angles.py.  Specification vocabulary: SpecKin.v *)
From Coq Require Import String ZArith List Bool Reals.
From Verif Require Import Prelude Expr Angles SpecKin KinFacts AnglesFacts AnglesGeo AnglesProofs.
Import ListNotations.
Local Open Scope string_scope.
Local Open Scope Z_scope.

(** The documented ID combinations of [formulate_zeta_angle] are, see [zeta_ids]:
    rotated state 0 with aligned and reference subsystem in 1..3, or rotated state
    1..3 with aligned subsystem 1..3 and reference subsystem 0..3. *)
Example C11_zeta_ids_meaning : forall r a f, zeta_ids r a f <->
  ((r = 0 /\ 1 <= a <= 3 /\ 1 <= f <= 3) \/ (1 <= r <= 3 /\ 1 <= a <= 3 /\ 0 <= f <= 3)).
Proof. intros; reflexivity. Qed.

Theorem C11_scattering_angle_total : forall i j : Z,
  (1 <= i <= 3 /\ 1 <= j <= 3 /\ i <> j /\
     exists e, formulate_scattering_angle i j
               = Ok (Sym ("theta_" ++ str_of_Z i ++ str_of_Z j) AReal, e))
  \/ (~ (1 <= i <= 3 /\ 1 <= j <= 3 /\ i <> j) /\ formulate_scattering_angle i j = Err ValueError).
Proof. exact scattering_total. Qed.
Print Assumptions C11_scattering_angle_total.

Theorem C11_theta_hat_angle_total : forall i j : Z,
  (1 <= i <= 3 /\ 1 <= j <= 3 /\
     exists e, formulate_theta_hat_angle i j
               = Ok (Sym ("\hat\theta_" ++ str_of_Z i ++ "(" ++ str_of_Z j ++ ")") AReal, e))
  \/ (~ (1 <= i <= 3 /\ 1 <= j <= 3) /\ formulate_theta_hat_angle i j = Err ValueError).
Proof. exact theta_hat_total. Qed.
Print Assumptions C11_theta_hat_angle_total.

Theorem C11_zeta_angle_total : forall r a f : Z,
  (zeta_ids r a f -> exists e, formulate_zeta_angle r a f = Ok (zeta_symbol r a f, e)) /\
  (~ zeta_ids r a f ->
   formulate_zeta_angle r a f = Err ValueError \/
   formulate_zeta_angle r a f = Err NotImplementedErr \/
   ((a = f \/ (f = 0 /\ a = r)) /\ formulate_zeta_angle r a f = Ok (zeta_symbol r a f, RNum 0))).
Proof. exact c11_zeta. Qed.
Print Assumptions C11_zeta_angle_total.

(** Termination: the recursion depth of the Python functions is bounded, more fuel
    never changes the outcome. *)
Theorem C11_recursion_ends : forall (n : nat) (r a f : Z),
  theta_hat_fuel (2 + n) a f = formulate_theta_hat_angle a f /\
  zeta_fuel (3 + n) r a f = formulate_zeta_angle r a f.
Proof. exact (fun n r a f => conj (theta_hat_fuel_enough n a f) (zeta_fuel_enough n r a f)). Qed.
Print Assumptions C11_recursion_ends.

Theorem C12_zeta_antisymmetric : forall env i j k s e s' e',
  0 <= i <= 3 -> 1 <= j <= 3 -> 1 <= k <= 3 ->
  formulate_zeta_angle i j k = Ok (s, e) -> formulate_zeta_angle i k j = Ok (s', e') ->
  reval env e = (- reval env e')%R.
Proof. exact c12_antisym. Qed.
Print Assumptions C12_zeta_antisymmetric.

Theorem C12_zeta_vanishes_on_reference : forall env i j s e,
  formulate_zeta_angle i j j = Ok (s, e) -> reval env e = 0%R.
Proof. exact c12_diag. Qed.
Print Assumptions C12_zeta_vanishes_on_reference.

Theorem C12_zeta_default_reference : forall env i k s e s' e', 1 <= i <= 3 -> 1 <= k <= 3 ->
  formulate_zeta_angle i k 0 = Ok (s, e) -> formulate_zeta_angle i k i = Ok (s', e') ->
  reval env e = reval env e'.
Proof. exact c12_ref0. Qed.
Print Assumptions C12_zeta_default_reference.

Theorem C12_theta_hat_antisymmetric : forall env i j s e s' e',
  formulate_theta_hat_angle i j = Ok (s, e) -> formulate_theta_hat_angle j i = Ok (s', e') ->
  reval env e = (- reval env e')%R /\ (i = j -> reval env e = 0%R).
Proof. exact c12_hat. Qed.
Print Assumptions C12_theta_hat_antisymmetric.

(** A physical, non-singular phase-space point exists. *)
Example C13_physical_point : physical ex_env /\ nonsingular ex_env.
Proof. exact (conj (ex_intro _ _ (ex_intro _ _ (ex_intro _ _ ex_momenta))) ex_nonsingular). Qed.

Theorem C13_zeta_sum_rule : forall env i j k l s e s1 e1 s2 e2,
  physical env -> nonsingular env ->
  1 <= i <= 3 -> 1 <= j <= 3 -> 1 <= k <= 3 -> 1 <= l <= 3 ->
  formulate_zeta_angle i j k = Ok (s, e) -> formulate_zeta_angle i j l = Ok (s1, e1) ->
  formulate_zeta_angle i l k = Ok (s2, e2) ->
  reval env e = (reval env e1 + reval env e2)%R.
Proof. exact c13. Qed.
Print Assumptions C13_zeta_sum_rule.

Theorem C14_theta_hat_full_turn : forall env s31 e31 s12 e12 s23 e23,
  physical env -> nonsingular env ->
  formulate_theta_hat_angle 3 1 = Ok (s31, e31) -> formulate_theta_hat_angle 1 2 = Ok (s12, e12) ->
  formulate_theta_hat_angle 2 3 = Ok (s23, e23) ->
  (reval env e31 + reval env e12 + reval env e23 = 2 * PI)%R.
Proof. exact c14. Qed.
Print Assumptions C14_theta_hat_full_turn.

Example C15_isobar_frame : momenta_of ex_q_env ex_q1 ex_q2 ex_q3 /\ nonsingular ex_q_env /\
  add3 (vp ex_q1) (vp ex_q2) = zero3.
Proof. exact ex_q_momenta. Qed.

(** In the rest frame of the isobar (ij). *)
Theorem C15_scattering_angle_is_helicity_angle : forall env p1 p2 p3 i j s e,
  momenta_of env p1 p2 p3 -> nonsingular env ->
  formulate_scattering_angle i j = Ok (s, e) ->
  add3 (vp (pick i p1 p2 p3)) (vp (pick j p1 p2 p3)) = zero3 ->
  reval env e = angle_between (vp (pick i p1 p2 p3)) (opp3 (vp (pick (third i j) p1 p2 p3))).
Proof. exact c15. Qed.
Print Assumptions C15_scattering_angle_is_helicity_angle.

Example C16_rest_frame_0 : momenta_of ex_env ex_p1 ex_p2 ex_p3 /\ nonsingular ex_env.
Proof. exact (conj ex_momenta ex_nonsingular). Qed.

(** In the rest frame of the decaying particle. *)
Theorem C16_theta_hat_is_angle_between_momenta : forall env p1 p2 p3 i j s e,
  momenta_of env p1 p2 p3 -> nonsingular env ->
  formulate_theta_hat_angle i j = Ok (s, e) -> i <> j ->
  vp (add4 p1 (add4 p2 p3)) = zero3 ->
  reval env e =
    ((if Z.eqb j (next_label i) then 1 else -1)
     * angle_between (vp (pick i p1 p2 p3)) (vp (pick j p1 p2 p3)))%R.
Proof. exact c16_hat. Qed.
Print Assumptions C16_theta_hat_is_angle_between_momenta.

Example C16_rest_frame_1 : momenta_of ex_r_env ex_r1 ex_r2 ex_r3 /\ nonsingular ex_r_env /\
  vp (pick 1 ex_r1 ex_r2 ex_r3) = zero3.
Proof. exact ex_r_momenta. Qed.

(** In the rest frame of final state i.  [zsign] is the sign function. *)
Theorem C16_zeta_is_angle_between_momenta : forall env p1 p2 p3 i j k s e,
  momenta_of env p1 p2 p3 -> nonsingular env ->
  1 <= i <= 3 -> 1 <= j <= 3 -> 1 <= k <= 3 ->
  formulate_zeta_angle i j k = Ok (s, e) ->
  vp (pick i p1 p2 p3) = zero3 ->
  reval env e =
    (zsign (zeta_rank i j - zeta_rank i k)
     * angle_between (zeta_direction i j p1 p2 p3) (zeta_direction i k p1 p2 p3))%R.
Proof. exact c16_zeta. Qed.
Print Assumptions C16_zeta_is_angle_between_momenta.

Theorem C17_angles_are_real : forall env, physical env -> nonsingular env ->
  (forall i j s e, formulate_scattering_angle i j = Ok (s, e) -> real_valued env e) /\
  (forall i j s e, formulate_theta_hat_angle i j = Ok (s, e) -> real_valued env e) /\
  (forall i j k s e, formulate_zeta_angle i j k = Ok (s, e) -> real_valued env e).
Proof. exact c17. Qed.
Print Assumptions C17_angles_are_real.

Theorem C18_angles_unit_independent : forall c env, (0 < c)%R ->
  (forall i j s e, formulate_scattering_angle i j = Ok (s, e) ->
     reval (scale_units c env) e = reval env e) /\
  (forall i j s e, formulate_theta_hat_angle i j = Ok (s, e) ->
     reval (scale_units c env) e = reval env e) /\
  (forall i j k s e, formulate_zeta_angle i j k = Ok (s, e) ->
     reval (scale_units c env) e = reval env e).
Proof. exact c18. Qed.
Print Assumptions C18_angles_unit_independent.

(** The guard compares a set with tuples and never fires: the three reversed
    angles are returned instead of being rejected. *)
Theorem C19_reversed_angles_accepted_refuted : exists e21 e32 e13,
  formulate_scattering_angle 2 1 = Ok (Sym "theta_21" AReal, e21) /\
  formulate_scattering_angle 3 2 = Ok (Sym "theta_32" AReal, e32) /\
  formulate_scattering_angle 1 3 = Ok (Sym "theta_13" AReal, e13).
Proof. exact c19. Qed.
Print Assumptions C19_reversed_angles_accepted_refuted.

Theorem C20_swapped_products_supplementary : forall env i j s e s' e',
  physical env -> nonsingular env ->
  formulate_scattering_angle i j = Ok (s, e) -> formulate_scattering_angle j i = Ok (s', e') ->
  (reval env e' = PI - reval env e)%R.
Proof. exact c20. Qed.
Print Assumptions C20_swapped_products_supplementary.
