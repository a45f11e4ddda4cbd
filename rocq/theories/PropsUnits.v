(** C97: form factors are the barrier factors of spherical waves; C98: units of a model. The vocabulary is in
    SpecHankel.v and SpecUnits.v. *)
From Coq Require Import String ZArith QArith Qcanon List Bool Reals Lra.
From Coquelicot Require Import Complex.
From Verif Require Import Prelude Spin Decay Expr CExpr Sums SpecKin SpecDPD Builder SpecBuilder Dynamics SpecDynamics
  SpecHankel SpecUnits HankelFacts UnitFacts RelabelExamples RelabelShapeExamples ObsExamples FiniteExamples UnitExamples.
Import ListNotations.
Local Open Scope R_scope.

(** ** C97: the form factor at radius r is the ratio of spherical waves |h_L(1)| / (qr |h_L(qr)|). *)
Theorem C97_spherical_waves ev h s m1 m2 r L (xs x1 x2 xr : R) :
  ceval ev h s = RtoC xs -> ceval ev h m1 = RtoC x1 -> ceval ev h m2 = RtoC x2 -> ceval ev h r = RtoC xr ->
  0 <= x1 -> 0 <= x2 -> (x1 + x2) * (x1 + x2) < xs -> 0 < xr ->
  ceval ev h (CFormFactor s m1 m2 L r) = RtoC (barrier (Z.to_nat L) (decay_momentum xs x1 x2 * xr)).
Proof. exact (form_factor_expr ev h s m1 m2 r L xs x1 x2 xr). Qed.
Print Assumptions C97_spherical_waves.
(** It vanishes at the threshold except in S waves, where it is 1, increases with the mass, and is 1 at q = 1/r. *)
Theorem C97_threshold L a b r : (0 < L)%Z -> form_factor L (RtoC ((a + b) * (a + b))) (RtoC a) (RtoC b) (RtoC r) = RtoC 0.
Proof. exact (fun H => c97_threshold L a b r _ H eq_refl). Qed.
Print Assumptions C97_threshold.
Theorem C97_s_wave s m1 m2 r : form_factor 0 s m1 m2 r = RtoC 1.
Proof. exact (LineshapeFacts.form_factor_zero s m1 m2 r). Qed.
Print Assumptions C97_s_wave.
Theorem C97_increasing L a b r s t : (0 < L)%Z -> 0 <= a -> 0 <= b -> 0 < r -> 0 < s -> (a + b) * (a + b) <= s -> s < t ->
  exists y z, form_factor L (RtoC s) (RtoC a) (RtoC b) (RtoC r) = RtoC y /\
    form_factor L (RtoC t) (RtoC a) (RtoC b) (RtoC r) = RtoC z /\ 0 <= y < z.
Proof. exact (c97_mono L a b r s t). Qed.
Print Assumptions C97_increasing.
Theorem C97_normalised L a b r s : 0 <= a -> 0 <= b -> (a + b) * (a + b) < s -> decay_momentum s a b * r = 1 ->
  form_factor L (RtoC s) (RtoC a) (RtoC b) (RtoC r) = RtoC 1.
Proof. exact (c97_unit L a b r s). Qed.
Print Assumptions C97_normalised.
(** q = 3/2, r = 2 *)
Example C97_example : (1 + 1) * (1 + 1) < 13 /\ decay_momentum 13 1 1 * 2 = 3 /\
  ceval (Env (fun _ => RtoC 0) (fun _ _ => RtoC 0)) (fun _ => 0%Z) (CFormFactor (CNum 13) (CNum 1) (CNum 1) 2 (CNum 2)) = RtoC (barrier 2 3).
Proof. exact c97_example. Qed.

(** ** C98: if all lineshapes come from Breit-Wigner builders with energy-dependent widths and without decay form factors,
    the intensity does not depend on the unit of mass; with constant widths it is of dimension mass^-4. *)
Theorem C98_units b s dyn ref cl uc m t base base' ed cpl : std_decay (b_decay b) s -> dynamics_of b dyn ->
  (b_prod_helicity b = false -> plain_resonances (b_decay b)) -> formulate b ref cl uc = Ok m ->
  0 < t -> in_units (b_decay b) t base base' -> uniform_dynamics (b_decay b) dyn ed ->
  full_value (at_point (m_variables m) base' cpl) m =
  (RtoC (if ed then 1 else / (t * t * (t * t))) * full_value (at_point (m_variables m) base cpl) m)%C.
Proof. exact (c98 b s dyn ref cl uc m t base base' ed cpl). Qed.
Print Assumptions C98_units.
Example C98_example ed : std_decay (b_decay (ux_b ed)) id_st /\ dynamics_of (ux_b ed) (ux_dyn ed) /\ plain_resonances (b_decay (ux_b ed)) /\
  (exists m, formulate (ux_b ed) None false false = Ok m) /\ in_units (b_decay (ux_b ed)) 1000 fe_base ux_base /\
  uniform_dynamics (b_decay (ux_b ed)) (ux_dyn ed) ed /\
  physical (fun x => Re (fe_base x)) /\ nonsingular (fun x => Re (fe_base x)).
Proof.
  exact (conj ob_std (conj (ux_dynamics ed) (conj ob_plain (conj (ux_formulate ed) (conj ux_units (conj (ux_uniform ed) rb_physical)))))).
Qed.
