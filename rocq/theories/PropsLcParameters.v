(** C55, C56: the parameters of the model file in /repo/docs/Lc2ppiK.json *)
From Coq Require Import String ZArith List Bool.
From Verif Require Import Prelude Decay Expr CExpr Builder SerFormat SerDynamics SpecSerial SpecLcParameters LcModel LcProofs LcParameters.
From Verif Require SerAmplitude.
Import ListNotations.
Local Open Scope string_scope.

(** Every parameter of a chain that is not a mass of a state has the value that the chain gives to it. *)
Theorem C55_Lc2ppiK cl M : SerAmplitude.formulate lc_model cl lc_tl lc_builders = Ok M -> forall c y v, In c lc_chains ->
  (forall n, In n [0; 1; 2; 3]%Z -> y <> mass_key n) -> own_parameter (lc_w c) (lc_dyn c) c y v -> dget y (m_params M) = Some v.
Proof. exact (lc_parameters cl M). Qed.
Print Assumptions C55_Lc2ppiK.
(** In terms of the numbers in the file: lineshapes *)
Theorem C55_Lc2ppiK_lineshapes cl M : SerAmplitude.formulate lc_model cl lc_tl lc_builders = Ok M -> forall c p f key y v, In c lc_chains ->
  In p (cd_propagators c) -> function_of lc_model (pr_parametrization p) f -> In (key, y) (function_symbols (fd_type f) (lc_tl (cd_name c))) ->
  dget key (fd_numbers f) = Some v -> dget (KSym y) (m_params M) = Some (real_val v).
Proof. exact (lc_function_values cl M). Qed.
Print Assumptions C55_Lc2ppiK_lineshapes.
(** ... and form factors *)
Theorem C55_Lc2ppiK_form_factors cl M : SerAmplitude.formulate lc_model cl lc_tl lc_builders = Ok M -> forall c v n f q, In c lc_chains ->
  In v (cd_vertices c) -> v_formfactor v = Some n -> function_of lc_model n f -> dget "radius" (fd_numbers f) = Some q ->
  dget (KSym (radius_symbol (p_latex (st_particle (lc_s 0))) v)) (m_params M) = Some (real_val q).
Proof. exact (lc_radius_values cl M). Qed.
Print Assumptions C55_Lc2ppiK_form_factors.
(** Every chain keeps its own weight. *)
Theorem C56_Lc2ppiK cl M : SerAmplitude.formulate lc_model cl lc_tl lc_builders = Ok M -> forall c, In c lc_chains -> dget (KSym (lc_w c)) (m_params M) = Some (cd_weight c).
Proof. exact (lc_weight_values cl M). Qed.
Print Assumptions C56_Lc2ppiK.
(** There are 74 numbers of lineshapes and 26 radii of form factors. *)
Example C55_Lc2ppiK_example : (exists M, SerAmplitude.formulate lc_model true lc_tl lc_builders = Ok M) /\ lc_count = (74, 26)%nat.
Proof. exact (conj (lc_formulate true) lc_count_value). Qed.
