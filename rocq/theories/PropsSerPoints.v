(** C126: the intensity of a serialised model at different points *)
From Coq Require Import String ZArith QArith Qcanon List Bool Reals.
From Coquelicot Require Import Complex.
From Verif Require Import Prelude Decay Expr SpecKin SpecDPD CExpr Builder SpecRename SerFormat SerDynamics SerAmplitude SpecSerial
  SerModel SerExamples SpecSerPoints SerPoints SerPointExamples.
Import ListNotations.
Local Open Scope Z_scope.

(** At similar points (same angles), if weight times lineshape of all chains change by the same factor [q], the same phase [u]
    and, if [cj], by complex conjugation, so do all amplitudes, and the intensity changes by q^2. *)
Theorem C126_common_factor : forall m d s r tl additional x w dyn cl M t base base' cpl cpl' q u cj,
  helicity_definition m d s r tl additional x w dyn -> SerAmplitude.formulate m cl tl additional = Ok M ->
  (0 < t)%R -> similar_points t base base' -> Cmod u = 1%R ->
  (forall c, In c (di_chains d) ->
     chain_strength w dyn base' cpl' c = (RtoC q * common_phase u cj (chain_strength w dyn base cpl c))%C) ->
  (forall k l, In k [1; 2; 3] -> helicity_tuple s l ->
     amp_value (at_point (m_variables M) base' cpl') M k l
     = (RtoC q * common_phase u cj (amp_value (at_point (m_variables M) base cpl) M k l))%C) /\
  full_value (at_point (m_variables M) base' cpl') M = (RtoC (q * q) * full_value (at_point (m_variables M) base cpl) M)%C.
Proof.
  exact (fun m d s r tl ad x w dyn cl M t base base' cpl cpl' q u cj H F T S U V =>
    conj (related_amplitude m d s r tl ad x w dyn H cl M F t base base' cpl cpl' q u cj T S V)
      (related_intensity m d s r tl ad x w dyn H cl M F t base base' cpl cpl' q u cj T S U V)).
Qed.
Print Assumptions C126_common_factor.

(** Units: multiply all masses and widths with [t], Mandelstam variables with t^2, radii with 1/t. The intensity is multiplied with
    1/t^4, for all models with built-in lineshapes. Excluded are form factors of the production vertex with orbital angular momentum,
    for which this is false (C57). *)
Theorem C126_units : forall m d s r tl x w dyn cl M t base base' cpl cpl',
  helicity_definition m d s r tl None x w dyn ->
  (forall c, In c (di_chains d) -> complete_chain m c /\ no_production_barrier m c) ->
  SerAmplitude.formulate m cl tl None = Ok M ->
  (0 < t)%R -> serial_units tl w (di_chains d) t base base' ->
  full_value (at_point (m_variables M) base' cpl') M = (RtoC (/ t ^ 4) * full_value (at_point (m_variables M) base cpl) M)%C.
Proof. exact (fun m d s r tl x w dyn cl M t base base' cpl cpl' H C F => serial_units_intensity m d s r tl x w dyn H C cl M t base base' cpl cpl' F). Qed.
Print Assumptions C126_units.

(** Opposite widths and complex conjugate weights give the same intensity, if the resonances with energy-dependent
    Breit-Wigner are above threshold. *)
Theorem C126_opposite_widths : forall m d s r tl x w dyn cl M base base' cpl cpl',
  helicity_definition m d s r tl None x w dyn ->
  (forall c, In c (di_chains d) -> complete_chain m c /\ no_production_barrier m c) ->
  SerAmplitude.formulate m cl tl None = Ok M ->
  opposite_serial_widths tl w (di_chains d) base base' ->
  physical (fun y => Re (base y)) -> nonsingular (fun y => Re (base y)) ->
  (forall c, In c (di_chains d) -> above_threshold m tl x base c) ->
  full_value (at_point (m_variables M) base' cpl') M = full_value (at_point (m_variables M) base cpl) M.
Proof.
  exact (fun m d s r tl x w dyn cl M base base' cpl cpl' H C F O P N T =>
    opposite_intensity m d s r tl x w dyn H C base base' cpl cpl' O P N T cl M F).
Qed.
Print Assumptions C126_opposite_widths.

(** Three chains, with a production form factor in an S wave, a decay form factor and a lineshape with three channels *)
Example C126_hypotheses_satisfiable :
  helicity_definition px_model (sx_dist px_chains) sx_s 1 sx_tl None sx_x px_w px_dyn /\
  (forall c, In c px_chains -> complete_chain px_model c /\ no_production_barrier px_model c) /\
  (forall cl, exists M, SerAmplitude.formulate px_model cl sx_tl None = Ok M) /\
  (forall t, serial_units sx_tl px_w px_chains t px_base (px_units t)) /\
  opposite_serial_widths sx_tl px_w px_chains px_base px_opposite /\
  physical (fun y => Re (px_base y)) /\ nonsingular (fun y => Re (px_base y)) /\
  (forall c, In c px_chains -> above_threshold px_model sx_tl sx_x px_base c).
Proof.
  exact (conj px_definition (conj (fun c I => conj (proj2 (px_hyp c I)) (px_barrier c I)) (conj px_formulate (conj px_is_units
    (conj px_is_opposite (conj (proj1 px_physical) (conj (proj2 px_physical) px_threshold))))))).
Qed.
