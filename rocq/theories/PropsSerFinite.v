(** C127: the expressions of a serialised model never divide by zero at points in phase space, and the intensity is
    continuous there. The vocabulary is in SpecFinite.v, SpecContinuity.v, SpecSerPoints.v and SpecSerFinite.v. *)
From Coq Require Import String ZArith QArith Qcanon List Bool Reals.
From Coquelicot Require Import Hierarchy Complex.
From Verif Require Import Prelude Decay Expr CExpr SpecKin SpecDPD Builder SpecFinite SpecContinuity SerFormat SerAmplitude SpecSerial
  SpecSerPoints SpecSerFinite SerFinite SerExamples SerPointExamples SerFiniteExamples.
Import ListNotations.
Local Open Scope Z_scope.

(** The intensity divides by nothing, and amplitudes divide by exactly what the lineshapes of their chains divide by. *)
Theorem C127_divisions m d s r tl additional x w dyn cl M ev : helicity_definition m d s r tl additional x w dyn ->
  SerAmplitude.formulate m cl tl additional = Ok M ->
  (forall h, divisors ev h (m_intensity M) = []) /\
  (forall key e z, dget key (m_amplitudes M) = Some e -> In z (divisors ev (fun _ => 0) e) ->
     exists c, In c (di_chains d) /\ fst key = amp_name (ct_k (x c)) /\ In z (divisors ev (fun _ => 0) (de_expr (dyn c)))) /\
  (forall c l z, In c (di_chains d) -> helicity_tuple s l -> In z (divisors ev (fun _ => 0) (de_expr (dyn c))) ->
     exists e, dget (amp_name (ct_k (x c)), amp_index l) (m_amplitudes M) = Some e /\ In z (divisors ev (fun _ => 0) e)).
Proof.
  exact (fun H F => conj (serial_intensity_divisors m d s r tl additional x w dyn H cl M F ev)
    (conj (serial_amplitude_divisors m d s r tl additional x w dyn H cl M F ev)
      (serial_lineshape_divisors m d s r tl additional x w dyn H cl M F ev))).
Qed.
Print Assumptions C127_divisions.

(** Models with built-in lineshapes divide by zero at no point in phase space off its boundary, if no production vertex
    has a barrier, resonances are above threshold, and further channels are S waves or open. *)
Theorem C127_no_poles m d s r tl x w dyn cl M base cpl : helicity_definition m d s r tl None x w dyn ->
  SerAmplitude.formulate m cl tl None = Ok M ->
  physical (fun y => Re (base y)) -> nonsingular (fun y => Re (base y)) ->
  (forall c, In c (di_chains d) -> regular_serial m tl x base c) -> well_defined M base cpl.
Proof. exact (fun H F Ph Ns Rg => serial_well_defined m d s r tl x w dyn H cl M F base cpl Ph Ns Rg). Qed.
Print Assumptions C127_no_poles.

(** If symbols and the lineshapes of all chains converge, so does the intensity. *)
Theorem C127_continuous {T : Type} (L : (T -> Prop) -> Prop) {FL : Filter L} m d s r tl additional x w dyn cl M
  (base : T -> symbol -> C) base0 (cpl : T -> string -> list ival -> C) cpl0 :
  helicity_definition m d s r tl additional x w dyn -> SerAmplitude.formulate m cl tl additional = Ok M ->
  physical (fun y => Re (base0 y)) -> nonsingular (fun y => Re (base0 y)) ->
  (forall y, tends L (fun t => base t y) (base0 y)) ->
  (forall c, In c (di_chains d) ->
     tends L (fun t => ceval (Env (base t) (cpl t)) (fun _ => 0) (de_expr (dyn c)))
       (ceval (Env base0 cpl0) (fun _ => 0) (de_expr (dyn c)))) ->
  tends L (fun t => full_value (at_point (m_variables M) (base t) (cpl t)) M)
    (full_value (at_point (m_variables M) base0 cpl0) M).
Proof.
  exact (fun H F Ph Ns LB LX => serial_continuous L m d s r tl additional x w dyn H cl M F base base0 cpl cpl0 Ph Ns LB LX).
Qed.
Print Assumptions C127_continuous.

(** Models with built-in lineshapes are continuous in the point and in all parameters under the conditions of
    C127_no_poles. *)
Theorem C127_builtin_continuous {T : Type} (L : (T -> Prop) -> Prop) {FL : Filter L} m d s r tl x w dyn cl M
  (base : T -> symbol -> C) base0 (cpl : T -> string -> list ival -> C) cpl0 :
  helicity_definition m d s r tl None x w dyn -> SerAmplitude.formulate m cl tl None = Ok M ->
  physical (fun y => Re (base0 y)) -> nonsingular (fun y => Re (base0 y)) ->
  (forall y, tends L (fun t => base t y) (base0 y)) -> (forall n i, tends L (fun t => cpl t n i) (cpl0 n i)) ->
  (forall c, In c (di_chains d) -> regular_serial m tl x base0 c) ->
  tends L (fun t => full_value (at_point (m_variables M) (base t) (cpl t)) M)
    (full_value (at_point (m_variables M) base0 cpl0) M).
Proof. exact (serial_builtin_continuous L m d s r tl x w dyn cl M base base0 cpl cpl0). Qed.
Print Assumptions C127_builtin_continuous.

(** The condition on production vertices is needed: a model whose production vertex has a form factor of a P wave divides
    by zero at a point in phase space at which all other conditions hold. *)
Theorem C127_production_pole : exists m d s r tl x w dyn base,
  helicity_definition m d s r tl None x w dyn /\ physical (fun y => Re (base y)) /\ nonsingular (fun y => Re (base y)) /\
  (forall c, In c (di_chains d) -> complete_chain m c /\ real_serial tl x base c /\ above_threshold m tl x base c /\
     regular_channels m tl x base c) /\
  (exists M, SerAmplitude.formulate m true tl None = Ok M) /\
  forall cl M cpl, SerAmplitude.formulate m cl tl None = Ok M -> ~ well_defined M base cpl.
Proof.
  exact (ex_intro _ sx_model (ex_intro _ (sx_dist sx_chains) (ex_intro _ sx_s (ex_intro _ 1 (ex_intro _ sx_tl (ex_intro _ sx_x
    (ex_intro _ sx_w (ex_intro _ sx_dyn (ex_intro _ qx_base (conj (proj1 sx_definition) (conj (proj1 qx_physical) (conj (proj2 qx_physical)
    (conj qx_regular (conj (sx_formulate true) qx_pole)))))))))))))).
Qed.
Print Assumptions C127_production_pole.

(** Three chains, one with three channels of which the last one is closed, at a moving point *)
Example C127_hypotheses_satisfiable :
  helicity_definition px_model (sx_dist px_chains) sx_s 1 sx_tl None sx_x px_w px_dyn /\
  (exists M, SerAmplitude.formulate px_model true sx_tl None = Ok M) /\
  physical (fun y => Re (nx_base y)) /\ nonsingular (fun y => Re (nx_base y)) /\
  (forall c, In c px_chains -> regular_serial px_model sx_tl sx_x nx_base c) /\
  (forall y, tends (locally 0%R) (fun t => nx_moving t y) (nx_base y)).
Proof.
  exact (conj px_definition (conj (px_formulate true) (conj (proj1 nx_physical) (conj (proj2 nx_physical) (conj nx_regular nx_moves))))).
Qed.
