(** C141 for serialised models. The vocabulary is in SpecBounded.v, SpecSerBounded.v and SpecSerFinite.v. *)
From Coq Require Import String ZArith List Bool Reals.
From Coquelicot Require Import Complex.
From Verif Require Import Prelude Decay Expr CExpr SpecKin SpecDPD Builder SpecBounded SerFormat SpecSerial SpecSerFinite SpecSerBounded
  SerBounded SerExamples SerPointExamples SerFiniteExamples SerBoundedExamples.
From Verif Require SerAmplitude.
Import ListNotations.
Local Open Scope R_scope.

(** If each lineshape is a continuous function of the invariant mass of its own pair between the limits of C141_limits, the intensity of a
    serialised model has an upper bound on the Dalitz plot. *)
Theorem C141_serial m d s r tl additional x w dyn cl M base cpl : helicity_definition m d s r tl additional x w dyn ->
  SerAmplitude.formulate m cl tl additional = Ok M ->
  (forall c, In c (di_chains d) -> own_sigma_only base cpl (ct_k (x c)) (de_expr (dyn c))) ->
  (forall c, In c (di_chains d) -> continuous_on_range base cpl (ct_k (x c)) (de_expr (dyn c))) ->
  exists B, forall s1 s2 s3, on_dalitz_plot base s1 s2 s3 ->
    Re (full_value (at_point (m_variables M) (at_sigmas base s1 s2 s3) cpl) M) <= B.
Proof. exact (fun H F => c141_serial_general m d s r tl additional x w dyn H cl M F base cpl). Qed.
Print Assumptions C141_serial.

(** So it does with the lineshapes and form factors of the module, if further channels are S waves or open on the whole Dalitz plot. *)
Theorem C141_serial_lineshapes m d s r tl x w dyn cl M base cpl : helicity_definition m d s r tl None x w dyn ->
  SerAmplitude.formulate m cl tl None = Ok M ->
  physical (fun y => Re (base y)) -> nonsingular (fun y => Re (base y)) ->
  (forall c, In c (di_chains d) -> threshold_serial m tl x base c) ->
  exists B, forall s1 s2 s3, on_dalitz_plot base s1 s2 s3 ->
    Re (full_value (at_point (m_variables M) (at_sigmas base s1 s2 s3) cpl) M) <= B.
Proof. exact (c141_serial m d s r tl x w dyn cl M base cpl). Qed.
Print Assumptions C141_serial_lineshapes.
Example C141_serial_example : helicity_definition px_model (sx_dist px_chains) sx_s 1 sx_tl None sx_x px_w px_dyn /\
  (exists M, SerAmplitude.formulate px_model true sx_tl None = Ok M) /\
  physical (fun y => Re (nx_base y)) /\ nonsingular (fun y => Re (nx_base y)) /\
  (forall c, In c (di_chains (sx_dist px_chains)) -> threshold_serial px_model sx_tl sx_x nx_base c) /\ on_dalitz_plot nx_base 315 308 75.
Proof.
  exact (conj px_definition (conj (px_formulate true) (conj (proj1 nx_physical) (conj (proj2 nx_physical) (conj nx_threshold nx_points))))).
Qed.
Print Assumptions C141_serial_example.
