(** C139 for serialised models. The vocabulary is in SpecSmooth.v and SpecSerSmooth.v. *)
From Coq Require Import String ZArith List Bool Reals.
From Coquelicot Require Import Hierarchy Complex Derive.
From Verif Require Import Prelude Decay Expr CExpr SpecKin SpecDPD Builder SpecFinite SpecSmooth SerFormat SpecSerial SpecSerFinite SpecSerSmooth
  SerSmooth SerExamples SerPointExamples SerFiniteExamples SerSmoothExamples.
From Verif Require SerAmplitude.
Import ListNotations.
Local Open Scope Z_scope.

(** If symbols (and with them the weights) and the lineshapes of all chains have derivatives, so has the intensity of a serialised model, at
    every point inside the Dalitz plot. *)
Theorem C139_serial t0 m d s r tl additional x w dyn cl M (base : R -> symbol -> C) (cpl : R -> string -> list ival -> C) :
  helicity_definition m d s r tl additional x w dyn -> SerAmplitude.formulate m cl tl additional = Ok M ->
  inside (fun y => Re (base t0 y)) -> nonsingular (fun y => Re (base t0 y)) ->
  masses_kept s t0 (fun t y => Re (base t y)) ->
  (forall y, smooth_at t0 (fun t => base t y)) ->
  (forall c, In c (di_chains d) -> smooth_at t0 (fun t => ceval (Env (base t) (cpl t)) (fun _ => 0) (de_expr (dyn c)))) ->
  smooth_at t0 (fun t => full_value (at_point (m_variables M) (base t) (cpl t)) M).
Proof. exact (fun H F => serial_smooth t0 m d s r tl additional x w dyn H cl M F base cpl). Qed.
Print Assumptions C139_serial.

(** With the lineshapes of the module it has derivatives if further channels are S waves, or open and not at their threshold. *)
Theorem C139_serial_lineshapes t0 m d s r tl x w dyn cl M (base : R -> symbol -> C) (cpl : R -> string -> list ival -> C) :
  helicity_definition m d s r tl None x w dyn -> SerAmplitude.formulate m cl tl None = Ok M ->
  inside (fun y => Re (base t0 y)) -> nonsingular (fun y => Re (base t0 y)) ->
  masses_kept s t0 (fun t y => Re (base t y)) ->
  (forall y, smooth_at t0 (fun t => base t y)) -> (forall n i, smooth_at t0 (fun t => cpl t n i)) ->
  (forall c, In c (di_chains d) -> smooth_serial m tl x (base t0) c) ->
  smooth_at t0 (fun t => full_value (at_point (m_variables M) (base t) (cpl t)) M).
Proof. exact (serial_builtin_smooth t0 m d s r tl x w dyn cl M base cpl). Qed.
Print Assumptions C139_serial_lineshapes.
(** Three chains, one with three channels of which the last one is closed; the point moves and a resonance becomes heavier. *)
Example C139_serial_example : exists M, SerAmplitude.formulate px_model true sx_tl None = Ok M /\
  forall cpl : R -> string -> list ival -> C, (forall n i, smooth_at 0 (fun t => cpl t n i)) ->
    smooth_at 0 (fun t => full_value (at_point (m_variables M) (nx_moving t) (cpl t)) M).
Proof.
  destruct (px_formulate true) as (M & F). exists M. split; [exact F|]. intros cpl LC.
  exact (serial_builtin_smooth 0 px_model (sx_dist px_chains) sx_s 1 sx_tl sx_x px_w px_dyn true M nx_moving cpl px_definition F
    (proj1 nx_inside) (proj2 nx_inside) nx_kept nx_smooth LC nx_smooth_serial).
Qed.
Print Assumptions C139_serial_example.
