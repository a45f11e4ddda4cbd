(** C143: the total rate does not depend on the order of integration. The vocabulary is in SpecNormal.v (and SpecObs.v, SpecBounded.v). *)
From Coq Require Import String ZArith List Bool Reals.
From Coquelicot Require Import Complex.
From Verif Require Import Prelude Decay Expr CExpr SpecKin SpecDPD Builder SpecBuilder SpecFinite SpecSmooth SpecObs SpecBounded SpecNormal
  BoundedProofs NormalProofs NormalExamples AxisModels AxisExamples RelabelExamples RelabelShapeExamples ObsExamples
  SerFormat SpecSerial SpecSerBounded SerExamples SerPointExamples SerFiniteExamples SerBoundedExamples.
From Verif Require SerAmplitude.
Import ListNotations.
Local Open Scope R_scope.

(** The integral over the Dalitz plot as the integral of the projection on sigma_k, and as the integral of the projection on sigma_k':
    they are the same number. *)
Theorem C143_order b s dyn ref cl uc m base cpl i j k i' j' k' N N' : std_decay (b_decay b) s -> dynamics_of b dyn ->
  (b_prod_helicity b = false -> plain_resonances (b_decay b)) -> formulate b ref cl uc = Ok m ->
  open_phase_space base ->
  (forall c, In c (d_chains (b_decay b)) -> own_sigma_only base cpl (st_index (ch_spectator c)) (de_expr (dyn c)) /\
    continuous_on_range base cpl (st_index (ch_spectator c)) (de_expr (dyn c))) ->
  cyclic i j k -> cyclic i' j' k' ->
  integrates_to base (intensity_at m cpl) i j k N -> integrates_to base (intensity_at m cpl) i' j' k' N' -> N = N'.
Proof. exact (c143_model b s dyn ref cl uc m base cpl i j k i' j' k' N N'). Qed.
Print Assumptions C143_order.

(** With the Breit-Wigners of C141_breit_wigner. *)
Theorem C143_breit_wigner b s dyn ref cl uc m base cpl i j k i' j' k' N N' : std_decay (b_decay b) s -> dynamics_of b dyn ->
  (b_prod_helicity b = false -> plain_resonances (b_decay b)) -> formulate b ref cl uc = Ok m ->
  physical (fun x => Re (base x)) -> nonsingular (fun x => Re (base x)) ->
  regular_dynamics (b_decay b) dyn base -> threshold_regular (b_decay b) dyn base -> cyclic i j k -> cyclic i' j' k' ->
  integrates_to base (intensity_at m cpl) i j k N -> integrates_to base (intensity_at m cpl) i' j' k' N' -> N = N'.
Proof. exact (c143_bw b s dyn ref cl uc m base cpl i j k i' j' k' N N'). Qed.
Print Assumptions C143_breit_wigner.
(** C142_breit_wigner yields the two integrals of this decay. *)
Example C143_example : std_decay (b_decay ob_b) id_st /\ dynamics_of ob_b rb_dyn /\ plain_resonances (b_decay ob_b) /\
  (exists m, formulate ob_b None false false = Ok m) /\
  physical (fun x => Re (bo_base x)) /\ nonsingular (fun x => Re (bo_base x)) /\
  regular_dynamics (b_decay ob_b) rb_dyn bo_base /\ threshold_regular (b_decay ob_b) rb_dyn bo_base /\
  forall m, formulate ob_b None false false = Ok m -> forall cpl,
    exists N N', integrates_to bo_base (intensity_at m cpl) 1 2 3 N /\ integrates_to bo_base (intensity_at m cpl) 2 3 1 N'.
Proof. exact ax_example. Qed.
Print Assumptions C143_example.

(** The same holds for serialised models. *)
Theorem C143_serial m d s r tl additional x w dyn cl M base cpl i j k i' j' k' N N' : helicity_definition m d s r tl additional x w dyn ->
  SerAmplitude.formulate m cl tl additional = Ok M -> open_phase_space base ->
  (forall c, In c (di_chains d) -> own_sigma_only base cpl (ct_k (x c)) (de_expr (dyn c))) ->
  (forall c, In c (di_chains d) -> continuous_on_range base cpl (ct_k (x c)) (de_expr (dyn c))) -> cyclic i j k -> cyclic i' j' k' ->
  integrates_to base (intensity_at M cpl) i j k N -> integrates_to base (intensity_at M cpl) i' j' k' N' -> N = N'.
Proof. exact (c143_serial m d s r tl additional x w dyn cl M base cpl i j k i' j' k' N N'). Qed.
Print Assumptions C143_serial.
Theorem C143_serial_lineshapes m d s r tl x w dyn cl M base cpl i j k i' j' k' N N' : helicity_definition m d s r tl None x w dyn ->
  SerAmplitude.formulate m cl tl None = Ok M ->
  physical (fun y => Re (base y)) -> nonsingular (fun y => Re (base y)) ->
  (forall c, In c (di_chains d) -> threshold_serial m tl x base c) -> cyclic i j k -> cyclic i' j' k' ->
  integrates_to base (intensity_at M cpl) i j k N -> integrates_to base (intensity_at M cpl) i' j' k' N' -> N = N'.
Proof. exact (c143_serial_lineshapes m d s r tl x w dyn cl M base cpl i j k i' j' k' N N'). Qed.
Print Assumptions C143_serial_lineshapes.
Example C143_serial_example : helicity_definition px_model (sx_dist px_chains) sx_s 1 sx_tl None sx_x px_w px_dyn /\
  (exists M, SerAmplitude.formulate px_model true sx_tl None = Ok M) /\
  physical (fun y => Re (nx_base y)) /\ nonsingular (fun y => Re (nx_base y)) /\
  (forall c, In c (di_chains (sx_dist px_chains)) -> threshold_serial px_model sx_tl sx_x nx_base c).
Proof. exact (conj px_definition (conj (px_formulate true) (conj (proj1 nx_physical) (conj (proj2 nx_physical) nx_threshold)))). Qed.
Print Assumptions C143_serial_example.
