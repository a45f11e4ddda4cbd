(** The total rate of models does not depend on the choice of the projected invariant mass (proofs for C143) *)
From Coq Require Import String ZArith List Bool Reals.
From Coquelicot Require Import Coquelicot.
From Verif Require Import Prelude Decay Expr CExpr SpecKin SpecDPD Builder SpecBuilder SpecFinite SpecObs SpecBounded BoundedProofs SpecNormal NormalProofs AxisProofs
  SerFormat SpecSerial SpecSerBounded SerBounded.
From Verif Require SerAmplitude.
Import ListNotations.
Local Open Scope R_scope.

Theorem c143 base I : open_phase_space base -> plot_distribution base I -> forall i j k i' j' k' N N', cyclic i j k -> cyclic i' j' k' ->
  integrates_to base I i j k N -> integrates_to base I i' j' k' N' -> N = N'.
Proof. intros Op [[B HB] HC]. exact (order_irrelevant base I B Op HB HC). Qed.
Theorem c143_model b s dyn ref cl uc m base cpl i j k i' j' k' N N' : std_decay (b_decay b) s -> dynamics_of b dyn ->
  (b_prod_helicity b = false -> plain_resonances (b_decay b)) -> Builder.formulate b ref cl uc = Ok m ->
  open_phase_space base -> model_shapes base cpl b dyn -> cyclic i j k -> cyclic i' j' k' ->
  integrates_to base (intensity_at m cpl) i j k N -> integrates_to base (intensity_at m cpl) i' j' k' N' -> N = N'.
Proof. intros D Dyn PR F Op Sh. exact (c143 base _ Op (model_distribution b s dyn ref cl uc m base cpl D Dyn PR F Sh) i j k i' j' k' N N'). Qed.
Theorem c143_bw b s dyn ref cl uc m base cpl i j k i' j' k' N N' : std_decay (b_decay b) s -> dynamics_of b dyn ->
  (b_prod_helicity b = false -> plain_resonances (b_decay b)) -> Builder.formulate b ref cl uc = Ok m ->
  physical (fun x => Re (base x)) -> nonsingular (fun x => Re (base x)) ->
  regular_dynamics (b_decay b) dyn base -> threshold_regular (b_decay b) dyn base -> cyclic i j k -> cyclic i' j' k' ->
  integrates_to base (intensity_at m cpl) i j k N -> integrates_to base (intensity_at m cpl) i' j' k' N' -> N = N'.
Proof.
  intros D Dyn PR F Ph Ns Rg Tr.
  exact (c143_model b s dyn ref cl uc m base cpl i j k i' j' k' N N' D Dyn PR F (open_of_physical base Ph Ns) (bw_shapes b dyn base cpl Dyn Ph Ns Rg Tr)).
Qed.
Theorem c143_serial m d s r tl additional x w dyn cl M base cpl i j k i' j' k' N N' : helicity_definition m d s r tl additional x w dyn ->
  SerAmplitude.formulate m cl tl additional = Ok M -> open_phase_space base ->
  (forall c, In c (di_chains d) -> own_sigma_only base cpl (ct_k (x c)) (de_expr (dyn c))) ->
  (forall c, In c (di_chains d) -> continuous_on_range base cpl (ct_k (x c)) (de_expr (dyn c))) -> cyclic i j k -> cyclic i' j' k' ->
  integrates_to base (intensity_at M cpl) i j k N -> integrates_to base (intensity_at M cpl) i' j' k' N' -> N = N'.
Proof.
  intros H F Op O Ct. exact (c143 base _ Op (serial_distribution m d s r tl additional x w dyn cl M base cpl H F O Ct) i j k i' j' k' N N').
Qed.
Theorem c143_serial_lineshapes m d s r tl x w dyn cl M base cpl i j k i' j' k' N N' : helicity_definition m d s r tl None x w dyn ->
  SerAmplitude.formulate m cl tl None = Ok M ->
  physical (fun y => Re (base y)) -> nonsingular (fun y => Re (base y)) ->
  (forall c, In c (di_chains d) -> threshold_serial m tl x base c) -> cyclic i j k -> cyclic i' j' k' ->
  integrates_to base (intensity_at M cpl) i j k N -> integrates_to base (intensity_at M cpl) i' j' k' N' -> N = N'.
Proof.
  intros H F Ph Ns Rg. destruct (serial_shapes m d s r tl x w dyn base cpl H Ph Ns Rg) as [O Ct].
  exact (c143_serial m d s r tl None x w dyn cl M base cpl i j k i' j' k' N N' H F (open_of_physical base Ph Ns) O Ct).
Qed.
