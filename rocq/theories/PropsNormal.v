(** C142: the intensity can be integrated over the Dalitz plot. The vocabulary is in SpecNormal.v (and SpecObs.v, SpecBounded.v). *)
From Coq Require Import String ZArith List Bool Reals.
From Coquelicot Require Import Complex.
From Verif Require Import Prelude Decay Expr CExpr SpecKin SpecDPD Builder SpecBuilder SpecFinite SpecSmooth SpecObs SpecBounded SpecNormal
  BoundedProofs NormalFacts NormalProofs NormalExamples RelabelExamples RelabelShapeExamples ObsExamples
  SerFormat SpecSerial SpecSerBounded SerExamples SerPointExamples SerFiniteExamples SerBoundedExamples.
From Verif Require SerAmplitude.
Import ListNotations.
Local Open Scope R_scope.

(** There is at most one projection on an invariant mass and one integral over the Dalitz plot. *)
Theorem C142_unique base I i j k : cyclic i j k -> open_phase_space base ->
  (forall P P' s, projects_to base I i j k P -> projects_to base I i j k P' -> lower_limit base k < s < upper_limit base k -> P s = P' s) /\
  (forall N N', integrates_to base I i j k N -> integrates_to base I i j k N' -> N = N').
Proof.
  exact (fun Cy Op => conj (fun P P' s H H' => projection_unique base I i j k P P' s Cy Op H H') (fun N N' => rate_unique base I i j k N N' Cy Op)).
Qed.
Print Assumptions C142_unique.

(** If each lineshape is a continuous function of the invariant mass of its own pair, the intensity has a projection on every invariant mass,
    and an integral over the Dalitz plot. It is positive if the intensity is positive anywhere inside the Dalitz plot. *)
Theorem C142_rate b s dyn ref cl uc m base cpl i j k : std_decay (b_decay b) s -> dynamics_of b dyn ->
  (b_prod_helicity b = false -> plain_resonances (b_decay b)) -> formulate b ref cl uc = Ok m ->
  cyclic i j k -> open_phase_space base ->
  (forall c, In c (d_chains (b_decay b)) -> own_sigma_only base cpl (st_index (ch_spectator c)) (de_expr (dyn c)) /\
    continuous_on_range base cpl (st_index (ch_spectator c)) (de_expr (dyn c))) ->
  exists N, integrates_to base (intensity_at m cpl) i j k N /\ 0 <= N /\
    ((exists s1 s2 s3, inside (fun x => Re (at_sigmas base s1 s2 s3 x)) /\ 0 < intensity_at m cpl (at_sigmas base s1 s2 s3)) -> 0 < N).
Proof. exact (c142 b s dyn ref cl uc m base cpl i j k). Qed.
Print Assumptions C142_rate.

(** So it does with the Breit-Wigners of C141_breit_wigner. *)
Theorem C142_breit_wigner b s dyn ref cl uc m base cpl i j k : std_decay (b_decay b) s -> dynamics_of b dyn ->
  (b_prod_helicity b = false -> plain_resonances (b_decay b)) -> formulate b ref cl uc = Ok m ->
  cyclic i j k -> physical (fun x => Re (base x)) -> nonsingular (fun x => Re (base x)) ->
  regular_dynamics (b_decay b) dyn base -> threshold_regular (b_decay b) dyn base ->
  exists N, integrates_to base (intensity_at m cpl) i j k N /\ 0 <= N /\
    ((exists s1 s2 s3, inside (fun x => Re (at_sigmas base s1 s2 s3 x)) /\ 0 < intensity_at m cpl (at_sigmas base s1 s2 s3)) -> 0 < N).
Proof. exact (c142_bw b s dyn ref cl uc m base cpl i j k). Qed.
Print Assumptions C142_breit_wigner.
Example C142_example : std_decay (b_decay ob_b) id_st /\ dynamics_of ob_b rb_dyn /\ plain_resonances (b_decay ob_b) /\
  (exists m, formulate ob_b None false false = Ok m) /\
  physical (fun x => Re (bo_base x)) /\ nonsingular (fun x => Re (bo_base x)) /\
  regular_dynamics (b_decay ob_b) rb_dyn bo_base /\ threshold_regular (b_decay ob_b) rb_dyn bo_base /\
  open_phase_space bo_base /\ inside (fun x => Re (at_sigmas bo_base 13 13 13 x)).
Proof.
  exact (conj ob_std (conj ob_dynamics (conj ob_plain (conj ob_formulate (conj (proj1 bo_physical) (conj (proj2 bo_physical)
    (conj bo_regular (conj bo_threshold (conj bo_open bo_inside))))))))).
Qed.
Print Assumptions C142_example.

(** The same holds for serialised models. *)
Theorem C142_serial m d s r tl additional x w dyn cl M base cpl i j k : helicity_definition m d s r tl additional x w dyn ->
  SerAmplitude.formulate m cl tl additional = Ok M -> cyclic i j k -> open_phase_space base ->
  (forall c, In c (di_chains d) -> own_sigma_only base cpl (ct_k (x c)) (de_expr (dyn c))) ->
  (forall c, In c (di_chains d) -> continuous_on_range base cpl (ct_k (x c)) (de_expr (dyn c))) ->
  exists N, integrates_to base (intensity_at M cpl) i j k N /\ 0 <= N /\
    ((exists s1 s2 s3, inside (fun x => Re (at_sigmas base s1 s2 s3 x)) /\ 0 < intensity_at M cpl (at_sigmas base s1 s2 s3)) -> 0 < N).
Proof. exact (c142_serial m d s r tl additional x w dyn cl M base cpl i j k). Qed.
Print Assumptions C142_serial.
Theorem C142_serial_lineshapes m d s r tl x w dyn cl M base cpl i j k : helicity_definition m d s r tl None x w dyn ->
  SerAmplitude.formulate m cl tl None = Ok M -> cyclic i j k ->
  physical (fun y => Re (base y)) -> nonsingular (fun y => Re (base y)) ->
  (forall c, In c (di_chains d) -> threshold_serial m tl x base c) ->
  exists N, integrates_to base (intensity_at M cpl) i j k N /\ 0 <= N /\
    ((exists s1 s2 s3, inside (fun x => Re (at_sigmas base s1 s2 s3 x)) /\ 0 < intensity_at M cpl (at_sigmas base s1 s2 s3)) -> 0 < N).
Proof. exact (c142_serial_lineshapes m d s r tl x w dyn cl M base cpl i j k). Qed.
Print Assumptions C142_serial_lineshapes.
Example C142_serial_example : helicity_definition px_model (sx_dist px_chains) sx_s 1 sx_tl None sx_x px_w px_dyn /\
  (exists M, SerAmplitude.formulate px_model true sx_tl None = Ok M) /\
  physical (fun y => Re (nx_base y)) /\ nonsingular (fun y => Re (nx_base y)) /\
  (forall c, In c (di_chains (sx_dist px_chains)) -> threshold_serial px_model sx_tl sx_x nx_base c).
Proof. exact (conj px_definition (conj (px_formulate true) (conj (proj1 nx_physical) (conj (proj2 nx_physical) nx_threshold)))). Qed.
Print Assumptions C142_serial_example.
