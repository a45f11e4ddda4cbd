(** C141: the intensity is bounded on the Dalitz plot. The vocabulary is in SpecBounded.v (and SpecFinite.v). *)
From Coq Require Import String ZArith List Bool Reals.
From Coquelicot Require Import Complex.
From Verif Require Import Prelude Decay Expr CExpr SpecKin SpecDPD Builder SpecBuilder SpecFinite SpecBounded BoundedFacts BoundedProofs
  RelabelExamples RelabelShapeExamples ObsExamples.
Import ListNotations.
Local Open Scope R_scope.

(** At every point in phase space, the invariant mass of a pair lies between the sum of its masses and the mass difference of the decaying
    particle and the third particle. *)
Theorem C141_limits base s1 s2 s3 k : physical (fun x => Re (at_sigmas base s1 s2 s3 x)) -> In k [1; 2; 3]%Z ->
  lower_limit base k <= sigma_value s1 s2 s3 k <= upper_limit base k.
Proof. exact (sigma_limits base s1 s2 s3 k). Qed.
Print Assumptions C141_limits.

(** If each lineshape is a continuous function of the invariant mass of its own pair between these limits, the intensity has an upper bound
    on the Dalitz plot. *)
Theorem C141_bounded b s dyn ref cl uc m base cpl : std_decay (b_decay b) s -> dynamics_of b dyn ->
  (b_prod_helicity b = false -> plain_resonances (b_decay b)) -> formulate b ref cl uc = Ok m ->
  (forall c, In c (d_chains (b_decay b)) -> own_sigma_only base cpl (st_index (ch_spectator c)) (de_expr (dyn c))) ->
  (forall c, In c (d_chains (b_decay b)) -> continuous_on_range base cpl (st_index (ch_spectator c)) (de_expr (dyn c))) ->
  exists B, forall s1 s2 s3, on_dalitz_plot base s1 s2 s3 ->
    Re (full_value (at_point (m_variables m) (at_sigmas base s1 s2 s3) cpl) m) <= B.
Proof. exact (fun D Y P F => c141_general b s dyn ref cl uc m D Y P F base cpl). Qed.
Print Assumptions C141_bounded.

(** So it does with Breit-Wigners whose resonances lie between the thresholds of decay and production, with no dynamics in other chains. The
    denominator of a Breit-Wigner with energy-dependent width vanishes nowhere, and neither does it at the threshold, where the width is zero. *)
Theorem C141_breit_wigner b s dyn ref cl uc m base cpl : std_decay (b_decay b) s -> dynamics_of b dyn ->
  (b_prod_helicity b = false -> plain_resonances (b_decay b)) -> formulate b ref cl uc = Ok m ->
  physical (fun x => Re (base x)) -> nonsingular (fun x => Re (base x)) ->
  regular_dynamics (b_decay b) dyn base -> threshold_regular (b_decay b) dyn base ->
  exists B, forall s1 s2 s3, on_dalitz_plot base s1 s2 s3 ->
    Re (full_value (at_point (m_variables m) (at_sigmas base s1 s2 s3) cpl) m) <= B.
Proof. exact (c141_bw b s dyn ref cl uc m base cpl). Qed.
Print Assumptions C141_breit_wigner.
Example C141_example : std_decay (b_decay ob_b) id_st /\ dynamics_of ob_b rb_dyn /\ plain_resonances (b_decay ob_b) /\
  (exists m, formulate ob_b None false false = Ok m) /\
  physical (fun x => Re (bo_base x)) /\ nonsingular (fun x => Re (bo_base x)) /\
  regular_dynamics (b_decay ob_b) rb_dyn bo_base /\ threshold_regular (b_decay ob_b) rb_dyn bo_base /\
  on_dalitz_plot bo_base 13 13 13.
Proof.
  exact (conj ob_std (conj ob_dynamics (conj ob_plain (conj ob_formulate (conj (proj1 bo_physical) (conj (proj2 bo_physical)
    (conj bo_regular (conj bo_threshold bo_points)))))))).
Qed.
Print Assumptions C141_example.
