(** C135: helicities of massless final states need no alignment. *)
From Coq Require Import String ZArith List Bool Reals.
From Coquelicot Require Import Complex.
From Verif Require Import Prelude Spin Decay Expr Angles Sums CExpr SpecSpin SpecKin SpecDPD SpecWigner Builder SpecMassless MasslessFacts MasslessExamples.
Import ListNotations.
Local Open Scope R_scope.

(** All alignment angles of a massless final state are 0. *)
Theorem C135_angles (env : symbol -> R) (i j k : Z) x e : physical env -> nonsingular env ->
  (1 <= i <= 3)%Z -> (1 <= j <= 3)%Z -> (0 <= k <= 3)%Z -> mass_at env i = 0 ->
  formulate_zeta_angle i j k = Ok (x, e) -> reval env e = 0.
Proof. exact (c135_angles env i j k x e). Qed.
Print Assumptions C135_angles.

(** The intensity is a sum of non-negative parts, one for each helicity of the massless final state:
    a model without the amplitudes for some helicities has the parts of the others as intensity. *)
Theorem C135_helicities b s ref cl uc m base cpl n : std_decay (b_decay b) s -> formulate b ref cl uc = Ok m ->
  physical (fun x => Re (base x)) -> nonsingular (fun x => Re (base x)) -> (1 <= n <= 3)%Z -> mass_at (fun x => Re (base x)) n = 0 ->
  exists I : Z -> R, (forall h, 0 <= I h) /\
    forall H cpl', restricted s b m n H (at_point (m_variables m) base cpl) (at_point (m_variables m) base cpl') ->
      full_value (at_point (m_variables m) base cpl') m
      = RtoC (Rsum (filter (fun h => if in_dec Z.eq_dec h H then true else false) (helicities (p_spin (s n)))) I).
Proof. exact (fun D => c135_parts b s D ref cl uc m base cpl n). Qed.
Print Assumptions C135_helicities.

(** ... which is what setting the helicity couplings with other helicities to 0 gives. *)
Theorem C135_couplings b s dyn ref cl uc m ev ev' n H : std_decay (b_decay b) s -> dynamics_of b dyn ->
  b_prod_helicity b = true -> b_dec_helicity b = true -> formulate b ref cl uc = Ok m ->
  (forall x, e_sym ev' x = e_sym ev x) ->
  (forall c, In c (d_chains (b_decay b)) -> ceval ev' (fun _ => 0%Z) (de_expr (dyn c)) = ceval ev (fun _ => 0%Z) (de_expr (dyn c))) ->
  restricted_couplings s b n H ((if uc then coefficient else coupling_product) ev true true)
    ((if uc then coefficient else coupling_product) ev' true true) ->
  restricted s b m n H ev ev'.
Proof. exact (c135_couplings b s dyn ref cl uc m ev ev' n H). Qed.
Print Assumptions C135_couplings.

Example C135_example : exists m, formulate ga_b (Some 1%Z) false false = Ok m /\ std_decay (b_decay ga_b) ga_s /\ dynamics_of ga_b (fun _ => de_unit) /\
  physical (fun x => Re (ga_base x)) /\ nonsingular (fun x => Re (ga_base x)) /\ mass_at (fun x => Re (ga_base x)) 1 = 0 /\
  forall cpl, exists I : Z -> R,
    full_value (at_point (m_variables m) ga_base cpl) m = RtoC (I (-2)%Z + I 0%Z + I 2%Z) /\
    full_value (at_point (m_variables m) ga_base (ga_cpl cpl)) m = RtoC (I (-2)%Z + I 2%Z).
Proof. exact ga_example. Qed.
Print Assumptions C135_example.
