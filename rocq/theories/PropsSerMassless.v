(** C154: helicities of massless final states in model files *)
From Coq Require Import String ZArith List Bool Reals.
From Coquelicot Require Import Complex.
From Verif Require Import Prelude Spin Decay Expr Sums CExpr SpecSpin SpecKin SpecDPD SpecWigner Builder SerFormat SerDynamics SpecSerial SpecWeights SpecSerMassless
  SerExamples SerMassless SerMasslessExamples.
From Verif Require SerAmplitude.
Import ListNotations.
Local Open Scope Z_scope.

(** The intensity is a sum of non-negative parts, one for each helicity of the massless final state. If the weights of the chains that
    give other helicities to it are set to zero, the other parts are left. *)
Theorem C154_parts m d s r tl additional x w dyn :
  helicity_definition m d s r tl additional x w dyn -> forall cl M, SerAmplitude.formulate m cl tl additional = Ok M ->
  weights_only w dyn (di_chains d) -> forall base cpl n,
  physical (fun y => Re (base y)) -> nonsingular (fun y => Re (base y)) -> 1 <= n <= 3 -> mass_at (fun y => Re (base y)) n = 0%R ->
  exists I : Z -> R, (forall h, 0 <= I h)%R /\ forall base' keep Hs,
    weights_scaled w (di_chains d) (kept keep) base base' -> separated x (di_chains d) n keep Hs ->
    full_value (at_point (m_variables M) base' cpl) M
    = RtoC (Rsum (filter (fun h => if in_dec Z.eq_dec h Hs then true else false) (helicities (p_spin (s n)))) I).
Proof. exact (massless_parts m d s r tl additional x w dyn). Qed.
Print Assumptions C154_parts.

(** Chains that give different helicities to a massless final state do not interfere, in any subsystem. *)
Theorem C154_no_interference m d s r tl additional x w dyn :
  helicity_definition m d s r tl additional x w dyn -> forall cl M, SerAmplitude.formulate m cl tl additional = Ok M ->
  weights_only w dyn (di_chains d) -> forall base cpl n,
  physical (fun y => Re (base y)) -> nonsingular (fun y => Re (base y)) -> 1 <= n <= 3 -> mass_at (fun y => Re (base y)) n = 0%R ->
  forall base1 base2 keep,
  weights_scaled w (di_chains d) (kept keep) base base1 -> weights_scaled w (di_chains d) (kept (fun c => negb (keep c))) base base2 ->
  (forall c c' h, In c (di_chains d) -> In c' (di_chains d) -> keep c = true -> keep c' = false -> gives (x c) n h -> gives (x c') n h -> False) ->
  full_value (at_point (m_variables M) base cpl) M
  = (full_value (at_point (m_variables M) base1 cpl) M + full_value (at_point (m_variables M) base2 cpl) M)%C.
Proof. exact (massless_no_interference m d s r tl additional x w dyn). Qed.
Print Assumptions C154_no_interference.

(** A file for J/psi -> gamma pi eta in which one chain has photons of helicity 0 *)
Example C154_example : helicity_definition gx_model gx_dist gx_s 1 sx_tl None gx_x gx_w gx_dyn /\ weights_only gx_w gx_dyn gx_chains /\
  physical (fun y => Re (gx_base false y)) /\ nonsingular (fun y => Re (gx_base false y)) /\ mass_at (fun y => Re (gx_base false y)) 1 = 0%R /\
  weights_scaled gx_w gx_chains (kept gx_keep) (gx_base false) (gx_base true) /\ separated gx_x gx_chains 1 gx_keep [-2; 2] /\
  exists M, SerAmplitude.formulate gx_model true sx_tl None = Ok M /\ forall cpl, exists I : Z -> R,
    full_value (at_point (m_variables M) (gx_base false) cpl) M = RtoC (I (-2)%Z + I 0%Z + I 2%Z)%R /\
    full_value (at_point (m_variables M) (gx_base true) cpl) M = RtoC (I (-2)%Z + I 2%Z)%R.
Proof. exact gx_example. Qed.
