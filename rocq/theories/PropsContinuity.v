(** C113: the intensity depends continuously on the point in phase space, the parameters and the couplings. The
    vocabulary is in SpecContinuity.v: [F] is any filter, for instance the neighbourhoods of a point. *)
From Coq Require Import String ZArith List Bool Reals.
From Coquelicot Require Import Hierarchy Complex.
From Verif Require Import Prelude Decay Expr CExpr SpecKin SpecDPD Builder Dynamics SpecDynamics SpecFinite SpecContinuity
  ContinuityFacts ContinuityProofs RelabelExamples RelabelShapeExamples ObsExamples FiniteExamples.
Import ListNotations.
Local Open Scope Z_scope.

(** Any expression is continuous where it does not divide by zero and takes no root of a negative number. *)
Theorem C113_expressions {T} (F : (T -> Prop) -> Prop) {FF : Filter F} e (ev : T -> env) (ev0 : env) :
  (forall x, tends F (fun t => e_sym (ev t) x) (e_sym ev0 x)) ->
  (forall n i, tends F (fun t => e_idx (ev t) n i) (e_idx ev0 n i)) ->
  no_pole ev0 e -> no_cut ev0 (fun _ => 0) e ->
  tends F (fun t => ceval (ev t) (fun _ => 0) e) (ceval ev0 (fun _ => 0) e).
Proof. exact (fun S I => ceval_tends F e ev ev0 S I (fun _ => 0)). Qed.
Print Assumptions C113_expressions.

(** If symbols, couplings and the lineshapes of all chains converge, so does the intensity, at every point in phase space
    that is not on its boundary. *)
Theorem C113_continuous {T} (F : (T -> Prop) -> Prop) {FF : Filter F} b s dyn ref cl uc m
  (base : T -> symbol -> C) base0 (cpl : T -> string -> list ival -> C) cpl0 :
  std_decay (b_decay b) s -> dynamics_of b dyn ->
  (b_prod_helicity b = false -> plain_resonances (b_decay b)) -> formulate b ref cl uc = Ok m ->
  physical (fun x => Re (base0 x)) -> nonsingular (fun x => Re (base0 x)) ->
  (forall x, tends F (fun t => base t x) (base0 x)) ->
  (forall n i, tends F (fun t => cpl t n i) (cpl0 n i)) ->
  (forall c, In c (d_chains (b_decay b)) ->
     tends F (fun t => ceval (Env (base t) (cpl t)) (fun _ => 0) (de_expr (dyn c)))
       (ceval (Env base0 cpl0) (fun _ => 0) (de_expr (dyn c)))) ->
  tends F (fun t => full_value (at_point (m_variables m) (base t) (cpl t)) m)
    (full_value (at_point (m_variables m) base0 cpl0) m).
Proof. exact (fun D Dyn PR Fm Ph Ns LB LC => c113 F b s dyn ref cl uc m base base0 cpl cpl0 D Dyn PR Fm Ph Ns LB LC). Qed.
Print Assumptions C113_continuous.

(** Models with the Breit-Wigner lineshapes of the builder are continuous under the conditions of C96. *)
Theorem C113_breit_wigner {T} (F : (T -> Prop) -> Prop) {FF : Filter F} b s dyn ref cl uc m
  (base : T -> symbol -> C) base0 (cpl : T -> string -> list ival -> C) cpl0 :
  std_decay (b_decay b) s -> dynamics_of b dyn ->
  (b_prod_helicity b = false -> plain_resonances (b_decay b)) -> formulate b ref cl uc = Ok m ->
  physical (fun x => Re (base0 x)) -> nonsingular (fun x => Re (base0 x)) ->
  (forall x, tends F (fun t => base t x) (base0 x)) ->
  (forall n i, tends F (fun t => cpl t n i) (cpl0 n i)) ->
  regular_dynamics (b_decay b) dyn base0 -> decay_form_factors_regular (b_decay b) dyn base0 ->
  tends F (fun t => full_value (at_point (m_variables m) (base t) (cpl t)) m)
    (full_value (at_point (m_variables m) base0 cpl0) m).
Proof. exact (fun D Dyn PR Fm Ph Ns LB LC => c113_bw F b s dyn ref cl uc m base base0 cpl cpl0 D Dyn PR Fm Ph Ns LB LC). Qed.
Print Assumptions C113_breit_wigner.

(** A point that moves on the Dalitz plot, and any couplings that do not move *)
Example C113_example : std_decay (b_decay ob_b) id_st /\ dynamics_of ob_b rb_dyn /\ plain_resonances (b_decay ob_b) /\
  (exists m, formulate ob_b None false false = Ok m) /\
  physical (fun x => Re (fe_base x)) /\ nonsingular (fun x => Re (fe_base x)) /\
  (forall x, tends (locally 0%R) (fun t => rb_base (id_env (72 + t) (24 - t)) x) (fe_base x)) /\
  regular_dynamics (b_decay ob_b) rb_dyn fe_base /\ decay_form_factors_regular (b_decay ob_b) rb_dyn fe_base.
Proof.
  exact (conj ob_std (conj ob_dynamics (conj ob_plain (conj ob_formulate (conj (proj1 rb_physical) (conj (proj2 rb_physical)
    (conj moving_point (conj fe_regular fe_decay_ff)))))))).
Qed.
