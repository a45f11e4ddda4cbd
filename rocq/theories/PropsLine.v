(** C136: angular momentum along the line of the momenta at the boundary of the Dalitz plot. *)
From Coq Require Import String ZArith List Bool Reals.
From Coquelicot Require Import Complex.
From Verif Require Import Prelude Spin Decay Expr Angles Sums CExpr SpecSpin SpecKin SpecDPD SpecWigner Builder SpecBuilder BuilderExamples
  SpecLine LineFacts LineProofs LineBoundary LineExamples.
Import ListNotations.
Local Open Scope R_scope.

(** The aligned amplitudes of given helicities exist, with angles that are variables of the model,
    and the intensity is the sum of their squares. *)
Theorem C136_defined b s r cl uc m : std_decay (b_decay b) s -> formulate b (Some r) cl uc = Ok m -> forall l, exists e defs,
  formulate_aligned_amplitude b (fun n => HVal (at4 l n)) (Some r) = Ok (e, defs) /\
  forall x z, dget x defs = Some z -> dget x (m_variables m) = Some z.
Proof. exact (c136_defined b s r cl uc m). Qed.
Print Assumptions C136_defined.
Theorem C136_sum b s r cl uc m : std_decay (b_decay b) s -> formulate b (Some r) cl uc = Ok m -> forall ev,
  full_value ev m = RtoC (Rsum (tuples s) (fun l => Cmod (aligned_value b r m ev l) ^ 2)).
Proof. exact (c136_sum b s r cl uc m). Qed.
Print Assumptions C136_sum.

(** Where one scattering angle is 0 or pi, the momenta are on a line. *)
Theorem C136_boundary env i j k x e : physical env -> nonsingular env -> cyclic i j k -> formulate_scattering_angle i j = Ok (x, e) ->
  (reval env e = 0 \/ reval env e = PI) -> exists p1 p2 p3 u a, on_line env p1 p2 p3 u a.
Proof. exact (c136_boundary env i j k x e). Qed.
Print Assumptions C136_boundary.

(** There the aligned amplitude vanishes unless the spin projections on the line add up. *)
Theorem C136_conserved b s dyn r cl uc m base cpl p1 p2 p3 u a l : std_decay (b_decay b) s -> dynamics_of b dyn ->
  (b_prod_helicity b = false -> plain_resonances (b_decay b)) -> formulate b (Some r) cl uc = Ok m ->
  on_line (fun x => Re (base x)) p1 p2 p3 u a -> nonsingular (fun x => Re (base x)) -> helicity_tuple s l ->
  parent_projection a r l <> final_projection a (fun n => vE (pick n p1 p2 p3)) r l ->
  aligned_value b r m (at_point (m_variables m) base cpl) l = RtoC 0.
Proof. exact (fun D Y P F L NS => line_conserved b s dyn r cl uc m D Y P F base cpl p1 p2 p3 u a L NS l). Qed.
Print Assumptions C136_conserved.

(** So only these helicities contribute to the intensity. *)
Theorem C136_intensity b s dyn r cl uc m base cpl p1 p2 p3 u a : std_decay (b_decay b) s -> dynamics_of b dyn ->
  (b_prod_helicity b = false -> plain_resonances (b_decay b)) -> formulate b (Some r) cl uc = Ok m ->
  on_line (fun x => Re (base x)) p1 p2 p3 u a -> nonsingular (fun x => Re (base x)) ->
  full_value (at_point (m_variables m) base cpl) m
  = RtoC (Rsum (filter (fun l => Z.eqb (parent_projection a r l) (final_projection a (fun n => vE (pick n p1 p2 p3)) r l)) (tuples s))
      (fun l => Cmod (aligned_value b r m (at_point (m_variables m) base cpl) l) ^ 2)).
Proof. exact (c136_intensity b s dyn r cl uc m base cpl p1 p2 p3 u a). Qed.
Print Assumptions C136_intensity.

Example C136_example : std_decay (b_decay ex_b) ex_st /\ dynamics_of ex_b ex_dyn /\ plain_resonances (b_decay ex_b) /\
  on_line (fun x => Re (bl_base x)) bl_p1 bl_p2 bl_p3 (V3 0 0 1) bl_a /\ nonsingular (fun x => Re (bl_base x)) /\
  (exists m, formulate ex_b (Some 2%Z) false false = Ok m) /\
  forall m, formulate ex_b (Some 2%Z) false false = Ok m -> forall cpl,
    full_value (at_point (m_variables m) bl_base cpl) m
    = RtoC (Cmod (aligned_value ex_b 2 m (at_point (m_variables m) bl_base cpl) (-1, 1, 0, 0)%Z) ^ 2
            + Cmod (aligned_value ex_b 2 m (at_point (m_variables m) bl_base cpl) (1, -1, 0, 0)%Z) ^ 2).
Proof.
  exact (conj ex_std (conj (ex_dynamics (MinBool false) (or_introl eq_refl)) (conj ex_plain (conj bl_line (conj bl_nonsingular (conj bl_formulate bl_sum)))))).
Qed.
Print Assumptions C136_example.
