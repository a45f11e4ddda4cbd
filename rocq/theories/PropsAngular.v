(** C102-C104: angular distributions. Specification vocabulary: SpecAngular.v, SpecObs.v, SpecDPD.v *)
From Coq Require Import String ZArith QArith Qcanon List Bool Reals Permutation.
From Coquelicot Require Import Complex.
From Verif Require Import Prelude Spin Decay Expr CExpr Sums SpecKin SpecDPD Builder SpecBuilder SpecObs SpecAngular
  BuilderExamples RelabelExamples RelabelShapeExamples ChainExamples ObsExamples ObsProofs AngularExamples AngularFacts MirrorFacts.
Import ListNotations.
Local Open Scope string_scope.
Local Open Scope Z_scope.
Local Open Scope list_scope.

(** ** C102: with one subsystem the intensity is a polynomial in the cosine of the scattering angle, of degree at most
    twice the largest spin (spins are doubled in the model, so [N] is twice the largest spin) ... *)
Theorem C102_polynomial_angle b s dyn ref cl uc m i j k :
  std_decay (b_decay b) s -> dynamics_of b dyn -> (b_prod_helicity b = false -> plain_resonances (b_decay b)) ->
  formulate b ref cl uc = Ok m -> cyclic i j k -> one_subsystem (b_decay b) k ->
  forall N, (forall c, In c (d_chains (b_decay b)) -> p_spin (ch_resonance c) <= Z.of_nat N) ->
  forall ev, exists f, polynomial N f /\ forall th, full_value (turned ev i j th) m = RtoC (f (cos th)).
Proof. exact (c102_angle b s dyn ref cl uc m i j k). Qed.
Print Assumptions C102_polynomial_angle.

(** ... and so it is along a line of constant invariant mass through the Dalitz plot. *)
Theorem C102_polynomial_line b s dyn ref cl uc m i j k :
  std_decay (b_decay b) s -> dynamics_of b dyn -> (b_prod_helicity b = false -> plain_resonances (b_decay b)) ->
  formulate b ref cl uc = Ok m -> cyclic i j k -> one_subsystem (b_decay b) k ->
  (forall c, In c (d_chains (b_decay b)) ->
     ~ In (sigma_at i) (symbols_of (de_expr (dyn c))) /\ ~ In (sigma_at j) (symbols_of (de_expr (dyn c)))) ->
  forall base cpl lo hi, between_thresholds base i j k -> dalitz_range base i j k lo hi ->
  forall N, (forall c, In c (d_chains (b_decay b)) -> p_spin (ch_resonance c) <= Z.of_nat N) ->
  exists f, polynomial N f /\ forall x, (lo <= x <= hi)%R ->
    full_value (at_point (m_variables m) (dalitz_line base i j k x) cpl) m = RtoC (f x).
Proof. exact (c102_line b s dyn ref cl uc m i j k). Qed.
Print Assumptions C102_polynomial_line.

(** An S and a P wave with Breit-Wigner functions: polynomials of degree 2 *)
Example C102_example : std_decay (b_decay ob_b) id_st /\ dynamics_of ob_b rb_dyn /\ plain_resonances (b_decay ob_b) /\
  (exists m, formulate ob_b None false false = Ok m) /\ cyclic 2 3 1 /\ one_subsystem (b_decay ob_b) 1 /\
  (forall c, In c (d_chains (b_decay ob_b)) ->
     ~ In (sigma_at 2) (symbols_of (de_expr (rb_dyn c))) /\ ~ In (sigma_at 3) (symbols_of (de_expr (rb_dyn c)))) /\
  (forall c, In c (d_chains (b_decay ob_b)) -> p_spin (ch_resonance c) <= Z.of_nat 2) /\
  between_thresholds (rb_base (id_env 72 24)) 2 3 1 /\
  exists lo hi, (lo < hi)%R /\ dalitz_range (rb_base (id_env 72 24)) 2 3 1 lo hi.
Proof.
  exact (conj ob_std (conj ob_dynamics (conj ob_plain (conj ob_formulate (conj ob_cyclic (conj ob_one
    (conj ob_lines (conj ob_spin2 (conj ob_between ob_range))))))))).
Qed.

(** ** C103: if all resonances of a subsystem decay in even waves, or all in odd waves, then the amplitude at
    the opposite angle is, up to a sign, the one with the reversed helicities of the decay products ... *)
Theorem C103_amplitude b s dyn ref cl uc m i j k e :
  std_decay (b_decay b) s -> dynamics_of b dyn -> (b_prod_helicity b = false -> plain_resonances (b_decay b)) ->
  b_dec_helicity b = false -> formulate b ref cl uc = Ok m -> cyclic i j k ->
  (forall c, In c (d_chains (b_decay b)) -> st_index (ch_spectator c) = k -> decay_wave c e) ->
  forall ev th l, helicity_tuple s l ->
    amp_value (turned ev i j (PI - th)) m k (pair_reversed k l) =
    (RtoC (forward_backward_sign s e i j k l) * amp_value (turned ev i j th) m k l)%C.
Proof. exact (c103_amplitude b s dyn ref cl uc m i j k e). Qed.
Print Assumptions C103_amplitude.

(** ... so with one subsystem the intensity is the same forward and backward, *)
Theorem C103_symmetric b s dyn ref cl uc m i j k e :
  std_decay (b_decay b) s -> dynamics_of b dyn -> (b_prod_helicity b = false -> plain_resonances (b_decay b)) ->
  b_dec_helicity b = false -> formulate b ref cl uc = Ok m -> cyclic i j k ->
  (forall c, In c (d_chains (b_decay b)) -> st_index (ch_spectator c) = k -> decay_wave c e) ->
  one_subsystem (b_decay b) k ->
  forall ev th, full_value (turned ev i j (PI - th)) m = full_value (turned ev i j th) m.
Proof. exact (c103_symmetric b s dyn ref cl uc m i j k e). Qed.
Print Assumptions C103_symmetric.

(** along a line of constant invariant mass it is symmetric about the middle of the physical region, *)
Theorem C103_line b s dyn ref cl uc m i j k e base cpl lo hi :
  std_decay (b_decay b) s -> dynamics_of b dyn -> (b_prod_helicity b = false -> plain_resonances (b_decay b)) ->
  b_dec_helicity b = false -> formulate b ref cl uc = Ok m -> cyclic i j k -> one_subsystem (b_decay b) k ->
  (forall c, In c (d_chains (b_decay b)) -> decay_wave c e) ->
  (forall c, In c (d_chains (b_decay b)) ->
     ~ In (sigma_at i) (symbols_of (de_expr (dyn c))) /\ ~ In (sigma_at j) (symbols_of (de_expr (dyn c)))) ->
  between_thresholds base i j k -> dalitz_range base i j k lo hi ->
  forall x, (lo <= x <= hi)%R ->
    full_value (at_point (m_variables m) (dalitz_line base i j k (lo + hi - x)) cpl) m =
    full_value (at_point (m_variables m) (dalitz_line base i j k x) cpl) m.
Proof. exact (c103_line b s dyn ref cl uc m i j k e base cpl lo hi). Qed.
Print Assumptions C103_line.

(** and even and odd waves do not interfere in the sum of forward and backward. *)
Theorem C103_no_interference b b1 b2 s dyn uc ref cl m ref1 cl1 m1 ref2 cl2 m2 i j k :
  std_decay (b_decay b) s -> std_decay (b_decay b1) s -> std_decay (b_decay b2) s ->
  dynamics_of b dyn -> dynamics_of b1 dyn -> dynamics_of b2 dyn ->
  (b_prod_helicity b = false -> plain_resonances (b_decay b)) ->
  b_prod_helicity b1 = b_prod_helicity b -> b_prod_helicity b2 = b_prod_helicity b ->
  b_dec_helicity b = false -> b_dec_helicity b1 = false -> b_dec_helicity b2 = false ->
  formulate b ref cl uc = Ok m -> formulate b1 ref1 cl1 uc = Ok m1 -> formulate b2 ref2 cl2 uc = Ok m2 ->
  Permutation (d_chains (b_decay b)) (d_chains (b_decay b1) ++ d_chains (b_decay b2)) ->
  cyclic i j k -> one_subsystem (b_decay b) k -> one_subsystem (b_decay b1) k -> one_subsystem (b_decay b2) k ->
  (forall c, In c (d_chains (b_decay b1)) -> decay_wave c true) ->
  (forall c, In c (d_chains (b_decay b2)) -> decay_wave c false) ->
  forall ev th,
    (full_value (turned ev i j th) m + full_value (turned ev i j (PI - th)) m =
     (full_value (turned ev i j th) m1 + full_value (turned ev i j (PI - th)) m1)
     + (full_value (turned ev i j th) m2 + full_value (turned ev i j (PI - th)) m2))%C.
Proof. exact (c103_interference b b1 b2 s dyn uc ref cl m ref1 cl1 m1 ref2 cl2 m2 i j k). Qed.
Print Assumptions C103_no_interference.

(** The S and the P wave of C102_example, together and alone *)
Example C103_example : Permutation (d_chains (b_decay ob_b)) (d_chains (og_decay og_even) ++ d_chains (og_decay og_odd)) /\
  (forall c, In c [og_even; og_odd] -> std_decay (og_decay c) id_st /\ dynamics_of (og_b c) rb_dyn /\
     (exists m, formulate (og_b c) None false false = Ok m) /\ one_subsystem (og_decay c) 1) /\
  (forall c, In c (d_chains (og_decay og_even)) -> decay_wave c true) /\
  (forall c, In c (d_chains (og_decay og_odd)) -> decay_wave c false) /\
  (forall c, In c (d_chains (b_decay (og_b og_odd))) ->
     ~ In (sigma_at 2) (symbols_of (de_expr (rb_dyn c))) /\ ~ In (sigma_at 3) (symbols_of (de_expr (rb_dyn c)))).
Proof.
  exact (conj og_perm (conj (fun c H => conj (og_std c H) (conj (og_dynamics c H) (conj (og_formulate c H) (og_one c H))))
    (conj (proj1 og_waves) (conj (proj2 og_waves) og_lines)))).
Qed.

(** ** C104: an amplitude vanishes if no resonance of the subsystem has enough spin for the helicities, *)
Theorem C104_spin b s dyn ref cl uc m i j k :
  std_decay (b_decay b) s -> dynamics_of b dyn -> (b_prod_helicity b = false -> plain_resonances (b_decay b)) ->
  formulate b ref cl uc = Ok m -> cyclic i j k ->
  forall ev l, helicity_tuple s l ->
    (forall c, In c (d_chains (b_decay b)) -> st_index (ch_spectator c) = k ->
       p_spin (ch_resonance c) < Z.abs (at4 l 0 + at4 l k) \/ p_spin (ch_resonance c) < Z.abs (at4 l i - at4 l j)) ->
    amp_value ev m k l = RtoC 0.
Proof. exact (c104_spin b s dyn ref cl uc m i j k). Qed.
Print Assumptions C104_spin.

(** and in the forward and backward direction if the helicities do not conserve angular momentum along the axis, *)
Theorem C104_forward b s dyn ref cl uc m i j k :
  std_decay (b_decay b) s -> dynamics_of b dyn -> (b_prod_helicity b = false -> plain_resonances (b_decay b)) ->
  formulate b ref cl uc = Ok m -> cyclic i j k ->
  forall ev l, helicity_tuple s l -> Re (e_sym ev (theta_name i j)) = 0%R ->
    at4 l 0 + at4 l k <> at4 l i - at4 l j -> amp_value ev m k l = RtoC 0.
Proof. exact (c104_forward b s dyn ref cl uc m i j k). Qed.
Print Assumptions C104_forward.
Theorem C104_backward b s dyn ref cl uc m i j k :
  std_decay (b_decay b) s -> dynamics_of b dyn -> (b_prod_helicity b = false -> plain_resonances (b_decay b)) ->
  formulate b ref cl uc = Ok m -> cyclic i j k ->
  forall ev l, helicity_tuple s l -> Re (e_sym ev (theta_name i j)) = PI ->
    at4 l 0 + at4 l k <> at4 l j - at4 l i -> amp_value ev m k l = RtoC 0.
Proof. exact (c104_backward b s dyn ref cl uc m i j k). Qed.
Print Assumptions C104_backward.

(** that is, at the two ends of a line of constant invariant mass through the Dalitz plot. *)
Theorem C104_ends b s dyn ref cl uc m i j k :
  std_decay (b_decay b) s -> dynamics_of b dyn -> (b_prod_helicity b = false -> plain_resonances (b_decay b)) ->
  formulate b ref cl uc = Ok m -> cyclic i j k ->
  forall base cpl lo hi l, In k (get_subsystem_ids (b_decay b)) ->
    between_thresholds base i j k -> dalitz_range base i j k lo hi -> helicity_tuple s l ->
    (at4 l 0 + at4 l k <> at4 l i - at4 l j ->
       amp_value (at_point (m_variables m) (dalitz_line base i j k hi) cpl) m k l = RtoC 0) /\
    (at4 l 0 + at4 l k <> at4 l j - at4 l i ->
       amp_value (at_point (m_variables m) (dalitz_line base i j k lo) cpl) m k l = RtoC 0).
Proof. exact (c104_ends b s dyn ref cl uc m i j k). Qed.
Print Assumptions C104_ends.

(** A scalar in K pi and a Lambda in p K *)
Example C104_example : std_decay (b_decay sc_b) ex_st /\ dynamics_of sc_b (fun _ => de_unit) /\
  plain_resonances (b_decay sc_b) /\ (exists m, formulate sc_b None false false = Ok m) /\ helicity_tuple ex_st (1, 1, 0, 0) /\
  (forall c, In c (d_chains (b_decay sc_b)) -> st_index (ch_spectator c) = 1 ->
     p_spin (ch_resonance c) < Z.abs (at4 (1, 1, 0, 0) 0 + at4 (1, 1, 0, 0) 1) \/
     p_spin (ch_resonance c) < Z.abs (at4 (1, 1, 0, 0) 2 - at4 (1, 1, 0, 0) 3)) /\
  In 2 (get_subsystem_ids dl_decay) /\ cyclic 3 1 2 /\
  at4 (1, 1, 0, 0) 0 + at4 (1, 1, 0, 0) 2 <> at4 (1, 1, 0, 0) 3 - at4 (1, 1, 0, 0) 1.
Proof.
  exact (conj sc_std (conj sc_dynamics (conj sc_plain (conj sc_formulate (conj sc_tuple (conj sc_spin dl_selection)))))).
Qed.
