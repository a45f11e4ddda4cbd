(** C92-C94: observables of a model. The vocabulary is in SpecObs.v. *)
From Coq Require Import String ZArith List Bool Reals.
From Coquelicot Require Import Complex Hierarchy RInt.
From Verif Require Import Prelude Decay Expr CExpr Sums SpecKin SpecDPD Builder SpecDynamics SpecObs
  ObsProofs ObsShapes BuilderExamples RelabelExamples RelabelShapeExamples ObsExamples.
Import ListNotations.
Local Open Scope Z_scope.

(** ** C92: with one subsystem the alignment has no effect on the intensity *)
Theorem C92_one_subsystem b s ref cl uc m k : std_decay (b_decay b) s -> formulate b ref cl uc = Ok m ->
  one_subsystem (b_decay b) k ->
  forall ev, full_value ev m = RtoC (Rsum (tuples s) (fun l => Cmod (amp_value ev m k l) ^ 2)%R).
Proof. exact (c92 b s ref cl uc m k). Qed.
Print Assumptions C92_one_subsystem.
Example C92_example : std_decay (b_decay ob_b) id_st /\ (exists m, formulate ob_b None false false = Ok m) /\
  one_subsystem (b_decay ob_b) 1.
Proof. exact (conj ob_std (conj ob_formulate ob_one)). Qed.

(** ** C93: spinless external particles give Legendre polynomials *)
Theorem C93_spinless b s dyn ref cl uc m : std_decay (b_decay b) s -> dynamics_of b dyn ->
  (b_prod_helicity b = false -> plain_resonances (b_decay b)) -> formulate b ref cl uc = Ok m ->
  spinless s ->
  (forall c, In c (d_chains (b_decay b)) -> exists n, p_spin (ch_resonance c) = 2 * Z.of_nat n) ->
  forall ev, full_value ev m = RtoC (Cmod (Csum (d_chains (b_decay b)) (fun c =>
    ceval ev (fun _ => 0) (de_expr (dyn c))
    * RtoC (legendre (Z.to_nat (p_spin (ch_resonance c) / 2)) (cos (Re (e_sym ev (chain_angle c)))))
    * (if uc then coefficient else coupling_product) ev (b_prod_helicity b) (b_dec_helicity b) c 0 0 0 0
    * RtoC (prod_factor (b_prod_helicity b) c 0 0 * dec_factor (b_dec_helicity b) c (fun _ => 0)))%C) ^ 2).
Proof. exact (c93 b s dyn ref cl uc m). Qed.
Print Assumptions C93_spinless.
Example C93_example : std_decay (b_decay ob_b) id_st /\ dynamics_of ob_b rb_dyn /\ plain_resonances (b_decay ob_b) /\
  (exists m, formulate ob_b None false false = Ok m) /\ spinless id_st /\
  (forall c, In c (d_chains (b_decay ob_b)) -> exists n, p_spin (ch_resonance c) = 2 * Z.of_nat n).
Proof. exact (conj ob_std (conj ob_dynamics (conj ob_plain (conj ob_formulate (conj ob_spinless ob_integer))))). Qed.

(** ** C94: the projection of one subsystem onto its invariant mass is a sum over spins, without interference *)
Theorem C94_projection b s dyn ref cl uc m i j k base cpl lo hi :
  std_decay (b_decay b) s -> dynamics_of b dyn -> (b_prod_helicity b = false -> plain_resonances (b_decay b)) ->
  formulate b ref cl uc = Ok m -> one_subsystem (b_decay b) k -> cyclic i j k ->
  (forall c, In c (d_chains (b_decay b)) ->
     ~ In (sigma_at i) (symbols_of (de_expr (dyn c))) /\ ~ In (sigma_at j) (symbols_of (de_expr (dyn c)))) ->
  between_thresholds base i j k -> dalitz_range base i j k lo hi ->
  is_RInt (fun x => Re (full_value (at_point (m_variables m) (dalitz_line base i j k x) cpl) m)) lo hi
    ((hi - lo) * Rsum (tuples s) (fun l => Rsum (resonance_spins (b_decay b)) (fun J =>
       / IZR (J + 1) * Cmod (partial_wave (b_prod_helicity b) (b_dec_helicity b) (d_chains (b_decay b))
         (fun c r => (if uc then coefficient else coupling_product) (Env base cpl) (b_prod_helicity b)
                       (b_dec_helicity b) c r (at4 l k) (at4 l i) (at4 l j))
         (fun c => ceval (Env base cpl) (fun _ => 0%Z) (de_expr (dyn c))) (at4 l) i j k J) ^ 2)))%R.
Proof. exact (c94 b s dyn ref cl uc m i j k base cpl lo hi). Qed.
Print Assumptions C94_projection.

(** ... there is such a range on every line between the thresholds *)
Theorem C94_range base i j k : cyclic i j k -> between_thresholds base i j k ->
  exists lo hi, (lo < hi)%R /\ dalitz_range base i j k lo hi.
Proof. exact (c94_range base i j k). Qed.
Print Assumptions C94_range.

(** ... with lineshapes of the Breit-Wigner builder; resonances of pairwise different spins do not interfere *)
Theorem C94_breit_wigner b s dyn ref cl uc m i j k base cpl lo hi :
  std_decay (b_decay b) s -> dynamics_of b dyn -> two_body_resonances (b_decay b) -> breit_wigner_dynamics (b_decay b) dyn ->
  formulate b ref cl uc = Ok m -> one_subsystem (b_decay b) k -> cyclic i j k ->
  NoDup (map (fun c => p_spin (ch_resonance c)) (d_chains (b_decay b))) ->
  between_thresholds base i j k -> dalitz_range base i j k lo hi ->
  is_RInt (fun x => Re (full_value (at_point (m_variables m) (dalitz_line base i j k x) cpl) m)) lo hi
    ((hi - lo) * Rsum (tuples s) (fun l => Rsum (d_chains (b_decay b)) (fun c =>
       / IZR (p_spin (ch_resonance c) + 1)
       * Cmod (partial_wave (b_prod_helicity b) (b_dec_helicity b) [c]
           (fun c r => (if uc then coefficient else coupling_product) (Env base cpl) (b_prod_helicity b)
                         (b_dec_helicity b) c r (at4 l k) (at4 l i) (at4 l j))
           (fun c => ceval (Env base cpl) (fun _ => 0%Z) (de_expr (dyn c))) (at4 l) i j k (p_spin (ch_resonance c))) ^ 2)))%R.
Proof. exact (c94_bw b s dyn ref cl uc m i j k base cpl lo hi). Qed.
Print Assumptions C94_breit_wigner.
Example C94_example : std_decay (b_decay ob_b) id_st /\ dynamics_of ob_b rb_dyn /\ two_body_resonances (b_decay ob_b) /\
  breit_wigner_dynamics (b_decay ob_b) rb_dyn /\ (exists m, formulate ob_b None false false = Ok m) /\
  one_subsystem (b_decay ob_b) 1 /\ NoDup (map (fun c => p_spin (ch_resonance c)) (d_chains (b_decay ob_b))) /\
  between_thresholds (rb_base (id_env 72 24)) 2 3 1.
Proof.
  exact (conj ob_std (conj ob_dynamics (conj ob_two_body (conj ob_bw (conj ob_formulate (conj ob_one
    (conj ob_spins ob_between))))))).
Qed.
