(** Properties of the options of the builder: all_subsystems, and any choice of LS and helicity couplings. *)
From Coq Require Import String ZArith QArith Qcanon List Bool Reals Permutation.
From Coquelicot Require Import Complex.
From Verif Require Import Prelude Spin Decay Expr CExpr Sums SpecDPD Builder SpecBuilder SpecLS SpecBasis SpecParity
  SpecOptions SpecBases SpecReversal OptionFacts BasesProofs ReversalProofs BuilderExamples ChainExamples OptionExamples.
Import ListNotations.
Local Open Scope string_scope.
Local Open Scope Z_scope.
Local Open Scope list_scope.

(** ** C119: all_subsystems only adds amplitudes and angles of subsystems without chains. *)
Theorem C119_same_success b b' s uc ref cl :
  std_decay (b_decay b) s -> only_all_subsystems b b' ->
  (exists m, formulate b ref cl uc = Ok m) <-> (exists m', formulate b' ref cl uc = Ok m').
Proof. exact (fun D O => both_succeed b b' s uc D O ref cl). Qed.
Print Assumptions C119_same_success.
Theorem C119_all_subsystems b b' s uc ref cl m m' :
  std_decay (b_decay b) s -> only_all_subsystems b b' ->
  formulate b ref cl uc = Ok m -> formulate b' ref cl uc = Ok m' ->
  m_decay m' = m_decay m /\ m_intensity m' = m_intensity m /\ m_params m' = m_params m /\
  m_masses m' = m_masses m /\ m_invariants m' = m_invariants m /\
  extended_by (empty_amplitude (b_decay b) s) (m_amplitudes m) (m_amplitudes m') /\
  extended_by (empty_angle (b_decay b)) (m_variables m) (m_variables m') /\
  forall ev, full_value ev m' = full_value ev m.
Proof. exact (fun D O => c119 b b' s uc D O ref cl m m'). Qed.
Print Assumptions C119_all_subsystems.
(** one chain in subsystem 2: subsystems 1 and 3 are added *)
Example C119_example : exists m m', std_decay dl_decay1 ex_st /\
  only_all_subsystems (op_b dl_decay1 false false false) (op_b dl_decay1 false false true) /\
  formulate (op_b dl_decay1 false false false) None false false = Ok m /\
  formulate (op_b dl_decay1 false false true) None false false = Ok m' /\
  length (m_amplitudes m) = 4%nat /\ length (m_amplitudes m') = 12%nat /\ empty_subsystem dl_decay1 1.
Proof.
  do 2 eexists. split; [apply dl_std|]. split; [split; reflexivity|].
  split; [vm_compute; reflexivity|]. split; [vm_compute; reflexivity|]. split; [reflexivity|]. split; [reflexivity|].
  split; [simpl; auto|]. intros c [<-|[]]. vm_compute. discriminate.
Qed.

(** ** C120: models in any bases are equivalent. *)
Theorem C120_any_basis b b' s dyn dyn' ref cl m ref' cl' m' r :
  std_decay (b_decay b) s -> std_decay (b_decay b') s -> dynamics_of b dyn -> dynamics_of b' dyn' ->
  (b_prod_helicity b = false -> plain_resonances (b_decay b)) ->
  b_prod_helicity b' = true -> b_dec_helicity b' = true -> b_all_subsystems b = b_all_subsystems b' ->
  formulate b ref cl false = Ok m -> formulate b' ref' cl' false = Ok m' ->
  resolve_reference (b_decay b) ref = Ok r -> resolve_reference (b_decay b') ref' = Ok r ->
  basis_expansion (b_prod_helicity b) (b_dec_helicity b) (b_decay b) (b_decay b') ->
  NoDup (map (fun c => p_latex (ch_resonance c)) (d_chains (b_decay b'))) ->
  (forall c p q, In c (d_chains (b_decay b')) -> In (with_choice p q c) (d_chains (b_decay b)) ->
     de_expr (dyn (with_choice p q c)) = de_expr (dyn' c)) ->
  (forall x, dget x (m_variables m) = dget x (m_variables m')) /\
  (forall cpl, exists cpl', forall base,
     full_value (Env base cpl) m = full_value (Env base cpl') m' /\
     forall k l, In k [1; 2; 3] -> helicity_tuple s l ->
       amp_value (Env base cpl) m k l = amp_value (Env base cpl') m' k l) /\
  (forall cpl', exists cpl, forall base,
     full_value (Env base cpl) m = full_value (Env base cpl') m' /\
     forall k l, In k [1; 2; 3] -> helicity_tuple s l ->
       amp_value (Env base cpl) m k l = amp_value (Env base cpl') m' k l).
Proof. exact (c120 b b' s dyn dyn' ref cl m ref' cl' m' r). Qed.
Print Assumptions C120_any_basis.
Theorem C120_two_bases b1 b2 b' s dyn1 dyn2 dyn' ref1 ref2 ref' cl1 cl2 cl' m1 m2 m' r :
  std_decay (b_decay b1) s -> std_decay (b_decay b2) s -> std_decay (b_decay b') s ->
  dynamics_of b1 dyn1 -> dynamics_of b2 dyn2 -> dynamics_of b' dyn' ->
  (b_prod_helicity b1 = false -> plain_resonances (b_decay b1)) ->
  (b_prod_helicity b2 = false -> plain_resonances (b_decay b2)) ->
  b_prod_helicity b' = true -> b_dec_helicity b' = true ->
  b_all_subsystems b1 = b_all_subsystems b' -> b_all_subsystems b2 = b_all_subsystems b' ->
  formulate b1 ref1 cl1 false = Ok m1 -> formulate b2 ref2 cl2 false = Ok m2 -> formulate b' ref' cl' false = Ok m' ->
  resolve_reference (b_decay b1) ref1 = Ok r -> resolve_reference (b_decay b2) ref2 = Ok r ->
  resolve_reference (b_decay b') ref' = Ok r ->
  basis_expansion (b_prod_helicity b1) (b_dec_helicity b1) (b_decay b1) (b_decay b') ->
  basis_expansion (b_prod_helicity b2) (b_dec_helicity b2) (b_decay b2) (b_decay b') ->
  NoDup (map (fun c => p_latex (ch_resonance c)) (d_chains (b_decay b'))) ->
  (forall c p q, In c (d_chains (b_decay b')) -> In (with_choice p q c) (d_chains (b_decay b1)) ->
     de_expr (dyn1 (with_choice p q c)) = de_expr (dyn' c)) ->
  (forall c p q, In c (d_chains (b_decay b')) -> In (with_choice p q c) (d_chains (b_decay b2)) ->
     de_expr (dyn2 (with_choice p q c)) = de_expr (dyn' c)) ->
  (forall x, dget x (m_variables m1) = dget x (m_variables m2)) /\
  (forall cpl1, exists cpl2, forall base,
     full_value (Env base cpl1) m1 = full_value (Env base cpl2) m2 /\
     forall k l, In k [1; 2; 3] -> helicity_tuple s l ->
       amp_value (Env base cpl1) m1 k l = amp_value (Env base cpl2) m2 k l).
Proof. exact (c120_two b1 b2 b' s dyn1 dyn2 dyn' ref1 ref2 ref' cl1 cl2 cl' m1 m2 m' r). Qed.
Print Assumptions C120_two_bases.
(** Lc -> L(1405) pi, L(1405) -> K p: LS couplings for the production and helicity couplings for the decay, only LS
    couplings, and only helicity couplings *)
Example C120_example : std_decay op_mixed ex_st /\ std_decay be_decay ex_st /\ std_decay dl_decay1 ex_st /\
  dynamics_of (op_b op_mixed false true false) (fun _ => de_unit) /\
  dynamics_of (op_b be_decay false false false) (fun _ => de_unit) /\
  dynamics_of (op_b dl_decay1 true true false) (fun _ => de_unit) /\
  plain_resonances op_mixed /\ plain_resonances be_decay /\
  (exists m, formulate (op_b op_mixed false true false) (Some 2) false false = Ok m) /\
  (exists m, formulate (op_b be_decay false false false) (Some 2) false false = Ok m) /\
  (exists m, formulate (op_b dl_decay1 true true false) (Some 2) false false = Ok m) /\
  resolve_reference op_mixed (Some 2) = Ok 2 /\ resolve_reference be_decay (Some 2) = Ok 2 /\
  resolve_reference dl_decay1 (Some 2) = Ok 2 /\
  basis_expansion false true op_mixed dl_decay1 /\ basis_expansion false false be_decay dl_decay1 /\
  length (d_chains op_mixed) = 2%nat /\ length (d_chains be_decay) = 4%nat /\
  NoDup (map (fun c => p_latex (ch_resonance c)) (d_chains dl_decay1)).
Proof.
  split; [apply op_std; simpl; auto|]. split; [apply be_std|]. split; [apply dl_std|].
  do 3 (split; [apply op_dynamics; simpl; auto|]).
  split; [exact op_plain|]. split; [apply be_plain; simpl; auto|].
  do 3 (split; [vm_compute; eexists; reflexivity|]). do 3 (split; [reflexivity|]).
  split; [apply op_expansion|]. split; [apply op_expansion|]. do 2 (split; [reflexivity|]).
  repeat constructor. intros [].
Qed.

(** ** C121: reversing all helicities in a parity-conserving model, in any bases *)
Theorem C121_parity_any_basis b s dyn ref cl uc m p :
  std_decay (b_decay b) s -> dynamics_of b dyn -> (b_prod_helicity b = false -> plain_resonances (b_decay b)) ->
  formulate b ref cl uc = Ok m ->
  (forall c, In c (d_chains (b_decay b)) -> parity_chain (b_prod_helicity b) (b_dec_helicity b) c) -> intrinsic_parity s p ->
  forall ev, parity_couplings (b_prod_helicity b) (b_dec_helicity b) s (b_decay b)
      ((if uc then coefficient else coupling_product) ev (b_prod_helicity b) (b_dec_helicity b)) ->
  forall l, helicity_tuple s l ->
    (forall k, In k [1; 2; 3] -> amp_value ev m k (reversed l) = (RtoC (reversal_sign s p l) * amp_value ev m k l)%C) /\
    (forall ks zeta, (forall k, In k ks -> In k [1; 2; 3]) ->
       aligned_amplitude s ks (amp_value ev m) zeta (reversed l)
       = (RtoC (reversal_sign s p l) * aligned_amplitude s ks (amp_value ev m) zeta l)%C /\
       Cmod (aligned_amplitude s ks (amp_value ev m) zeta (reversed l))
       = Cmod (aligned_amplitude s ks (amp_value ev m) zeta l)).
Proof. exact (c121 b s dyn ref cl uc m p). Qed.
Print Assumptions C121_parity_any_basis.
(** helicity couplings of a resonance with spin 1/2 and negative parity, which are odd in the helicities *)
Example C121_example : std_decay op_negative ex_st /\ dynamics_of (op_b op_negative true true false) (fun _ => de_unit) /\
  (exists m, formulate (op_b op_negative true true false) None false false = Ok m) /\
  (forall c, In c (d_chains op_negative) -> parity_chain true true c) /\ intrinsic_parity ex_st 1 /\
  parity_couplings true true ex_st op_negative (coupling_product op_env true true) /\
  helicity_tuple ex_st (1, -1, 0, 0) /\ coupling_product op_env true true op_chain 1 0 0 1 = RtoC 1.
Proof.
  split; [apply op_std; simpl; auto|]. split; [apply op_dynamics; simpl; auto|]. split; [vm_compute; eexists; reflexivity|].
  split; [apply op_parity|]. split; [apply op_parity|]. split; [apply op_couplings|].
  split; [repeat split; simpl; auto|]. unfold coupling_product, op_env. cbn. apply injective_projections; cbn; ring.
Qed.
