(** Properties C114, C115: what the intensity does not depend on *)
From Coq Require Import String ZArith List Bool Reals Permutation.
From Coquelicot Require Import Complex.
From Verif Require Import Prelude Decay Expr CExpr Builder SpecDPD SpecBuilder Dynamics SpecDynamics SpecRename RenameProofs
  BuilderExamples AnglesProofs ChainExamples RefRefuted RelabelExamples RelabelShapeExamples RenameExamples.
Import ListNotations.
Local Open Scope string_scope.
Local Open Scope Z_scope.
Local Open Scope list_scope.

(** ** C114: a common phase of all chains and the complex conjugation of all chains do not change the intensity. *)
Theorem C114_phase_and_conjugation b s dyn ref cl uc m base base' cpl cpl' u cj :
  std_decay (b_decay b) s -> dynamics_of b dyn -> (b_prod_helicity b = false -> plain_resonances (b_decay b)) ->
  formulate b ref cl uc = Ok m -> same_point base base' -> Cmod u = 1%R ->
  same_strengths uc b s (fun p => p) dyn dyn base base' cpl cpl' u cj ->
  (forall k l, In k [1; 2; 3] -> helicity_tuple s l ->
    amp_value (at_point (m_variables m) base' cpl') m k l = common_phase u cj (amp_value (at_point (m_variables m) base cpl) m k l)) /\
  full_value (at_point (m_variables m) base' cpl') m = full_value (at_point (m_variables m) base cpl) m.
Proof. exact (c114 b s dyn ref cl uc m base base' cpl cpl' u cj). Qed.
Print Assumptions C114_phase_and_conjugation.
(** Without dynamics: all couplings replaced by their conjugates *)
Theorem C114_conjugate_couplings b s ref cl uc m base cpl :
  std_decay (b_decay b) s -> dynamics_of b (fun _ => DefExpr (CNum 1) []) -> (b_prod_helicity b = false -> plain_resonances (b_decay b)) ->
  formulate b ref cl uc = Ok m ->
  full_value (at_point (m_variables m) base (fun n ix => Cconj (cpl n ix))) m = full_value (at_point (m_variables m) base cpl) m.
Proof. exact (c114_conjugation b s ref cl uc m base cpl). Qed.
Print Assumptions C114_conjugate_couplings.
(** Breit-Wigners with constant widths: all couplings replaced by their conjugates and all widths by their opposites *)
Theorem C114_opposite_widths b s dyn ref cl uc m base base' cpl :
  std_decay (b_decay b) s -> two_body_resonances (b_decay b) -> dynamics_of b dyn -> constant_widths (b_decay b) dyn ->
  formulate b ref cl uc = Ok m -> opposite_widths (b_decay b) base base' ->
  full_value (at_point (m_variables m) base' (fun n ix => Cconj (cpl n ix))) m = full_value (at_point (m_variables m) base cpl) m.
Proof. exact (c114_widths b s dyn ref cl uc m base base' cpl). Qed.
Print Assumptions C114_opposite_widths.
(** Lc -> p pi K with two LS couplings of the L(1405), without dynamics and with a Breit-Wigner *)
Example C114_example : std_decay dl_decay ex_st /\ plain_resonances dl_decay /\ two_body_resonances dl_decay /\
  dynamics_of (dl_b dl_decay [] false) (fun _ => DefExpr (CNum 1) []) /\
  (exists m, formulate (dl_b dl_decay [] false) None false false = Ok m) /\
  dynamics_of (dl_b dl_decay cw_h false) cw_dyn /\ constant_widths dl_decay cw_dyn /\
  (exists m, formulate (dl_b dl_decay cw_h false) None false false = Ok m) /\
  opposite_widths dl_decay (rb_base ex_env) cw_base.
Proof.
  split; [apply dl_std|]. split; [apply be_plain; cbn; auto|]. split; [apply rb_two_body; cbn; auto|].
  split; [apply dl_dynamics; left; reflexivity|]. split; [vm_compute; eexists; reflexivity|]. split; [exact cw_dynamics|].
  split; [exact cw_constant|]. split; [exact cw_formulate|exact cw_opposite].
Qed.

(** ** C115: of the particles of a decay, only the spins matter for a model with given couplings and lineshapes. *)
Theorem C115_spins_only b b' g s s' dyn dyn' ref cl cl' uc m base base' cpl cpl' :
  std_decay (b_decay b) s -> std_decay (b_decay b') s' -> dynamics_of b dyn -> dynamics_of b' dyn' ->
  (b_prod_helicity b = false -> plain_resonances (b_decay b)) ->
  b_prod_helicity b' = b_prod_helicity b -> b_dec_helicity b' = b_dec_helicity b ->
  keeps_spins g -> replaced_decay g (b_decay b) s (b_decay b') s' ->
  ref = None \/ (exists r, ref = Some r /\ In r [1; 2; 3]) ->
  formulate b ref cl uc = Ok m -> same_point base base' ->
  same_strengths uc b s g dyn dyn' base base' cpl cpl' (RtoC 1) false ->
  exists m', formulate b' ref cl' uc = Ok m' /\
    (forall k l, In k [1; 2; 3] -> helicity_tuple s l ->
      amp_value (at_point (m_variables m') base' cpl') m' k l = amp_value (at_point (m_variables m) base cpl) m k l) /\
    full_value (at_point (m_variables m') base' cpl') m' = full_value (at_point (m_variables m) base cpl) m.
Proof. exact (c115 b b' g s s' dyn dyn' ref cl cl' uc m base base' cpl cpl'). Qed.
Print Assumptions C115_spins_only.
(** With Breit-Wigner lineshapes: the same values of all parameters and couplings, if the LaTeX of the initial state and of the
    resonances is the same. Names, parities, masses and widths enter by the defaults of the parameters only. *)
Theorem C115_same_labels b b' g s s' dyn dyn' ref cl cl' uc m base cpl :
  std_decay (b_decay b) s -> std_decay (b_decay b') s' -> dynamics_of b dyn -> dynamics_of b' dyn' ->
  two_body_resonances (b_decay b) -> same_settings g (b_decay b) dyn dyn' ->
  b_prod_helicity b' = b_prod_helicity b -> b_dec_helicity b' = b_dec_helicity b ->
  keeps_spins g -> keeps_labels g (b_decay b) s -> replaced_decay g (b_decay b) s (b_decay b') s' ->
  ref = None \/ (exists r, ref = Some r /\ In r [1; 2; 3]) ->
  formulate b ref cl uc = Ok m ->
  exists m', formulate b' ref cl' uc = Ok m' /\
    (forall k l, In k [1; 2; 3] -> helicity_tuple s l ->
      amp_value (at_point (m_variables m') base cpl) m' k l = amp_value (at_point (m_variables m) base cpl) m k l) /\
    full_value (at_point (m_variables m') base cpl) m' = full_value (at_point (m_variables m) base cpl) m.
Proof. exact (c115_labels b b' g s s' dyn dyn' ref cl cl' uc m base cpl). Qed.
Print Assumptions C115_same_labels.
(** The same decay with other names, parities, masses and widths, and the chains in the other order *)
Example C115_example : std_decay dl_decay ex_st /\ std_decay rn_decay rn_st /\
  dynamics_of (dl_b dl_decay (rb_h dl_decay) false) rb_dyn /\ dynamics_of (dl_b rn_decay (rb_h rn_decay) false) rb_dyn /\
  two_body_resonances dl_decay /\ same_settings rn_g dl_decay rb_dyn rb_dyn /\
  keeps_spins rn_g /\ keeps_labels rn_g dl_decay ex_st /\ replaced_decay rn_g dl_decay ex_st rn_decay rn_st /\
  exists m, formulate (dl_b dl_decay (rb_h dl_decay) false) None false false = Ok m.
Proof.
  split; [apply dl_std|]. split; [exact rn_std|]. split; [apply rb_dynamics; cbn; auto|]. split; [exact rn_dynamics|].
  split; [apply rb_two_body; cbn; auto|]. split; [exact rn_settings|]. split; [exact rn_spins|]. split; [exact rn_labels|].
  split; [exact rn_replaced|exact rn_formulate].
Qed.
