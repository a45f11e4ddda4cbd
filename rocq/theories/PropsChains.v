(** Properties of whole models: chains can be switched off, LS couplings and helicity couplings are equivalent, and
    parity conservation. *)
From Coq Require Import String ZArith QArith Qcanon List Bool Reals Permutation.
From Coquelicot Require Import Complex.
From Verif Require Import Prelude Spin Decay Expr CExpr Sums SpecDPD Builder SpecBuilder SpecLS SpecBasis SpecParity
  BuilderExamples ChainProofs BasisProofs ParityProofs ChainExamples.
Import ListNotations.
Local Open Scope string_scope.
Local Open Scope Z_scope.
Local Open Scope list_scope.

(** ** C83: amplitudes are additive over the chains, and chains whose couplings are zero do not contribute. *)
Theorem C83_additive b b1 b2 s dyn uc ref cl m ref1 cl1 m1 ref2 cl2 m2 :
  std_decay (b_decay b) s -> std_decay (b_decay b1) s -> std_decay (b_decay b2) s ->
  dynamics_of b dyn -> dynamics_of b1 dyn -> dynamics_of b2 dyn ->
  (b_prod_helicity b = false -> plain_resonances (b_decay b)) ->
  b_prod_helicity b1 = b_prod_helicity b -> b_dec_helicity b1 = b_dec_helicity b ->
  b_prod_helicity b2 = b_prod_helicity b -> b_dec_helicity b2 = b_dec_helicity b ->
  formulate b ref cl uc = Ok m -> formulate b1 ref1 cl1 uc = Ok m1 -> formulate b2 ref2 cl2 uc = Ok m2 ->
  Permutation (d_chains (b_decay b)) (d_chains (b_decay b1) ++ d_chains (b_decay b2)) ->
  forall ev k l, In k [1; 2; 3] -> helicity_tuple s l ->
    amp_value ev m k l = (amp_value ev m1 k l + amp_value ev m2 k l)%C.
Proof. exact (c83_additive b b1 b2 s dyn uc ref cl m ref1 cl1 m1 ref2 cl2 m2). Qed.
Print Assumptions C83_additive.

Theorem C83_switched_off b1 b2 s dyn uc ref1 cl1 m1 ref2 cl2 m2 r rest :
  std_decay (b_decay b1) s -> std_decay (b_decay b2) s -> dynamics_of b1 dyn -> dynamics_of b2 dyn ->
  (b_prod_helicity b1 = false -> plain_resonances (b_decay b1)) ->
  b_prod_helicity b2 = b_prod_helicity b1 -> b_dec_helicity b2 = b_dec_helicity b1 ->
  b_all_subsystems b2 = b_all_subsystems b1 ->
  formulate b1 ref1 cl1 uc = Ok m1 -> formulate b2 ref2 cl2 uc = Ok m2 ->
  resolve_reference (b_decay b1) ref1 = Ok r -> resolve_reference (b_decay b2) ref2 = Ok r ->
  Permutation (d_chains (b_decay b1)) (d_chains (b_decay b2) ++ rest) ->
  (forall x e, dget x (m_variables m2) = Some e -> dget x (m_variables m1) = Some e) /\
  forall ev, (forall c h lk li lj, In c rest ->
      (if uc then coefficient else coupling_product) ev (b_prod_helicity b1) (b_dec_helicity b1) c h lk li lj = RtoC 0) ->
    (forall k l, In k [1; 2; 3] -> helicity_tuple s l -> amp_value ev m1 k l = amp_value ev m2 k l) /\
    full_value ev m1 = full_value ev m2.
Proof. exact (c83_off b1 b2 s dyn uc ref1 cl1 m1 ref2 cl2 m2 r rest). Qed.
Print Assumptions C83_switched_off.
(** two LS couplings of one resonance: one of them is switched off *)
Example C83_example : std_decay dl_decay ex_st /\ std_decay dl_decay1 ex_st /\ std_decay dl_decay2 ex_st /\
  dynamics_of (dl_b dl_decay [] false) (fun _ => de_unit) /\ dynamics_of (dl_b dl_decay1 [] false) (fun _ => de_unit) /\
  dynamics_of (dl_b dl_decay2 [] false) (fun _ => de_unit) /\ plain_resonances dl_decay /\
  (exists m, formulate (dl_b dl_decay [] false) (Some 2) false false = Ok m) /\
  (exists m, formulate (dl_b dl_decay1 [] false) (Some 2) false false = Ok m) /\
  (exists m, formulate (dl_b dl_decay2 [] false) (Some 2) false false = Ok m) /\
  resolve_reference dl_decay (Some 2) = Ok 2 /\ resolve_reference dl_decay1 (Some 2) = Ok 2 /\
  d_chains dl_decay = d_chains dl_decay1 ++ d_chains dl_decay2 /\
  exists ev, (forall c h lk li lj, In c (d_chains dl_decay2) -> coupling_product ev false false c h lk li lj = RtoC 0) /\
    (forall c h lk li lj, In c (d_chains dl_decay1) -> coupling_product ev false false c h lk li lj <> RtoC 0).
Proof.
  split; [apply dl_std|]. split; [apply dl_std|]. split; [apply be_std|].
  split; [apply be_dynamics; simpl; auto|]. split; [apply be_dynamics; simpl; auto|]. split; [apply be_dynamics; simpl; auto|].
  split; [apply be_plain; simpl; auto|].
  split; [vm_compute; eexists; reflexivity|]. split; [vm_compute; eexists; reflexivity|].
  split; [vm_compute; eexists; reflexivity|].
  do 3 (split; [reflexivity|]).
  exists (Env (fun _ => RtoC 0) (fun _ ix => match ix with [_; IHel 2; _] => RtoC 0 | _ => RtoC 1 end)).
  split; intros c h lk li lj [<-|[]]; unfold coupling_product; cbn.
  - apply Cmult_0_l.
  - rewrite Cmult_1_l. intros E. injection E as E. exact (R1_neq_R0 E).
Qed.

(** ** C84: LS couplings and helicity couplings give the same models. *)
Theorem C84_basis_equivalence b b' s dyn dyn' ref cl m ref' cl' m' r :
  std_decay (b_decay b) s -> std_decay (b_decay b') s -> dynamics_of b dyn -> dynamics_of b' dyn' ->
  plain_resonances (b_decay b) ->
  b_prod_helicity b = false -> b_dec_helicity b = false -> b_prod_helicity b' = true -> b_dec_helicity b' = true ->
  b_all_subsystems b = b_all_subsystems b' ->
  formulate b ref cl false = Ok m -> formulate b' ref' cl' false = Ok m' ->
  resolve_reference (b_decay b) ref = Ok r -> resolve_reference (b_decay b') ref' = Ok r ->
  ls_expansion (b_decay b) (b_decay b') ->
  NoDup (map (fun c => p_latex (ch_resonance c)) (d_chains (b_decay b'))) ->
  (forall c p q, In c (d_chains (b_decay b')) -> In (with_ls p q c) (d_chains (b_decay b)) ->
     de_expr (dyn (with_ls p q c)) = de_expr (dyn' c)) ->
  (forall x, dget x (m_variables m) = dget x (m_variables m')) /\
  (forall cpl, exists cpl', forall base,
     full_value (Env base cpl) m = full_value (Env base cpl') m' /\
     forall k l, In k [1; 2; 3] -> helicity_tuple s l ->
       amp_value (Env base cpl) m k l = amp_value (Env base cpl') m' k l) /\
  (forall cpl', exists cpl, forall base,
     full_value (Env base cpl) m = full_value (Env base cpl') m' /\
     forall k l, In k [1; 2; 3] -> helicity_tuple s l ->
       amp_value (Env base cpl) m k l = amp_value (Env base cpl') m' k l).
Proof. exact (c84 b b' s dyn dyn' ref cl m ref' cl' m' r). Qed.
Print Assumptions C84_basis_equivalence.
(** Lc -> L(1405) pi, L(1405) -> K p: four chains with LS couplings and one chain with helicity couplings *)
Example C84_example : std_decay be_decay ex_st /\ std_decay dl_decay1 ex_st /\
  dynamics_of (dl_b be_decay [] false) (fun _ => de_unit) /\ dynamics_of (dl_b dl_decay1 [] true) (fun _ => de_unit) /\
  plain_resonances be_decay /\
  (exists m, formulate (dl_b be_decay [] false) (Some 2) false false = Ok m) /\
  (exists m, formulate (dl_b dl_decay1 [] true) (Some 2) false false = Ok m) /\
  resolve_reference be_decay (Some 2) = Ok 2 /\ resolve_reference dl_decay1 (Some 2) = Ok 2 /\
  ls_expansion be_decay dl_decay1 /\ length (d_chains be_decay) = 4%nat /\
  NoDup (map (fun c => p_latex (ch_resonance c)) (d_chains dl_decay1)).
Proof.
  split; [apply be_std|]. split; [apply dl_std|].
  split; [apply be_dynamics; simpl; auto|]. split; [apply be_dynamics; simpl; auto|]. split; [apply be_plain; simpl; auto|].
  split; [vm_compute; eexists; reflexivity|]. split; [vm_compute; eexists; reflexivity|].
  do 2 (split; [reflexivity|]). split; [exact be_expansion|]. split; [reflexivity|].
  repeat constructor. intros [].
Qed.

(** ** C85: reversing all helicities in a parity-conserving model *)
Theorem C85_parity_conservation b s dyn ref cl uc m p :
  std_decay (b_decay b) s -> dynamics_of b dyn -> plain_resonances (b_decay b) ->
  b_prod_helicity b = false -> b_dec_helicity b = false -> formulate b ref cl uc = Ok m ->
  (forall c, In c (d_chains (b_decay b)) -> parity_conserving_chain c) -> intrinsic_parity s p ->
  forall ev l, helicity_tuple s l ->
    (forall k, In k [1; 2; 3] -> amp_value ev m k (reversed l) = (RtoC (reversal_sign s p l) * amp_value ev m k l)%C) /\
    (forall ks zeta, (forall k, In k ks -> In k [1; 2; 3]) ->
       aligned_amplitude s ks (amp_value ev m) zeta (reversed l)
       = (RtoC (reversal_sign s p l) * aligned_amplitude s ks (amp_value ev m) zeta l)%C /\
       Cmod (aligned_amplitude s ks (amp_value ev m) zeta (reversed l))
       = Cmod (aligned_amplitude s ks (amp_value ev m) zeta l)).
Proof. exact (c85 b s dyn ref cl uc m p). Qed.
Print Assumptions C85_parity_conservation.
Example C85_example : std_decay dl_decay1 ex_st /\ dynamics_of (dl_b dl_decay1 [] false) (fun _ => de_unit) /\
  plain_resonances dl_decay1 /\ (exists m, formulate (dl_b dl_decay1 [] false) None false false = Ok m) /\
  (forall c, In c (d_chains dl_decay1) -> parity_conserving_chain c) /\ intrinsic_parity ex_st 1 /\
  helicity_tuple ex_st (1, -1, 0, 0).
Proof.
  split; [apply dl_std|]. split; [apply be_dynamics; simpl; auto|]. split; [apply be_plain; simpl; auto|].
  split; [vm_compute; eexists; reflexivity|]. split; [apply dl_parity|]. split; [apply dl_parity|].
  repeat split; simpl; auto.
Qed.
