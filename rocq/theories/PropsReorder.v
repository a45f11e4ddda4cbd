(** Properties of models under a change of the order of the decay products. *)
From Coq Require Import String ZArith QArith Qcanon List Bool Reals Permutation.
From Coquelicot Require Import Complex.
From Verif Require Import Prelude Spin Decay Expr CExpr SpecKin SpecDPD Builder SpecBuilder Dynamics SpecDynamics SpecRelabel SpecReorder
  AnglesProofs RefRefuted BuilderExamples ChainExamples RelabelExamples RelabelShapeExamples ReorderProofs ReorderShapes ReorderExamples.
Import ListNotations.
Local Open Scope string_scope.
Local Open Scope Z_scope.
Local Open Scope list_scope.

(** ** C108: the order of the decay products *)
Theorem C108_lineshape w pr de c p0 r a b k i j f ev h : isobar_chain c p0 r a b k i j ->
  phsp_value (bw_phsp_factor w) f -> symmetric_phsp f ->
  (bw_call w c = Err ValueError /\ bw_call w (reorder pr de c) = Err ValueError) \/
  exists e e', bw_call w c = Ok e /\ bw_call w (reorder pr de c) = Ok e' /\ ceval ev h (de_expr e') = ceval ev h (de_expr e).
Proof. exact (c108_shape w pr de c p0 r a b k i j f ev h). Qed.
Print Assumptions C108_lineshape.
Theorem C108_order_of_products b b' s dyn dyn' pr de uc ref cl m ref' cl' m' r ev ev' e :
  std_decay (b_decay b) s -> std_decay (b_decay b') s -> dynamics_of b dyn -> dynamics_of b' dyn' ->
  (b_prod_helicity b = false -> plain_resonances (b_decay b)) ->
  b_prod_helicity b' = b_prod_helicity b -> b_dec_helicity b' = b_dec_helicity b ->
  formulate b ref cl uc = Ok m -> formulate b' ref' cl' uc = Ok m' ->
  resolve_reference (b_decay b) ref = Ok r -> resolve_reference (b_decay b') ref' = Ok r ->
  Permutation (d_chains (b_decay b')) (map (reorder pr de) (d_chains (b_decay b))) ->
  (forall x, e_sym ev' x = e_sym ev x) ->
  (forall c, In c (d_chains (b_decay b)) ->
    ceval ev' (fun _ => 0) (de_expr (dyn' (reorder pr de c))) = ceval ev (fun _ => 0) (de_expr (dyn c))) ->
  (e = 1 \/ e = -1)%R ->
  (forall c h l i j k, In c (d_chains (b_decay b)) -> ch_spectator c = s k -> cyclic i j k -> helicity_tuple s l ->
    (if uc then coefficient else coupling_product) ev' (b_prod_helicity b) (b_dec_helicity b) c h (at4 l k) (at4 l i) (at4 l j)
    = (RtoC (e * order_sign (b_prod_helicity b) (b_dec_helicity b) pr de c) *
       (if uc then coefficient else coupling_product) ev (b_prod_helicity b) (b_dec_helicity b) c h (at4 l k) (at4 l i) (at4 l j))%C) ->
  (forall k l, In k [1; 2; 3] -> helicity_tuple s l -> amp_value ev' m' k l = (RtoC e * amp_value ev m k l)%C) /\
  full_value ev' m' = full_value ev m.
Proof. exact (c108 b b' s dyn dyn' pr de uc ref cl m ref' cl' m' r ev ev' e). Qed.
Print Assumptions C108_order_of_products.
Theorem C108_helicity_basis b b' s dyn dyn' pr de uc ref cl m ref' cl' m' r ev :
  std_decay (b_decay b) s -> std_decay (b_decay b') s -> dynamics_of b dyn -> dynamics_of b' dyn' ->
  b_prod_helicity b = true -> b_dec_helicity b = true -> b_prod_helicity b' = true -> b_dec_helicity b' = true ->
  formulate b ref cl uc = Ok m -> formulate b' ref' cl' uc = Ok m' ->
  resolve_reference (b_decay b) ref = Ok r -> resolve_reference (b_decay b') ref' = Ok r ->
  Permutation (d_chains (b_decay b')) (map (reorder pr de) (d_chains (b_decay b))) ->
  (forall c, In c (d_chains (b_decay b)) ->
    ceval ev (fun _ => 0) (de_expr (dyn' (reorder pr de c))) = ceval ev (fun _ => 0) (de_expr (dyn c))) ->
  (forall k l, In k [1; 2; 3] -> helicity_tuple s l -> amp_value ev m' k l = amp_value ev m k l) /\
  full_value ev m' = full_value ev m.
Proof. exact (c108_helicity b b' s dyn dyn' pr de uc ref cl m ref' cl' m' r ev). Qed.
Print Assumptions C108_helicity_basis.
(** Lc -> p pi K with both nodes in the opposite order: in the LS basis the coupling with L = 1 changes its sign *)
Example C108_example : std_decay dl_decay ex_st /\ std_decay ro_decay ex_st /\
  (forall hel, dynamics_of (dl_b dl_decay [] hel) (fun _ => de_unit) /\ dynamics_of (dl_b ro_decay [] hel) (fun _ => de_unit)) /\
  plain_resonances dl_decay /\
  (forall hel, exists m, formulate (dl_b dl_decay [] hel) (Some 2) false false = Ok m) /\
  (forall hel, exists m, formulate (dl_b ro_decay [] hel) (Some 2) false false = Ok m) /\
  resolve_reference dl_decay (Some 2) = Ok 2 /\ resolve_reference ro_decay (Some 2) = Ok 2 /\
  Permutation (d_chains ro_decay) (map (reorder ro_all ro_all) (d_chains dl_decay)) /\ d_chains ro_decay <> d_chains dl_decay /\
  (forall c h lk li lj base, In c (d_chains dl_decay) ->
    coupling_product (Env base ro_cpl') false false c h lk li lj
    = (RtoC (1 * order_sign false false ro_all ro_all c) * coupling_product (Env base id_cpl) false false c h lk li lj)%C) /\
  map (order_sign false false ro_all ro_all) (d_chains dl_decay) = [1 * 1; -1 * 1]%R.
Proof.
  split; [apply dl_std|]. split; [exact ro_std|].
  split; [intros hel; split; [apply be_dynamics; simpl; auto|apply ro_dynamics]|].
  split; [apply be_plain; simpl; auto|]. do 2 (split; [intros []; vm_compute; eexists; reflexivity|]).
  do 2 (split; [reflexivity|]). split; [apply Permutation_refl|]. split; [discriminate|].
  split; [intros c h lk li lj base H; exact (ro_signs c h lk li lj base H)|reflexivity].
Qed.

(** ** C109: exchanged labels and identical particles, up to the order of the decay products *)
Theorem C109_exchanged_labels b b' p s s' dyn dyn' uc ref cl m ref' cl' m' r base base' cpl cpl' pr de e :
  std_decay (b_decay b) s -> std_decay (b_decay b') s' -> dynamics_of b dyn -> dynamics_of b' dyn' ->
  (b_prod_helicity b = false -> plain_resonances (b_decay b)) ->
  b_prod_helicity b' = b_prod_helicity b -> b_dec_helicity b' = b_dec_helicity b ->
  formulate b ref cl uc = Ok m -> formulate b' ref' cl' uc = Ok m' ->
  resolve_reference (b_decay b) ref = Ok r -> resolve_reference (b_decay b') ref' = Ok (p r) ->
  relabelling p -> exchanges p -> relabelled_up_to_order p pr de (b_decay b) s (b_decay b') s' -> relabelled_point p base base' ->
  physical (fun x => Re (base x)) -> nonsingular (fun x => Re (base x)) ->
  (forall c, In c (d_chains (b_decay b)) ->
    ceval (Env base' cpl') (fun _ => 0) (de_expr (dyn' (relabel p (reorder pr de c))))
    = ceval (Env base cpl) (fun _ => 0) (de_expr (dyn c))) ->
  (e = 1 \/ e = -1)%R ->
  (forall c h l i j k, In c (d_chains (b_decay b)) -> ch_spectator c = s k -> cyclic i j k -> helicity_tuple s l ->
    (if uc then coefficient else coupling_product) (Env base' cpl') (b_prod_helicity b) (b_dec_helicity b)
      (relabel p (reorder pr de c)) h (at4 l k) (at4 l j) (at4 l i)
    = (RtoC (e * exchange_sign c * order_sign (b_prod_helicity b) (b_dec_helicity b) pr de c) *
       (if uc then coefficient else coupling_product) (Env base cpl) (b_prod_helicity b) (b_dec_helicity b)
         c h (at4 l k) (at4 l i) (at4 l j))%C) ->
  (forall k l l', In k [1; 2; 3] -> helicity_tuple s l -> relabelled_helicities p l l' ->
     amp_value (at_point (m_variables m') base' cpl') m' (p k) l'
     = (RtoC (e * orientation_sign s l) * amp_value (at_point (m_variables m) base cpl) m k l)%C) /\
  full_value (at_point (m_variables m') base' cpl') m' = full_value (at_point (m_variables m) base cpl) m.
Proof. exact (c109 b b' p s s' dyn dyn' uc ref cl m ref' cl' m' r base base' cpl cpl' pr de e). Qed.
Print Assumptions C109_exchanged_labels.
Theorem C109_identical_particles b p s dyn uc ref cl m r base base' cpl pr de e :
  std_decay (b_decay b) s -> dynamics_of b dyn ->
  (b_prod_helicity b = false -> plain_resonances (b_decay b)) ->
  formulate b ref cl uc = Ok m -> resolve_reference (b_decay b) ref = Ok r -> p r = r ->
  relabelling p -> exchanges p -> relabelled_up_to_order p pr de (b_decay b) s (b_decay b) s -> relabelled_point p base base' ->
  physical (fun x => Re (base x)) -> nonsingular (fun x => Re (base x)) ->
  (forall c, In c (d_chains (b_decay b)) ->
    ceval (Env base' cpl) (fun _ => 0) (de_expr (dyn (relabel p (reorder pr de c))))
    = ceval (Env base cpl) (fun _ => 0) (de_expr (dyn c))) ->
  (b_dec_helicity b = false \/ forall i, In i [1; 2; 3] -> p_spin (s i) = 0) ->
  (forall c, In c (d_chains (b_decay b)) ->
    (exchange_sign c * order_sign (b_prod_helicity b) (b_dec_helicity b) pr de c = e)%R) ->
  (forall k l l', In k [1; 2; 3] -> helicity_tuple s l -> relabelled_helicities p l l' ->
     amp_value (at_point (m_variables m) base' cpl) m (p k) l'
     = (RtoC (e * orientation_sign s l) * amp_value (at_point (m_variables m) base cpl) m k l)%C) /\
  full_value (at_point (m_variables m) base' cpl) m = full_value (at_point (m_variables m) base cpl) m.
Proof. exact (c109_identical b p s dyn uc ref cl m r base base' cpl pr de e). Qed.
Print Assumptions C109_identical_particles.
Theorem C109_breit_wigner b p s dyn uc ref cl m r base base' cpl pr de e :
  std_decay (b_decay b) s -> dynamics_of b dyn ->
  two_body_resonances (b_decay b) -> same_lineshapes_up_to_order p pr de (b_decay b) dyn dyn ->
  formulate b ref cl uc = Ok m -> resolve_reference (b_decay b) ref = Ok r -> p r = r ->
  relabelling p -> exchanges p -> relabelled_up_to_order p pr de (b_decay b) s (b_decay b) s -> relabelled_values p base base' ->
  physical (fun x => Re (base x)) -> nonsingular (fun x => Re (base x)) ->
  (b_dec_helicity b = false \/ forall i, In i [1; 2; 3] -> p_spin (s i) = 0) ->
  (forall c, In c (d_chains (b_decay b)) ->
    (exchange_sign c * order_sign (b_prod_helicity b) (b_dec_helicity b) pr de c = e)%R) ->
  full_value (at_point (m_variables m) base' cpl) m = full_value (at_point (m_variables m) base cpl) m.
Proof. exact (c109_breit_wigner b p s dyn uc ref cl m r base base' cpl pr de e). Qed.
Print Assumptions C109_breit_wigner.
(** D -> pi pi K with a K2* in both pi K subsystems and an f0 that decays into the two pions *)
Example C109_example : std_decay rf_decay id_st /\ dynamics_of (dl_b rf_decay [] false) (fun _ => de_unit) /\
  dynamics_of (dl_b rf_decay (rb_h rf_decay) false) rb_dyn /\
  plain_resonances rf_decay /\ two_body_resonances rf_decay /\
  same_lineshapes_up_to_order id_swap ro_none rf_swap rf_decay rb_dyn rb_dyn /\
  (exists m, formulate (dl_b rf_decay [] false) (Some 3) false false = Ok m) /\
  (exists m, formulate (dl_b rf_decay (rb_h rf_decay) false) (Some 3) false false = Ok m) /\
  resolve_reference rf_decay (Some 3) = Ok 3 /\ id_swap 3 = 3 /\
  relabelling id_swap /\ exchanges id_swap /\
  relabelled_up_to_order id_swap ro_none rf_swap rf_decay id_st rf_decay id_st /\
  ~ relabelled_decay id_swap rf_decay id_st rf_decay id_st /\
  relabelled_values id_swap (rb_base (id_env 72 24)) (rb_base (id_env 24 72)) /\
  physical (fun x => Re (rb_base (id_env 72 24) x)) /\ nonsingular (fun x => Re (rb_base (id_env 72 24) x)) /\
  forall c, In c (d_chains rf_decay) -> (exchange_sign c * order_sign false false ro_none rf_swap c = 1)%R.
Proof.
  split; [exact rf_std|]. split; [exact rf_dynamics|]. split; [exact rf_bw_dynamics|]. split; [exact rf_plain|].
  split; [exact rf_two_body|]. split; [exact rf_same|].
  do 2 (split; [vm_compute; eexists; reflexivity|]). do 2 (split; [reflexivity|]).
  destruct id_relabelled as (A & B & _). do 2 (split; [assumption|]). split; [exact rf_relabelled|]. split; [exact rf_not_closed|].
  split; [apply rb_values|]. destruct rb_physical as [X Y]. split; [exact X|]. split; [exact Y|exact rf_sign].
Qed.
