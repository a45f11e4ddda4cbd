(** Properties of models under a change of the labels of the final state. *)
From Coq Require Import String ZArith QArith Qcanon List Bool Reals Permutation.
From Coquelicot Require Import Complex.
From Verif Require Import Prelude Spin Decay Expr CExpr SpecKin SpecDPD Builder SpecBuilder Dynamics SpecDynamics SpecRelabel
  AnglesProofs RefRefuted BuilderExamples ChainExamples RelabelProofs RelabelExamples RelabelShapes RelabelShapeExamples.
Import ListNotations.
Local Open Scope string_scope.
Local Open Scope Z_scope.
Local Open Scope list_scope.

(** ** C86: new labels with the same cyclic order *)
Theorem C86_cyclic_relabelling b b' p s s' dyn dyn' uc ref cl m ref' cl' m' r base base' cpl :
  std_decay (b_decay b) s -> std_decay (b_decay b') s' -> dynamics_of b dyn -> dynamics_of b' dyn' ->
  (b_prod_helicity b = false -> plain_resonances (b_decay b)) ->
  b_prod_helicity b' = b_prod_helicity b -> b_dec_helicity b' = b_dec_helicity b ->
  formulate b ref cl uc = Ok m -> formulate b' ref' cl' uc = Ok m' ->
  resolve_reference (b_decay b) ref = Ok r -> resolve_reference (b_decay b') ref' = Ok (p r) ->
  relabelling p -> keeps_order p -> relabelled_decay p (b_decay b) s (b_decay b') s' -> relabelled_point p base base' ->
  (forall c, In c (d_chains (b_decay b)) ->
    ceval (Env base' cpl) (fun _ => 0) (de_expr (dyn' (relabel p c))) = ceval (Env base cpl) (fun _ => 0) (de_expr (dyn c))) ->
  (forall k l l', In k [1; 2; 3] -> helicity_tuple s l -> relabelled_helicities p l l' ->
     amp_value (at_point (m_variables m') base' cpl) m' (p k) l' = amp_value (at_point (m_variables m) base cpl) m k l) /\
  full_value (at_point (m_variables m') base' cpl) m' = full_value (at_point (m_variables m) base cpl) m.
Proof. exact (c86 b b' p s s' dyn dyn' uc ref cl m ref' cl' m' r base base' cpl). Qed.
Print Assumptions C86_cyclic_relabelling.
(** Lc -> p pi K and Lc -> K p pi *)
Example C86_example : std_decay dl_decay ex_st /\ std_decay rl_decay rl_st /\
  dynamics_of (dl_b dl_decay [] false) (fun _ => de_unit) /\ dynamics_of (dl_b rl_decay [] false) (fun _ => de_unit) /\
  plain_resonances dl_decay /\
  (exists m, formulate (dl_b dl_decay [] false) (Some 2) false false = Ok m) /\
  (exists m, formulate (dl_b rl_decay [] false) (Some 3) false false = Ok m) /\
  resolve_reference dl_decay (Some 2) = Ok 2 /\ resolve_reference rl_decay (Some 3) = Ok (rl_turn 2) /\
  relabelling rl_turn /\ keeps_order rl_turn /\ relabelled_decay rl_turn dl_decay ex_st rl_decay rl_st /\
  relabelled_point rl_turn rx_base (fun x => RtoC (rl_env x)) /\
  helicity_tuple ex_st (1, -1, 0, 0) /\ relabelled_helicities rl_turn (1, -1, 0, 0) (1, 0, -1, 0).
Proof.
  split; [apply dl_std|]. split; [exact rl_std|]. split; [apply be_dynamics; simpl; auto|]. split; [exact rl_dynamics|].
  split; [apply be_plain; simpl; auto|].
  split; [vm_compute; eexists; reflexivity|]. split; [vm_compute; eexists; reflexivity|].
  do 2 (split; [reflexivity|]). destruct rl_relabelled as (A & B & C). do 3 (split; [assumption|]).
  split; [exact rl_point|]. split; [repeat split; simpl; auto|].
  intros i [<-|[<-|[<-|[<-|[]]]]]; reflexivity.
Qed.

(** ** C87: two labels exchanged *)
Theorem C87_exchanged_labels b b' p s s' dyn dyn' uc ref cl m ref' cl' m' r base base' cpl cpl' e :
  std_decay (b_decay b) s -> std_decay (b_decay b') s' -> dynamics_of b dyn -> dynamics_of b' dyn' ->
  (b_prod_helicity b = false -> plain_resonances (b_decay b)) ->
  b_prod_helicity b' = b_prod_helicity b -> b_dec_helicity b' = b_dec_helicity b ->
  formulate b ref cl uc = Ok m -> formulate b' ref' cl' uc = Ok m' ->
  resolve_reference (b_decay b) ref = Ok r -> resolve_reference (b_decay b') ref' = Ok (p r) ->
  relabelling p -> exchanges p -> relabelled_decay p (b_decay b) s (b_decay b') s' -> relabelled_point p base base' ->
  physical (fun x => Re (base x)) -> nonsingular (fun x => Re (base x)) ->
  (forall c, In c (d_chains (b_decay b)) ->
    ceval (Env base' cpl') (fun _ => 0) (de_expr (dyn' (relabel p c))) = ceval (Env base cpl) (fun _ => 0) (de_expr (dyn c))) ->
  (e = 1 \/ e = -1)%R ->
  (forall c h l i j k, In c (d_chains (b_decay b)) -> ch_spectator c = s k -> cyclic i j k -> helicity_tuple s l ->
    (if uc then coefficient else coupling_product) (Env base' cpl') (b_prod_helicity b) (b_dec_helicity b)
      (relabel p c) h (at4 l k) (at4 l j) (at4 l i)
    = (RtoC (e * exchange_sign c) *
       (if uc then coefficient else coupling_product) (Env base cpl) (b_prod_helicity b) (b_dec_helicity b)
         c h (at4 l k) (at4 l i) (at4 l j))%C) ->
  (forall k l l', In k [1; 2; 3] -> helicity_tuple s l -> relabelled_helicities p l l' ->
     amp_value (at_point (m_variables m') base' cpl') m' (p k) l'
     = (RtoC (e * orientation_sign s l) * amp_value (at_point (m_variables m) base cpl) m k l)%C) /\
  full_value (at_point (m_variables m') base' cpl') m' = full_value (at_point (m_variables m) base cpl) m.
Proof. exact (c87 b b' p s s' dyn dyn' uc ref cl m ref' cl' m' r base base' cpl cpl' e). Qed.
Print Assumptions C87_exchanged_labels.
(** D -> pi pi K with K* and K0*: the coupling of the K* changes its sign *)
Example C87_example : std_decay id_two id_st /\ dynamics_of (dl_b id_two [] true) (fun _ => de_unit) /\
  (exists m, formulate (dl_b id_two [] true) (Some 3) false false = Ok m) /\
  resolve_reference id_two (Some 3) = Ok (id_swap 3) /\
  relabelling id_swap /\ exchanges id_swap /\ relabelled_decay id_swap id_two id_st id_two id_st /\
  relabelled_point id_swap (id_base 72 24) (id_base 24 72) /\
  physical (fun x => Re (id_base 72 24 x)) /\ nonsingular (fun x => Re (id_base 72 24 x)) /\
  forall c h l i j k, In c (d_chains id_two) -> ch_spectator c = id_st k -> cyclic i j k -> helicity_tuple id_st l ->
    coupling_product (Env (id_base 24 72) id_cpl') true true (relabel id_swap c) h (at4 l k) (at4 l j) (at4 l i)
    = (RtoC (1 * exchange_sign c) * coupling_product (Env (id_base 72 24) id_cpl) true true c h (at4 l k) (at4 l i) (at4 l j))%C.
Proof.
  split; [apply id_std|]. split; [apply id_dynamics|]. split; [vm_compute; eexists; reflexivity|]. split; [reflexivity|].
  destruct id_relabelled as (A & B & _ & C). do 3 (split; [assumption|]). split; [exact id_point|].
  split; [apply id_physical|]. split; [apply id_physical|]. exact id_signs.
Qed.

(** ** C88: identical particles; partial: one sign for all chains *)
Theorem C88_identical_particles_partial b p s dyn uc ref cl m r base base' cpl e :
  std_decay (b_decay b) s -> dynamics_of b dyn ->
  (b_prod_helicity b = false -> plain_resonances (b_decay b)) ->
  formulate b ref cl uc = Ok m -> resolve_reference (b_decay b) ref = Ok r -> p r = r ->
  relabelling p -> exchanges p -> relabelled_decay p (b_decay b) s (b_decay b) s -> relabelled_point p base base' ->
  physical (fun x => Re (base x)) -> nonsingular (fun x => Re (base x)) ->
  (forall c, In c (d_chains (b_decay b)) ->
    ceval (Env base' cpl) (fun _ => 0) (de_expr (dyn (relabel p c))) = ceval (Env base cpl) (fun _ => 0) (de_expr (dyn c))) ->
  (b_dec_helicity b = false \/ forall i, In i [1; 2; 3] -> p_spin (s i) = 0) ->
  (forall c, In c (d_chains (b_decay b)) -> exchange_sign c = e) ->
  (forall k l l', In k [1; 2; 3] -> helicity_tuple s l -> relabelled_helicities p l l' ->
     amp_value (at_point (m_variables m) base' cpl) m (p k) l'
     = (RtoC (e * orientation_sign s l) * amp_value (at_point (m_variables m) base cpl) m k l)%C) /\
  full_value (at_point (m_variables m) base' cpl) m = full_value (at_point (m_variables m) base cpl) m.
Proof. exact (c88 b p s dyn uc ref cl m r base base' cpl e). Qed.
Print Assumptions C88_identical_particles_partial.
(** D -> pi pi K with two resonances of spin 1 *)
Example C88_example : std_decay id_one id_st /\ dynamics_of (dl_b id_one [] false) (fun _ => de_unit) /\
  plain_resonances id_one /\ (exists m, formulate (dl_b id_one [] false) (Some 3) false false = Ok m) /\
  resolve_reference id_one (Some 3) = Ok 3 /\ id_swap 3 = 3 /\
  relabelling id_swap /\ exchanges id_swap /\ relabelled_decay id_swap id_one id_st id_one id_st /\
  relabelled_point id_swap (id_base 72 24) (id_base 24 72) /\
  physical (fun x => Re (id_base 72 24 x)) /\ nonsingular (fun x => Re (id_base 72 24 x)) /\
  (forall c, In c (d_chains id_one) -> exchange_sign c = (-1)%R) /\ length (d_chains id_one) = 4%nat.
Proof.
  split; [apply id_std|]. split; [apply id_dynamics|]. split; [exact id_plain|]. split; [vm_compute; eexists; reflexivity|].
  do 2 (split; [reflexivity|]).
  destruct id_relabelled as (A & B & C & _). do 3 (split; [assumption|]). split; [exact id_point|].
  split; [apply id_physical|]. split; [apply id_physical|]. split; [exact id_minus|reflexivity].
Qed.
(** ... and refuted for resonances of different spins *)
Theorem C88_identical_particles_refuted : exists b p s dyn m base base' cpl,
  std_decay (b_decay b) s /\ dynamics_of b dyn /\
  formulate b (Some 3) false false = Ok m /\ p 3 = 3 /\
  relabelling p /\ exchanges p /\ relabelled_decay p (b_decay b) s (b_decay b) s /\ relabelled_point p base base' /\
  physical (fun x => Re (base x)) /\ nonsingular (fun x => Re (base x)) /\
  (forall c, In c (d_chains (b_decay b)) -> de_expr (dyn c) = CNum 1) /\
  (forall i, In i [0; 1; 2; 3] -> p_spin (s i) = 0) /\
  full_value (at_point (m_variables m) base' cpl) m <> full_value (at_point (m_variables m) base cpl) m.
Proof. exact c88_refuted. Qed.
Print Assumptions C88_identical_particles_refuted.


(** ** C89: Breit-Wigner lineshapes with new labels *)
Theorem C89_relabelled_lineshape w p c p0 r a b k i j f base base' cpl cpl' h h' : relabelling p -> isobar_chain c p0 r a b k i j ->
  phsp_value (bw_phsp_factor w) f -> relabelled_values p base base' ->
  (bw_call w c = Err ValueError /\ bw_call w (relabel p c) = Err ValueError) \/
  exists e e', bw_call w c = Ok e /\ bw_call w (relabel p c) = Ok e' /\
    ceval (Env base' cpl') h' (de_expr e') = ceval (Env base cpl) h (de_expr e) /\
    (forall x q, dget (KSym x) (de_params e') = Some (real_val q) <->
       In (x, q) (bw_parameters w (relabel_state p p0) r (relabel_state p a) (relabel_state p b) (relabel_state p k))).
Proof. exact (c89 w p c p0 r a b k i j f base base' cpl cpl' h h'). Qed.
Print Assumptions C89_relabelled_lineshape.
Theorem C89_relabelled_breit_wigner_model b b' p s s' dyn dyn' uc ref cl m ref' cl' m' r base base' cpl :
  std_decay (b_decay b) s -> std_decay (b_decay b') s' -> dynamics_of b dyn -> dynamics_of b' dyn' ->
  two_body_resonances (b_decay b) -> same_lineshapes p (b_decay b) dyn dyn' ->
  b_prod_helicity b' = b_prod_helicity b -> b_dec_helicity b' = b_dec_helicity b ->
  formulate b ref cl uc = Ok m -> formulate b' ref' cl' uc = Ok m' ->
  resolve_reference (b_decay b) ref = Ok r -> resolve_reference (b_decay b') ref' = Ok (p r) ->
  relabelling p -> keeps_order p -> relabelled_decay p (b_decay b) s (b_decay b') s' -> relabelled_values p base base' ->
  full_value (at_point (m_variables m') base' cpl) m' = full_value (at_point (m_variables m) base cpl) m.
Proof. exact (c89_cyclic b b' p s s' dyn dyn' uc ref cl m ref' cl' m' r base base' cpl). Qed.
Print Assumptions C89_relabelled_breit_wigner_model.
Theorem C89_identical_particles_breit_wigner b p s dyn uc ref cl m r base base' cpl e :
  std_decay (b_decay b) s -> dynamics_of b dyn ->
  two_body_resonances (b_decay b) -> same_lineshapes p (b_decay b) dyn dyn ->
  formulate b ref cl uc = Ok m -> resolve_reference (b_decay b) ref = Ok r -> p r = r ->
  relabelling p -> exchanges p -> relabelled_decay p (b_decay b) s (b_decay b) s -> relabelled_values p base base' ->
  physical (fun x => Re (base x)) -> nonsingular (fun x => Re (base x)) ->
  (b_dec_helicity b = false \/ forall i, In i [1; 2; 3] -> p_spin (s i) = 0) ->
  (forall c, In c (d_chains (b_decay b)) -> exchange_sign c = e) ->
  full_value (at_point (m_variables m) base' cpl) m = full_value (at_point (m_variables m) base cpl) m.
Proof. exact (c89_identical b p s dyn uc ref cl m r base base' cpl e). Qed.
Print Assumptions C89_identical_particles_breit_wigner.
(** Lc -> p pi K and Lc -> K p pi; D -> pi pi K with two resonances of spin 1 *)
Example C89_example :
  (exists p0 r a b k i j, isobar_chain (dl_chain 1) p0 r a b k i j) /\ phsp_value (bw_phsp_factor rb_w) two_body_phsp /\
  bw_call rb_w (dl_chain 1) = Ok (rb_dyn (dl_chain 1)) /\
  relabelled_values rl_turn (rb_base ex_env) (rb_base rl_env) /\
  dynamics_of (dl_b dl_decay (rb_h dl_decay) false) rb_dyn /\ dynamics_of (dl_b rl_decay (rb_h rl_decay) false) rb_dyn /\
  two_body_resonances dl_decay /\ same_lineshapes rl_turn dl_decay rb_dyn rb_dyn /\
  (exists m, formulate (dl_b dl_decay (rb_h dl_decay) false) (Some 2) false false = Ok m) /\
  (exists m, formulate (dl_b rl_decay (rb_h rl_decay) false) (Some 3) false false = Ok m) /\
  dynamics_of (dl_b id_one (rb_h id_one) false) rb_dyn /\ two_body_resonances id_one /\
  same_lineshapes id_swap id_one rb_dyn rb_dyn /\
  (exists m, formulate (dl_b id_one (rb_h id_one) false) (Some 3) false false = Ok m) /\
  relabelled_values id_swap (rb_base (id_env 72 24)) (rb_base (id_env 24 72)) /\
  physical (fun x => Re (rb_base (id_env 72 24) x)) /\ nonsingular (fun x => Re (rb_base (id_env 72 24) x)).
Proof.
  split; [apply (rb_isobar dl_decay); cbn; auto|]. split; [exact rb_phsp|]. split; [apply (rb_call dl_decay); cbn; auto|].
  split; [apply rb_values|]. do 2 (split; [apply rb_dynamics; cbn; auto|]). split; [apply rb_two_body; cbn; auto|].
  split; [apply rb_same|]. do 2 (split; [vm_compute; eexists; reflexivity|]).
  split; [apply rb_dynamics; cbn; auto|]. split; [apply rb_two_body; cbn; auto|]. split; [apply rb_same|].
  split; [vm_compute; eexists; reflexivity|]. split; [apply rb_values|]. exact rb_physical.
Qed.
