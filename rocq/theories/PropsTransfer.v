(** C147: projections, rates and fit fractions do not depend on conventions. The vocabulary is in SpecTransfer.v (and SpecNormal.v, SpecUnits.v,
    SpecRelabel.v, SpecSerPoints.v, SpecSerRelabel.v). *)
From Coq Require Import String ZArith List Bool Reals Permutation.
From Coquelicot Require Import Complex.
From Verif Require Import Prelude Spin Decay Expr CExpr SpecKin SpecDPD Builder SpecBuilder Dynamics SpecDynamics SpecTurn SpecUnits SpecRelabel
  SpecObs SpecBounded SpecNormal SpecTransfer TransferModels BoundedProofs NormalExamples AnglesProofs RefRefuted BuilderExamples ChainExamples
  RelabelShapes ObsExamples UnitExamples.
From Verif Require Import SerFormat SpecSerial SpecWeights SpecSerPoints SpecSerRelabel SerExamples SerPointExamples SerFiniteExamples SerRelabelExamples SerWeightExamples
  RelabelExamples RelabelShapeExamples TransferExamples.
From Verif Require SerAmplitude SerSymbols.
Import ListNotations.
Local Open Scope R_scope.

(** ** Unit of mass: with the Breit-Wigners of C98, projections and rates have the same dimension as those of a constant intensity if the widths
    depend on the energy, and mass^-4 times that otherwise. *)
Theorem C147_units b s dyn ref cl uc m t base base' ed cpl i j k : std_decay (b_decay b) s -> dynamics_of b dyn ->
  (b_prod_helicity b = false -> plain_resonances (b_decay b)) -> Builder.formulate b ref cl uc = Ok m ->
  0 < t -> in_units (b_decay b) t base base' -> uniform_dynamics (b_decay b) dyn ed -> cyclic i j k -> open_phase_space base ->
  same_rates t (if ed then 1 else / t ^ 4) base (intensity_at m cpl) i j k base' (intensity_at m cpl) i j k.
Proof. exact (c147_units b s dyn ref cl uc m t base base' ed cpl i j k). Qed.
Print Assumptions C147_units.
Example C147_units_example ed : std_decay (b_decay (ux_b ed)) id_st /\ dynamics_of (ux_b ed) (ux_dyn ed) /\ plain_resonances (b_decay (ux_b ed)) /\
  (exists m, Builder.formulate (ux_b ed) None false false = Ok m) /\ (forall t, in_units (b_decay (ux_b ed)) t bo_base (tx_base t)) /\
  uniform_dynamics (b_decay (ux_b ed)) (ux_dyn ed) ed /\ open_phase_space bo_base /\
  forall m cpl i j k, Builder.formulate (ux_b ed) None false false = Ok m -> cyclic i j k ->
    exists N, integrates_to bo_base (intensity_at m cpl) i j k N.
Proof.
  exact (conj ob_std (conj (ux_dynamics ed) (conj ob_plain (conj (ux_formulate ed) (conj tx_units (conj (ux_uniform ed) (conj bo_open (tx_rate ed)))))))).
Qed.

(** ** Labels of the final state, in the same cyclic order and in the other one (all lineshapes that have the same values in both models).
    The conditions are those of C86 and C87. The pair of a line of the Dalitz plot changes its order with the labels. *)
Theorem C147_cyclic_labels b b' p s s' dyn dyn' uc ref cl m ref' cl' m' r base base' cpl i j k :
  std_decay (b_decay b) s -> std_decay (b_decay b') s' -> dynamics_of b dyn -> dynamics_of b' dyn' ->
  (b_prod_helicity b = false -> plain_resonances (b_decay b)) ->
  b_prod_helicity b' = b_prod_helicity b -> b_dec_helicity b' = b_dec_helicity b ->
  Builder.formulate b ref cl uc = Ok m -> Builder.formulate b' ref' cl' uc = Ok m' ->
  resolve_reference (b_decay b) ref = Ok r -> resolve_reference (b_decay b') ref' = Ok (p r) ->
  relabelling p -> keeps_order p -> relabelled_decay p (b_decay b) s (b_decay b') s' -> relabelled_point p base base' ->
  (forall c s1 s2 s3 s1' s2' s3', In c (d_chains (b_decay b)) -> on_dalitz_plot base s1 s2 s3 -> same_place 1 p s1 s2 s3 s1' s2' s3' ->
    ceval (Env (at_sigmas base' s1' s2' s3') cpl) (fun _ => 0%Z) (de_expr (dyn' (relabel p c)))
    = ceval (Env (at_sigmas base s1 s2 s3) cpl) (fun _ => 0%Z) (de_expr (dyn c))) ->
  cyclic i j k -> open_phase_space base ->
  same_rates 1 1 base (intensity_at m cpl) i j k base' (intensity_at m' cpl) (p i) (p j) (p k).
Proof. exact (c147_cyclic b b' p s s' dyn dyn' uc ref cl m ref' cl' m' r base base' cpl i j k). Qed.
Print Assumptions C147_cyclic_labels.
Theorem C147_exchanged_labels b b' p s s' dyn dyn' uc ref cl m ref' cl' m' r base base' cpl cpl' e i j k :
  std_decay (b_decay b) s -> std_decay (b_decay b') s' -> dynamics_of b dyn -> dynamics_of b' dyn' ->
  (b_prod_helicity b = false -> plain_resonances (b_decay b)) ->
  b_prod_helicity b' = b_prod_helicity b -> b_dec_helicity b' = b_dec_helicity b ->
  Builder.formulate b ref cl uc = Ok m -> Builder.formulate b' ref' cl' uc = Ok m' ->
  resolve_reference (b_decay b) ref = Ok r -> resolve_reference (b_decay b') ref' = Ok (p r) ->
  relabelling p -> exchanges p -> relabelled_decay p (b_decay b) s (b_decay b') s' -> relabelled_point p base base' ->
  (forall c s1 s2 s3 s1' s2' s3', In c (d_chains (b_decay b)) -> on_dalitz_plot base s1 s2 s3 -> same_place 1 p s1 s2 s3 s1' s2' s3' ->
    ceval (Env (at_sigmas base' s1' s2' s3') cpl') (fun _ => 0%Z) (de_expr (dyn' (relabel p c)))
    = ceval (Env (at_sigmas base s1 s2 s3) cpl) (fun _ => 0%Z) (de_expr (dyn c))) ->
  (e = 1 \/ e = -1)%R ->
  (forall c h l i j k, In c (d_chains (b_decay b)) -> ch_spectator c = s k -> cyclic i j k -> helicity_tuple s l ->
    (if uc then coefficient else coupling_product) (Env base' cpl') (b_prod_helicity b) (b_dec_helicity b)
      (relabel p c) h (at4 l k) (at4 l j) (at4 l i)
    = (RtoC (e * exchange_sign c) *
       (if uc then coefficient else coupling_product) (Env base cpl) (b_prod_helicity b) (b_dec_helicity b)
         c h (at4 l k) (at4 l i) (at4 l j))%C) ->
  cyclic i j k -> open_phase_space base ->
  same_rates 1 1 base (intensity_at m cpl) i j k base' (intensity_at m' cpl') (p j) (p i) (p k).
Proof. exact (c147_exchanged b b' p s s' dyn dyn' uc ref cl m ref' cl' m' r base base' cpl cpl' e i j k). Qed.
Print Assumptions C147_exchanged_labels.
(** The lineshapes of Breit-Wigner builders have the same values. *)
Theorem C147_breit_wigner p d s dyn dyn' base base' cpl cpl' : std_decay d s -> two_body_resonances d -> relabelling p ->
  same_lineshapes p d dyn dyn' -> relabelled_values p base base' ->
  forall c s1 s2 s3 s1' s2' s3', In c (d_chains d) -> on_dalitz_plot base s1 s2 s3 -> same_place 1 p s1 s2 s3 s1' s2' s3' ->
    ceval (Env (at_sigmas base' s1' s2' s3') cpl') (fun _ => 0%Z) (de_expr (dyn' (relabel p c)))
    = ceval (Env (at_sigmas base s1 s2 s3) cpl) (fun _ => 0%Z) (de_expr (dyn c)).
Proof. exact (relabelled_shapes p d s dyn dyn' base base' cpl cpl'). Qed.
Print Assumptions C147_breit_wigner.
(** The other hypotheses are met by these models according to C86_example, C87_example and C89_example. *)
Example C147_cyclic_example : exists m m', Builder.formulate (dl_b dl_decay [] false) (Some 2%Z) false false = Ok m /\
  Builder.formulate (dl_b rl_decay [] false) (Some 3%Z) false false = Ok m' /\
  relabelled_point rl_turn rx_base (fun x => RtoC (rl_env x)) /\ open_phase_space rx_base /\
  forall cpl, exists N, integrates_to rx_base (intensity_at m cpl) 1 2 3 N.
Proof. exact tx_cyclic. Qed.
Example C147_exchanged_example : exists m, Builder.formulate (dl_b id_two [] true) (Some 3%Z) false false = Ok m /\
  relabelled_point id_swap (id_base 72 24) (id_base 24 72) /\ open_phase_space (id_base 72 24) /\
  forall cpl, exists N, integrates_to (id_base 72 24) (intensity_at m cpl) 1 2 3 N.
Proof. exact tx_exchanged. Qed.

(** Two identical particles: the projections of the model on the two invariant masses that they exchange are the same. The conditions are
    those of C89_identical_particles_breit_wigner. *)
Theorem C147_identical_particles b p s dyn uc ref cl m r base cpl e i j k :
  std_decay (b_decay b) s -> dynamics_of b dyn ->
  two_body_resonances (b_decay b) -> same_lineshapes p (b_decay b) dyn dyn ->
  Builder.formulate b ref cl uc = Ok m -> resolve_reference (b_decay b) ref = Ok r -> p r = r ->
  relabelling p -> exchanges p -> relabelled_decay p (b_decay b) s (b_decay b) s ->
  (b_dec_helicity b = false \/ forall i, In i [1; 2; 3]%Z -> p_spin (s i) = 0%Z) ->
  (forall c, In c (d_chains (b_decay b)) -> exchange_sign c = e) ->
  (forall n, In n [1; 2; 3]%Z -> base (mass_at (p n)) = base (mass_at n)) ->
  cyclic i j k -> open_phase_space base ->
  same_rates 1 1 base (intensity_at m cpl) i j k base (intensity_at m cpl) (p j) (p i) (p k).
Proof. exact (c147_identical b p s dyn uc ref cl m r base cpl e i j k). Qed.
Print Assumptions C147_identical_particles.
Example C147_identical_example : exists m, Builder.formulate (dl_b id_one [] false) (Some 3%Z) false false = Ok m /\
  two_body_resonances id_one /\ same_lineshapes id_swap id_one (fun _ => de_unit) (fun _ => de_unit) /\
  (forall n, In n [1; 2; 3]%Z -> id_base 72 24 (mass_at (id_swap n)) = id_base 72 24 (mass_at n)) /\ open_phase_space (id_base 72 24) /\
  forall cpl, exists N, integrates_to (id_base 72 24) (intensity_at m cpl) 1 2 3 N.
Proof. exact tx_identical. Qed.

(** ** Reference subsystem, under the condition of C27 *)
Theorem C147_reference b s dyn uc ref1 cl1 m1 r1 ref2 cl2 m2 r2 base cpl i j k :
  std_decay (b_decay b) s -> dynamics_of b dyn -> (b_prod_helicity b = false -> plain_resonances (b_decay b)) ->
  Builder.formulate b ref1 cl1 uc = Ok m1 -> Builder.formulate b ref2 cl2 uc = Ok m2 ->
  resolve_reference (b_decay b) ref1 = Ok r1 -> resolve_reference (b_decay b) ref2 = Ok r2 ->
  turn_safe s r1 r2 (get_subsystem_ids (b_decay b)) -> cyclic i j k -> open_phase_space base ->
  same_rates 1 1 base (intensity_at m1 cpl) i j k base (intensity_at m2 cpl) i j k.
Proof. exact (c147_reference b s dyn uc ref1 cl1 m1 r1 ref2 cl2 m2 r2 base cpl i j k). Qed.
Print Assumptions C147_reference.
Example C147_reference_example : (exists m1, Builder.formulate ex_b (Some 2%Z) false false = Ok m1) /\
  (exists m2, Builder.formulate ex_b (Some 3%Z) false false = Ok m2) /\ turn_safe ex_st 2 3 (get_subsystem_ids (b_decay ex_b)) /\ open_phase_space rx_base.
Proof.
  split; [vm_compute; eexists; reflexivity|]. split; [vm_compute; eexists; reflexivity|].
  split; [right; left; vm_compute; intuition congruence|]. exact tx_open.
Qed.

(** ** Serialised models *)
Theorem C147_serial_units m d s r tl x w dyn cl M t base base' cpl i j k :
  helicity_definition m d s r tl None x w dyn ->
  (forall c, In c (di_chains d) -> complete_chain m c /\ no_production_barrier m c) ->
  SerAmplitude.formulate m cl tl None = Ok M ->
  0 < t -> serial_units tl w (di_chains d) t base base' -> cyclic i j k -> open_phase_space base ->
  same_rates t (/ t ^ 4) base (intensity_at M cpl) i j k base' (intensity_at M cpl) i j k.
Proof. exact (c147_serial_units m d s r tl x w dyn cl M t base base' cpl i j k). Qed.
Print Assumptions C147_serial_units.
Theorem C147_serial_labels p (turn : bool) swap m m' d d' s s' r tl x x' w w' dyn dyn' cl cl' M M' base base' cpl i j k i' j' k' :
  relabelling p -> ordered turn p -> relabelled_definition p turn swap m d m' d' ->
  helicity_definition m d s r tl None x w dyn -> helicity_definition m' d' s' (p r) tl None x' w' dyn' ->
  (forall c, In c (di_chains d) -> complete_chain m c) ->
  SerAmplitude.formulate m cl tl None = Ok M -> SerAmplitude.formulate m' cl' tl None = Ok M' ->
  relabelled_point p base base' ->
  same_parameters tl s (di_chains d) (fun c => relabel_chain_def p turn (swap c) c) w w'
    (fun c => label_sign s turn (swap c) (x c)) base base' ->
  cyclic i j k -> open_phase_space base -> (i', j', k') = (if turn then (p j, p i, p k) else (p i, p j, p k)) ->
  same_rates 1 1 base (intensity_at M cpl) i j k base' (intensity_at M' cpl) i' j' k'.
Proof. exact (c147_serial_labels p turn swap m m' d d' s s' r tl x x' w w' dyn dyn' cl cl' M M' base base' cpl i j k i' j' k'). Qed.
Print Assumptions C147_serial_labels.
Theorem C147_serial_reference (m1 m2 : model_def) (d1 d2 : distribution) (s : Z -> state) (r1 r2 : Z) (tl : string -> string)
  additional (x : chain_def -> content) (w : chain_def -> symbol) (dyn : chain_def -> defexpr) (cl1 cl2 : bool) (M1 M2 : model) base cpl i j k :
  helicity_definition m1 d1 s r1 tl additional x w dyn -> helicity_definition m2 d2 s r2 tl additional x w dyn ->
  Permutation (di_chains d1) (di_chains d2) ->
  SerAmplitude.formulate m1 cl1 tl additional = Ok M1 -> SerAmplitude.formulate m2 cl2 tl additional = Ok M2 ->
  turn_safe s r1 r2 (map (fun c => ct_k (x c)) (di_chains d1)) -> weights_only w dyn (di_chains d1) ->
  cyclic i j k -> open_phase_space base ->
  same_rates 1 1 base (intensity_at M1 cpl) i j k base (intensity_at M2 cpl) i j k.
Proof. exact (c147_serial_reference m1 m2 d1 d2 s r1 r2 tl additional x w dyn cl1 cl2 M1 M2 base cpl i j k). Qed.
Print Assumptions C147_serial_reference.
Example C147_serial_example : helicity_definition px_model (sx_dist px_chains) sx_s 1 sx_tl None sx_x px_w px_dyn /\
  (forall c, In c px_chains -> complete_chain px_model c) /\ (exists M, SerAmplitude.formulate px_model true sx_tl None = Ok M) /\
  (forall t, serial_units sx_tl px_w px_chains t nx_base (tx_serial t)) /\ open_phase_space nx_base /\
  (forall M cl cpl i j k, SerAmplitude.formulate px_model cl sx_tl None = Ok M -> cyclic i j k ->
    exists N, integrates_to nx_base (intensity_at M cpl) i j k N) /\
  (forall turn, relabelling (rl_p turn) /\ ordered turn (rl_p turn) /\
    relabelled_definition (rl_p turn) turn rl_swap px_model (sx_dist px_chains) (rl_model turn) (rl_dist turn) /\
    relabelled_point (rl_p turn) px_base (rl_base turn)) /\ open_phase_space px_base /\
  turn_safe sx_s 1 2 (map (fun c => ct_k (sx_x c)) wy_chains).
Proof.
  exact (conj px_definition (conj (fun c I => proj2 (px_hyp c I)) (conj (px_formulate true) (conj tx_serial_units (conj tx_open_serial (conj tx_serial_rate
    (conj (fun turn => conj (proj1 (rl_relabelling turn)) (conj (proj2 (rl_relabelling turn)) (conj (SerRelabelExamples.rl_relabelled turn) (SerRelabelExamples.rl_point turn))))
    (conj tx_open_labels wy_safe)))))))).
Qed.

(** ** Fit fractions: the ratio of the rates of two models, for example of a part and the whole, is the same in all these conventions. *)
Theorem C147_fractions t q base I J i j k base' I' J' i' j' k' N n N' n' : 0 < t -> q <> 0 -> cyclic i' j' k' -> open_phase_space base' ->
  same_rates t q base I i j k base' I' i' j' k' -> same_rates t q base J i j k base' J' i' j' k' ->
  integrates_to base I i j k N -> integrates_to base J i j k n ->
  integrates_to base' I' i' j' k' N' -> integrates_to base' J' i' j' k' n' -> N <> 0 -> n' / N' = n / N.
Proof. exact (c147_fractions t q base I J i j k base' I' J' i' j' k' N n N' n'). Qed.
Print Assumptions C147_fractions.
