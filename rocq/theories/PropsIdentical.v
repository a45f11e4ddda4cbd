(** C110: reactions with identical particles in the final state *)
From Coq Require Import String ZArith List Bool Reals.
From Coquelicot Require Import Complex.
From Verif Require Import Prelude Decay Qrules SpecQrules Expr CExpr Builder SpecKin SpecDPD Dynamics SpecDynamics SpecWorkflow SpecRelabel SpecReorder
  SpecIdentical IdenticalProofs IdenticalExamples Angles RelabelExamples RelabelShapeExamples ReorderExamples LineshapeFacts.
Import ListNotations.
Local Open Scope string_scope.
Local Open Scope Z_scope.
Local Open Scope list_scope.

(** [permute_equal_final_states] makes a reaction of the same kind, which contains the original transitions. *)
Theorem C110_permuted_reaction `{EqDec edge_obj} `{EqDec node_obj} `{CmpLaws edge_obj} `{CmpLaws node_obj} ts f :
  ready ts -> (forall t, In t ts -> initial_first t) ->
  exists r', permute_reaction uniqueness_repr (Reaction ts f) = Ok r' /\ rx_formalism r' = f /\
    ready (rx_transitions r') /\ (forall t, In t (rx_transitions r') -> initial_first t) /\
    (forall t, In t ts -> In t (rx_transitions r')) /\
    (proper_spins ts -> proper_spins (rx_transitions r')) /\
    (forall n, couplings_at ts n -> couplings_at (rx_transitions r') n).
Proof. exact (fun R IF => c110_reaction ts R IF f). Qed.
Print Assumptions C110_permuted_reaction.

(** Its decay is closed under the exchange of identical particles, up to the order of the decay products. *)
Theorem C110_closed_decay `{EqDec edge_obj} `{EqDec node_obj} `{CmpLaws edge_obj} `{CmpLaws node_obj} ts f r' m d s a b :
  ready ts -> (forall t, In t ts -> initial_first t) ->
  permute_reaction uniqueness_repr (Reaction ts f) = Ok r' -> to_three_body_decay (rx_transitions r') m = Ok d -> std_decay d s ->
  identical ts a b ->
  relabelled_up_to_order (exchange a b) never (descending (exchange a b)) d s d s.
Proof. exact (fun R IF => c110_closed ts R IF f r' m d s a b). Qed.
Print Assumptions C110_closed_decay.

(** The whole way from the reaction to the intensity *)
Theorem C110_symmetric_intensity `{EqDec edge_obj} `{EqDec node_obj} `{CmpLaws edge_obj} `{CmpLaws node_obj} ts f m ls all w ph dh g :
  ready ts -> (forall t, In t ts -> initial_first t) -> proper_spins ts ->
  ls = MinPair ph dh \/ ls = MinBool ph /\ dh = ph ->
  closed_phsp (bw_phsp_factor w) -> phsp_value (bw_phsp_factor w) g -> symmetric_phsp g ->
  (ph = false \/ needs_production_ls w = true -> couplings_at ts 0) ->
  (dh = false \/ needs_decay_ls w = true -> couplings_at ts 1) ->
  exists r' d s b0 b, permute_reaction uniqueness_repr (Reaction ts f) = Ok r' /\
    to_three_body_decay (rx_transitions r') m = Ok d /\ std_decay d s /\
    mk_builder d ls all = Ok b0 /\ register_each b0 (d_chains d) (bw_call w) = Ok b /\
    forall ref cl uc, ref = None \/ (exists r, ref = Some r /\ In r [1; 2; 3]) ->
    exists md, formulate b ref cl uc = Ok md /\
      forall x y k e base base' cpl, identical ts x y -> resolve_reference d ref = Ok k -> k <> x -> k <> y ->
        relabelled_values (exchange x y) base base' ->
        physical (fun z => Re (base z)) -> nonsingular (fun z => Re (base z)) ->
        (dh = false \/ forall i, In i [1; 2; 3] -> p_spin (s i) = 0) ->
        (forall c, In c (d_chains d) ->
           (exchange_sign c * order_sign ph dh never (descending (exchange x y)) c = e)%R) ->
        full_value (at_point (m_variables md) base' cpl) md = full_value (at_point (m_variables md) base cpl) md.
Proof. exact (fun R IF => c110_symmetric ts R IF f m ls all w ph dh g). Qed.
Print Assumptions C110_symmetric_intensity.

Example C110_example : ready ix_reaction /\ (forall t, In t ix_reaction -> initial_first t) /\ proper_spins ix_reaction /\
  (forall n, couplings_at ix_reaction n) /\ identical ix_reaction 1 2 /\
  closed_phsp phase_space_factor /\ phsp_value phase_space_factor two_body_phsp /\ symmetric_phsp two_body_phsp /\
  relabelled_values (exchange 1 2) (rb_base (id_env 72 24)) (rb_base (id_env 24 72)) /\
  physical (fun x => Re (rb_base (id_env 72 24) x)) /\ nonsingular (fun x => Re (rb_base (id_env 72 24) x)) /\
  exists r' d, permute_reaction uniqueness_repr (Reaction ix_reaction "canonical-helicity") = Ok r' /\
    to_three_body_decay (rx_transitions r') (MinLS false) = Ok d /\ length (d_chains d) = 3%nat /\
    resolve_reference d (Some 3) = Ok 3 /\
    forall c, In c (d_chains d) -> (exchange_sign c * order_sign false false never (descending (exchange 1 2)) c = 1)%R.
Proof.
  exact (conj (proj1 ix_reaction_ready) (conj (proj2 ix_reaction_ready) (conj ix_proper_spins (conj ix_couplings (conj ix_identical
    (conj phase_space_factor_closed (conj phase_space_factor_value (conj rf_symmetric (conj ix_values
    (conj (proj1 rb_physical) (conj (proj2 rb_physical) ix_decay))))))))))).
Qed.
