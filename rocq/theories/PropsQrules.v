(** Properties C41-C49 and C65-C69: adapter/qrules.py.
    Specification vocabulary: SpecQrules.v *)
From Coq Require Import String ZArith QArith Qcanon List Bool Sorted Permutation.
From Verif Require Import Prelude Spin Decay DecayProofs Qrules SpecQrules QrulesFacts QrulesNorm QrulesThree QrulesFilter
  QrulesConvert QrulesDecay QrulesLabels QrulesMinLs QrulesExamples.
Import ListNotations.
Local Open Scope string_scope.
Local Open Scope Z_scope.
Local Open Scope list_scope.

(** ** C41 *)
Theorem C41_renumbering {E N} (t : transition E N) :
  is_transition t ->
  exists t' f, normalize_transition t = Ok t' /\
    renumbering f (edge_ids t) /\
    is_transition t' /\
    (forall x, In x (edge_ids t') <-> exists i, In i (edge_ids t) /\ x = f i) /\
    (forall i, In i (edge_ids t) -> edge_of t' (f i) = edge_of t i /\ state_of t' (f i) = state_of t i) /\
    (forall d, initial_states t = Ok d -> initial_states t' = Ok (rename_keys f d)) /\
    (forall d, tr_final_states t = Ok d -> tr_final_states t' = Ok (rename_keys f d)) /\
    (forall d, intermediate_states t = Ok d -> intermediate_states t' = Ok (rename_keys f d)) /\
    t_nodes (tr_topology t') = t_nodes (tr_topology t) /\
    tr_interactions t' = tr_interactions t.
Proof. exact (c41_renumbering t). Qed.
Print Assumptions C41_renumbering.
Example C41_example : forall t, In t qx_reaction -> is_transition t /\ edge_ids t = [-1; 0; 1; 2; 3].
Proof.
  intros t I. split; [apply (qx_reaction_transitions t I)|].
  repeat (destruct I as [<-|I]; [reflexivity|]). destruct I.
Qed.

Theorem C41_idempotent {E N} (t t' : transition E N) :
  is_transition t ->
  normalize_transition t = Ok t' -> normalize_transition t' = Ok t'.
Proof. exact (c41_idempotent t t'). Qed.
Print Assumptions C41_idempotent.

Theorem C41_reaction {E N} (r : reaction E N) :
  (forall t, In t (rx_transitions r) -> is_transition t) ->
  exists r', normalize_reaction r = Ok r' /\ rx_formalism r' = rx_formalism r /\
    Forall2 (fun t t' => normalize_transition t = Ok t') (rx_transitions r) (rx_transitions r') /\
    normalize_reaction r' = Ok r'.
Proof. exact (c41_reaction r). Qed.
Print Assumptions C41_reaction.

(** ** C42: [repr] gives the name of the particle of a state ([uniqueness_repr] in the code). *)
Theorem C42_general {E N} `{EqDec E} `{EqDec N} `{CmpLaws E} `{CmpLaws N} (repr : E -> res string) t :
  is_transition t -> ascending (edge_ids t) -> anchored t ->
  (forall i s, is_final t i -> state_of t i = Some s -> is_ok (repr s)) ->
  exists l, permute_equal_final_states repr t = Ok l /\ In t l /\ StronglySorted clt l /\ NoDup l /\
  (forall u, In u l -> tr_states u = tr_states t /\ tr_interactions u = tr_interactions t /\
     t_nodes (tr_topology u) = t_nodes (tr_topology t) /\ edge_ids u = edge_ids t /\
     (u = t \/ exists i j si sj n, is_final t i /\ is_final t j /\ i <> j /\
        state_of t i = Some si /\ state_of t j = Some sj /\ repr si = Ok n /\ repr sj = Ok n /\
        edges_exchanged i j t u)) /\
  ((forall i j si sj n, is_final t i -> is_final t j -> state_of t i = Some si -> state_of t j = Some sj ->
      repr si = Ok n -> repr sj = Ok n -> i = j) -> l = [t]).
Proof. exact (c42_general repr t). Qed.
Print Assumptions C42_general.
Example C42_example : is_transition qx_3pi /\ three_body qx_3pi 0 1 2 3 4 /\
  (forall o, is_ok (qx_pi_repr o)) /\
  exists l, permute_equal_final_states qx_pi_repr qx_3pi = Ok l /\ length l = 3%nat.
Proof.
  split; [exact (three_body_transition _ _ _ _ _ _ qx_3pi_three_body)|]. split; [exact qx_3pi_three_body|].
  split; [|exact qx_3pi_result]. intros [p|s]; eexists; reflexivity.
Qed.

Theorem C42_three_body {E N} `{EqDec E} `{EqDec N} `{CmpLaws E} `{CmpLaws N} (repr : E -> res string) t p k i j r sk n :
  three_body t p k i j r ->
  (forall x s, In x [k; i; j] -> state_of t x = Some s -> is_ok (repr s)) ->
  state_of t k = Some sk -> repr sk = Ok n ->
  exists l, permute_equal_final_states repr t = Ok l /\
  (forall u, In u l -> exists k', In k' [k; i; j] /\ spectator_is u k') /\
  (forall k' s', In k' [k; i; j] -> state_of t k' = Some s' ->
     ((exists u, In u l /\ spectator_is u k') <-> repr s' = Ok n)) /\
  (forall u u' k', In u l -> In u' l -> spectator_is u k' -> spectator_is u' k' -> u = u').
Proof. exact (c42_three_body repr t p k i j r sk n). Qed.
Print Assumptions C42_three_body.

Theorem C42_reaction {E N} `{EqDec E} `{EqDec N} `{CmpLaws E} `{CmpLaws N} (repr : E -> res string) r :
  (forall t, In t (rx_transitions r) -> is_transition t /\ ascending (edge_ids t) /\ anchored t /\
     forall i s, is_final t i -> state_of t i = Some s -> is_ok (repr s)) ->
  exists r' ls, permute_reaction repr r = Ok r' /\ rx_formalism r' = rx_formalism r /\ rx_transitions r' = concat ls /\
    Forall2 (fun t l => permute_equal_final_states repr t = Ok l) (rx_transitions r) ls.
Proof. exact (c42_reaction repr r). Qed.
Print Assumptions C42_reaction.
Example C42_reaction_example : exists r', permute_reaction qx_pi_repr (Reaction [qx_3pi; qx_3pi] "helicity") = Ok r' /\
  length (rx_transitions r') = 6%nat.
Proof. destruct qx_3pi_result as (l & E & L). unfold permute_reaction, permute_all. cbn [rx_transitions mapM bind]. rewrite E.
  cbn [bind]. eexists. split; [reflexivity|]. cbn [rx_transitions concat]. rewrite !app_length, L. reflexivity. Qed.

(** ** C43 *)
Theorem C43_one_per_group {E M} `{EqDec E} `{EqDec M} `{CmpLaws M} (total : forall a b : M, is_ok (cmp a b)) ts node_ids :
  ts <> [] -> (forall t, In t ts -> is_three_body t) ->
  unambiguous (filtered_nodes node_ids) ts ->
  exists l, filter_min_ls (reiterable ts) node_ids = Ok l /\ l <> [] /\ NoDup l /\
    (forall t, In t ts -> exists u, In u l /\ minimal_of (filtered_nodes node_ids) ts t u) /\
    (forall u, In u l -> exists t, In t ts /\ tr_topology u = tr_topology t /\ tr_states u = tr_states t /\
       minimal_of (filtered_nodes node_ids) ts t u) /\
    (forall u u', In u l -> In u' l -> same_group (filtered_nodes node_ids) u u' -> u = u').
Proof. exact (filter_spec total ts node_ids). Qed.
Print Assumptions C43_one_per_group.
Example C43_example : (forall a b : ls_coupling, is_ok (cmp a b)) /\ qx_mixed_us <> [] /\
  (forall t, In t qx_mixed_us -> is_three_body t) /\ (forall ids, unambiguous ids qx_mixed_us).
Proof. split; [exact ls_total|]. split; [|split; [|exact qx_mixed_unambiguous]]; apply qx_mixed_us_three_body. Qed.

Theorem C43_empty_rejected {E M} `{EqDec E} `{EqDec M} `{Cmp M} node_ids :
  @filter_min_ls E M _ _ _ (reiterable []) node_ids = Err ValueError.
Proof. exact (empty_rejected node_ids). Qed.
Print Assumptions C43_empty_rejected.

(** ** C44: the least couplings of the two nodes are determined separately, so the result can combine couplings of
    different transitions, and the decay can contain chains that no transition describes. *)
Theorem C44_selects_existing_refuted :
  exists ts us l, ready ts /\ (forall t, In t ts -> initial_first t) /\
  convert_transitions ts = Ok us /\ (forall u u', In u us -> In u' us -> same_process u u') /\
  filter_min_ls (reiterable us) None = Ok l /\ l <> [] /\ forall u, In u l -> ~ In u us.
Proof. exact c44_refuted. Qed.
Print Assumptions C44_selects_existing_refuted.

Theorem C44_decay_refuted :
  exists ts d0 d, ready ts /\ (forall t, In t ts -> initial_first t) /\
  to_three_body_decay ts (MinLS false) = Ok d0 /\ to_three_body_decay ts (MinLS true) = Ok d /\
  d_chains d <> [] /\ forall c, In c (d_chains d) -> ~ In c (d_chains d0).
Proof. exact c44_decay_refuted. Qed.
Print Assumptions C44_decay_refuted.

(** What remains: inputs with all combinations of couplings, and filters of one node *)
Theorem C44_selects_product_partial {E M} `{EqDec E} `{EqDec M} `{CmpLaws M} (total : forall a b : M, is_ok (cmp a b)) ts node_ids l :
  ts <> [] -> (forall t, In t ts -> is_three_body t) ->
  (forall t t', In t ts -> In t' ts -> same_process t t') ->
  unambiguous (filtered_nodes node_ids) ts ->
  independent_couplings (filtered_nodes node_ids) ts ->
  filter_min_ls (reiterable ts) node_ids = Ok l -> forall u, In u l -> In u ts.
Proof. exact (selects_product total ts node_ids l). Qed.
Print Assumptions C44_selects_product_partial.
Example C44_example : length qx_standard_us = 2%nat /\ (forall t, In t qx_standard_us -> is_three_body t) /\
  (forall u u', In u qx_standard_us -> In u' qx_standard_us -> same_process u u') /\
  (forall ids, unambiguous ids qx_standard_us) /\ (forall ids, independent_couplings ids qx_standard_us).
Proof. exact qx_standard_us_facts. Qed.

Theorem C44_selects_single_partial {E M} `{EqDec E} `{EqDec M} `{CmpLaws M} (total : forall a b : M, is_ok (cmp a b)) ts node_ids l :
  ts <> [] -> (forall t, In t ts -> is_three_body t) ->
  (forall t t', In t ts -> In t' ts -> same_process t t') ->
  unambiguous (filtered_nodes node_ids) ts ->
  ~ (In 0 (filtered_nodes node_ids) /\ In 1 (filtered_nodes node_ids)) ->
  filter_min_ls (reiterable ts) node_ids = Ok l -> forall u, In u l -> In u ts.
Proof. exact (selects_single total ts node_ids l). Qed.
Print Assumptions C44_selects_single_partial.

(** ** C45: an iterator that can be traversed only once gives the empty tuple. *)
Theorem C45_any_iterable_refuted {E M} `{EqDec E} `{EqDec M} `{CmpLaws M} (ts : list (transition E (option M))) :
  (forall a b : M, is_ok (cmp a b)) ->
  ts <> [] -> (forall t, In t ts -> is_three_body t) ->
  (exists l, filter_min_ls (reiterable ts) None = Ok l /\ l <> []) /\ filter_min_ls (one_shot ts) None = Ok [].
Proof. exact (c45_refuted ts). Qed.
Print Assumptions C45_any_iterable_refuted.
Example C45_example : qx_mixed_us <> [] /\ (forall t, In t qx_mixed_us -> is_three_body t).
Proof. split; apply qx_mixed_us_three_body. Qed.

(** ** C46: the transitions as a set determine the decay. *)
Theorem C46_order_independent (ts ts' : list raw_transition) m d :
  (forall t, In t ts -> is_transition t) ->
  (forall t, In t ts <-> In t ts') ->
  (forall t t', In t ts -> In t' ts -> (standard_labels t <-> standard_labels t')) ->
  to_three_body_decay ts m = Ok d -> to_three_body_decay ts' m = Ok d.
Proof. exact (c46_order ts ts' m d). Qed.
Print Assumptions C46_order_independent.
Example C46_example : (forall t, In t qx_reaction -> is_transition t) /\
  (forall t t', In t qx_reaction -> In t' qx_reaction -> (standard_labels t <-> standard_labels t')) /\
  exists d, to_three_body_decay qx_reaction (MinLS true) = Ok d /\ length (d_chains d) = 3%nat.
Proof.
  split; [intros t I; apply (qx_reaction_transitions t I)|]. split; [exact qx_uniform_labels|].
  eexists. split; [vm_compute; reflexivity|]. reflexivity.
Qed.

(** ** C47 *)
Theorem C47_idempotent ts us :
  (forall t, In t ts -> is_transition t /\ NoDup (map fst (tr_interactions t))) ->
  convert_transitions ts = Ok us -> convert_transitions (map as_raw us) = Ok us.
Proof. exact (c47_idempotent ts us). Qed.
Print Assumptions C47_idempotent.
Example C47_example : (forall t, In t qx_reaction -> is_transition t /\ NoDup (map fst (tr_interactions t))) /\
  exists us, convert_transitions qx_reaction = Ok us /\ length us = 4%nat.
Proof.
  split; [exact qx_reaction_transitions|]. eexists. split; [vm_compute; reflexivity|]. reflexivity.
Qed.

Theorem C47_conversion ts us :
  (forall t, In t ts -> is_transition t /\ NoDup (map fst (tr_interactions t))) ->
  convert_transitions ts = Ok us ->
  StronglySorted clt us /\ (forall u, In u us <-> exists t, In t ts /\ converts t u).
Proof. exact (c47_result ts us). Qed.
Print Assumptions C47_conversion.

(** ** C48: an object without parity makes the conversion of an otherwise convertible reaction raise [TypeError]. *)
Theorem C48_missing_parity_refuted ts :
  (forall t, In t ts -> is_transition t) ->
  (forall t i o, In t ts -> In (i, o) (tr_states t) -> convertible_edge o \/ lacks_parity o) ->
  (forall t n o, In t ts -> In (n, o) (tr_interactions t) -> convertible_node o) ->
  (exists t i o, In t ts /\ In (i, o) (tr_states t) /\ lacks_parity o) ->
  convert_transitions ts = Err TypeError.
Proof. exact (c48_type_error ts). Qed.
Print Assumptions C48_missing_parity_refuted.
Example C48_example : is_transition qx_no_parity /\
  (forall i o, In (i, o) (tr_states qx_no_parity) -> convertible_edge o \/ lacks_parity o) /\
  (forall n o, In (n, o) (tr_interactions qx_no_parity) -> convertible_node o) /\
  (exists i o, In (i, o) (tr_states qx_no_parity) /\ lacks_parity o) /\
  convert_transitions [qx_no_parity] = Err TypeError.
Proof.
  split; [exact qx_no_parity_transition|]. split; [exact qx_no_parity_edges|]. split; [exact qx_no_parity_nodes|].
  split; [|vm_compute; reflexivity]. exists 0, (qx_q "W" 1 None). split; [cbn; auto|reflexivity].
Qed.

Theorem C48_only_with_parity ts us :
  (forall t, In t ts -> is_transition t) -> convert_transitions ts = Ok us ->
  forall t, In t ts -> convertible t.
Proof. exact (c48_convertible ts us). Qed.
Print Assumptions C48_only_with_parity.

(** ** C49: transitions that have been converted keep their old indices, and the decay is rejected. *)
Theorem C49_converted_refuted :
  exists ts us d, ready ts /\ (forall t, In t ts -> initial_first t) /\
  convert_transitions ts = Ok us /\
  to_three_body_decay ts (MinLS false) = Ok d /\ to_three_body_decay (map as_raw us) (MinLS false) = Err ValueError.
Proof. exact c49_converted_refuted. Qed.
Print Assumptions C49_converted_refuted.

(** A resonance whose ID is less than that of the spectator is mistaken for it. *)
Theorem C49_resonance_id_refuted :
  exists t, is_three_body t /\ standard_labels t /\ convertible t /\ fresh t /\
  forall m, to_three_body_decay [t] m = Err ValueError.
Proof. exact c49_resonance_refuted. Qed.
Print Assumptions C49_resonance_id_refuted.

(** What remains: QRules transitions of one reaction, the initial state first and the resonance last.  Other labels
    give the decay of the normalised transitions, whose states are 0, 1, 2, 3 in order of the labels (C67). *)
Theorem C49_relabelled_partial (ts ts' : list raw_transition) m :
  ready ts -> (forall t, In t ts -> initial_first t) ->
  (exists t, In t ts /\ ~ standard_labels t) -> normalize_transitions ts = Ok ts' ->
  to_three_body_decay ts m = to_three_body_decay ts' m.
Proof. exact (c49_relabelled ts ts' m). Qed.
Print Assumptions C49_relabelled_partial.
Example C49_example : ready qx_reaction /\ (forall t, In t qx_reaction -> initial_first t) /\
  exists t, In t qx_reaction /\ ~ standard_labels t.
Proof.
  split; [apply qx_reaction_ready|]. split; [apply qx_reaction_ready|].
  eexists. split; [left; reflexivity|]. intros [A _]. specialize (A (-1)). destruct A as [A _].
  enough (-1 = 0) by discriminate. apply A. exists (Edge None (Some 0)). split; reflexivity.
Qed.

(** ** C65: equal transitions, the items of [interactions] in another order *)
Theorem C65_node_order_refuted :
  exists t t' d d', ready [t] /\
  tr_topology t' = tr_topology t /\ tr_states t' = tr_states t /\ (forall n, coupling_of t' n = coupling_of t n) /\
  to_three_body_decay [t] (MinLS false) = Ok d /\ to_three_body_decay [t'] (MinLS false) = Ok d' /\ d' <> d.
Proof. exact c65_refuted. Qed.
Print Assumptions C65_node_order_refuted.

(** ** C66 *)
Theorem C66_pairs ts :
  ready ts -> (forall t, In t ts -> initial_first t) ->
  to_three_body_decay ts (MinLSPair false false) = to_three_body_decay ts (MinLS false) /\
  to_three_body_decay ts (MinLSPair true true) = to_three_body_decay ts (MinLS true).
Proof. exact (c66_pairs ts). Qed.
Print Assumptions C66_pairs.
Example C66_example : ready qx_reaction /\ forall t, In t qx_reaction -> initial_first t.
Proof. exact qx_reaction_ready. Qed.

(** ** C67, and the couplings of C65 for dictionaries in ascending order: node 0 is the production, node 1 the decay. *)
Theorem C67_decay_of_the_reaction ts :
  ready ts -> (forall t, In t ts -> initial_first t) ->
  exists d, to_three_body_decay ts (MinLS false) = Ok d /\ valid_decay d /\
  map fst (d_states d) = [0; 1; 2; 3] /\
  (forall t n s, In t ts -> (In (n, s) (d_states d) <->
     exists x, In x (edge_ids t) /\ ~ is_intermediate t x /\ n = rank t x /\ describes t x s)) /\
  StronglySorted clt (d_chains d) /\
  (forall c, In c (d_chains d) <-> exists t, In t ts /\ chain_of_raw t c).
Proof. exact (c67_decay ts). Qed.
Print Assumptions C67_decay_of_the_reaction.
Example C67_example : ready qx_reaction /\ forall t, In t qx_reaction -> initial_first t.
Proof. exact qx_reaction_ready. Qed.

(** ** C68 *)
Theorem C68_min_ls ts m d0 :
  ready ts -> (forall t, In t ts -> initial_first t) ->
  to_three_body_decay ts (MinLS false) = Ok d0 ->
  exists d, to_three_body_decay ts m = Ok d /\ minimal_selection (min_ls_nodes m) d0 d.
Proof. exact (c68_min_ls ts m d0). Qed.
Print Assumptions C68_min_ls.
Example C68_example : exists d0 d, to_three_body_decay qx_reaction (MinLS false) = Ok d0 /\
  to_three_body_decay qx_reaction (MinLS true) = Ok d /\ length (d_chains d0) = 4%nat /\ length (d_chains d) = 3%nat.
Proof.
  eexists _, _. split; [vm_compute; reflexivity|]. split; [vm_compute; reflexivity|]. split; reflexivity.
Qed.

(** ** C69: only the labels of the first transition are looked at. *)
Theorem C69_mixed_labels_refuted :
  exists t t' d, ready [t] /\ ready [t'] /\ initial_first t /\ initial_first t' /\
  to_three_body_decay [t; t'] (MinLS false) = Ok d /\ to_three_body_decay [t'; t] (MinLS false) = Err ValueError.
Proof. exact c69_refuted. Qed.
Print Assumptions C69_mixed_labels_refuted.
