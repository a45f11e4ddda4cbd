(** What holds instead of properties that the code refutes: C03, C19, C45, C65, C69.
    Specification vocabulary: SpecSpin.v, SpecQrules.v *)
From Coq Require Import String ZArith QArith Qcanon List Bool.
From Verif Require Import Prelude Spin SpecSpin Decay Expr Angles Qrules SpecQrules QrulesExamples PartialFacts.
Import ListNotations.
Local Open Scope string_scope.
Local Open Scope Z_scope.
Local Open Scope list_scope.

(** ** C03: the couplings conserve angular momentum exactly for the spins of physical vertices, and otherwise none of
    them does. (Missing: spin triples whose sum is not an integer are accepted.) *)
Theorem C03_ls_integrality_partial J s1 s2 max_L ls :
  is_half_integer J -> is_half_integer s1 -> is_half_integer s2 -> (0 <= s1)%Qc -> (0 <= s2)%Qc ->
  generate_ls_couplings J s1 s2 max_L = Ok ls ->
  forall L S, In (L, S) ls -> (couples_to (Qc_of_Z L) S J <-> is_integer (J + s1 + s2)).
Proof. exact (c03 J s1 s2 max_L ls). Qed.
Print Assumptions C03_ls_integrality_partial.
Example C03_example : is_half_integer (Q2Qc (3 # 2)) /\ is_half_integer (Q2Qc (1 # 2)) /\
  is_half_integer (Q2Qc (2 # 2)) /\
  (exists ls, generate_ls_couplings (Q2Qc (3 # 2)) (Q2Qc (1 # 2)) (Q2Qc (2 # 2)) 3 = Ok ls /\ length ls = 6%nat) /\
  exists ls, generate_ls_couplings (Q2Qc (3 # 2)) (Q2Qc (1 # 2)) (Q2Qc (1 # 2)) 3 = Ok ls /\ length ls = 2%nat.
Proof.
  split; [exists 3; reflexivity|]. split; [exists 1; reflexivity|]. split; [exists 2; reflexivity|].
  split; eexists; split; vm_compute; reflexivity.
Qed.

(** ** C19: which scattering angles are accepted. (Missing: the reversed ones are accepted, too.) *)
Theorem C19_accepted_partial i j :
  (exists r, formulate_scattering_angle i j = Ok r) <-> In i [1; 2; 3] /\ In j [1; 2; 3] /\ i <> j.
Proof. exact (c19_accepted i j). Qed.
Print Assumptions C19_accepted_partial.

(** ** C45: iterables that give the same items each time they are traversed (Missing: iterators.) *)
Theorem C45_repeatable_partial {E M} `{EqDec E} `{EqDec M} `{Cmp M} (it : nat -> list (transition E (option M))) ts ids :
  it 0%nat = ts -> it 1%nat = ts -> it 2%nat = ts -> filter_min_ls it ids = filter_min_ls (reiterable ts) ids.
Proof. exact (c45_partial it ts ids). Qed.
Print Assumptions C45_repeatable_partial.

(** ** C65: if the items of [interactions] are in ascending order, node 0 is the production and node 1 the decay ... *)
Theorem C65_ascending_partial ts : ready ts -> (forall t, In t ts -> initial_first t) ->
  exists d, to_three_body_decay ts (MinLS false) = Ok d /\
  forall c, In c (d_chains d) -> exists t prod dec, In t ts /\ chain_of_raw t c /\
    coupling_of t 0 = Some prod /\ converts_coupling prod (ch_incoming_ls c) /\
    coupling_of t 1 = Some dec /\ converts_coupling dec (ch_outgoing_ls c).
Proof. exact (c65_ascending ts). Qed.
Print Assumptions C65_ascending_partial.
Example C65_example : ready qx_reaction /\ forall t, In t qx_reaction -> initial_first t.
Proof. exact qx_reaction_ready. Qed.

(** ... and otherwise the item that was inserted first counts as the production, whatever its node. *)
Theorem C65_insertion_order_partial (t t' : raw_transition) : is_transition t ->
  tr_topology t = tr_topology t' -> tr_states t = tr_states t' ->
  map snd (tr_interactions t) = map snd (tr_interactions t') ->
  to_three_body_decay [t'] (MinLS false) = to_three_body_decay [t] (MinLS false).
Proof. exact (c65_values t t'). Qed.
Print Assumptions C65_insertion_order_partial.

(** ** C69: the order of the transitions does not matter as long as the first one carries the labels 0 to 3 in both
    orders, or in none of them. (Missing: all other orders.) *)
Theorem C69_first_labels_partial (t0 : raw_transition) (ts : list raw_transition) (t0' : raw_transition)
  (ts' : list raw_transition) m d :
  (forall t, In t (t0 :: ts) -> is_transition t) ->
  (forall t, In t (t0 :: ts) <-> In t (t0' :: ts')) -> (standard_labels t0 <-> standard_labels t0') ->
  to_three_body_decay (t0 :: ts) m = Ok d -> to_three_body_decay (t0' :: ts') m = Ok d.
Proof. exact (c69_partial t0 ts t0' ts' m d). Qed.
Print Assumptions C69_first_labels_partial.
Example C69_example : (forall t, In t qx_reaction -> is_transition t) /\
  exists d, to_three_body_decay qx_reaction (MinLS true) = Ok d /\ length (d_chains d) = 3%nat.
Proof.
  split; [intros t I; apply (qx_reaction_transitions t I)|]. eexists. split; [vm_compute; reflexivity|]. reflexivity.
Qed.
