(** Properties C05-C10: decay chains and decays. *)
From Coq Require Import String ZArith QArith Qcanon List Bool Lia Sorted Permutation.
From Verif Require Import Prelude Spin Decay SpinFacts DecayFacts DecayProofs.
Import ListNotations.
Local Open Scope string_scope.
Local Open Scope Z_scope.
Local Open Scope list_scope.

(** ** C05 *)
(** Accepted exactly if a three-body chain with distinct IDs; the object is
    unchanged by construction. *)
Theorem C05_chain_accepted_iff : forall t,
  (exists c, mk_chain t = Ok c) <->
  exists s0 R s1 s2 s, is_three_body_chain t s0 R s1 s2 s /\ distinct_ids [s0; s1; s2; s].
Proof. exact chain_accepted_iff_aux. Qed.
Print Assumptions C05_chain_accepted_iff.

Theorem C05_chain_accessors : forall t s0 R s1 s2 s,
  is_three_body_chain t s0 R s1 s2 s -> distinct_ids [s0; s1; s2; s] ->
  ch_parent t = s0 /\ ch_resonance t = pobj_particle R /\ ch_spectator t = s /\
  ch_decay_products t = (s1, s2) /\
  StronglySorted (fun a b => st_index a < st_index b) (ch_final_state t) /\
  Permutation (ch_final_state t) [s1; s2; s].
Proof. exact chain_accessors_aux. Qed.
Print Assumptions C05_chain_accessors.

Theorem C05_chain_ls_couplings : forall s0 R d1 d2 s incoming outgoing t,
  (t = Node (PSt s0) (Node R d1 d2 outgoing) (Leaf (PSt s)) incoming \/
   t = Node (PSt s0) (Leaf (PSt s)) (Node R d1 d2 outgoing) incoming) ->
  ch_incoming_ls t = incoming /\ ch_outgoing_ls t = outgoing /\
  ch_decay_node t = Node R d1 d2 outgoing.
Proof. exact chain_ls_aux. Qed.
Print Assumptions C05_chain_ls_couplings.

Example C05_example :
  is_three_body_chain ex_chain (ex_s "Lc" 1 0) (PPart (ex_p "L(1405)" 1))
    (ex_s "K" 0 3) (ex_s "p" 1 1) (ex_s "pi" 0 2) /\
  distinct_ids [ex_s "Lc" 1 0; ex_s "K" 0 3; ex_s "p" 1 1; ex_s "pi" 0 2] /\
  mk_chain ex_chain = Ok ex_chain /\
  map st_index (ch_final_state ex_chain) = [1; 2; 3].
Proof.
  split; [|split; [|split]].
  - unfold is_three_body_chain. exists (Leaf (PSt (ex_s "K" 0 3))), (Leaf (PSt (ex_s "p" 1 1))).
    repeat eexists; [right; reflexivity|left; reflexivity|left; reflexivity].
  - repeat constructor; simpl; intuition discriminate.
  - reflexivity.
  - reflexivity.
Qed.

Theorem C05_chain_rejections : forall t e, mk_chain t = Err e ->
  (* not an IsobarNode *)
  (e = TypeError /\ (exists o, t = Leaf o)) \/
  (* no resonance child or no State child *)
  (e = ValueError /\ exists p c1 c2 i, t = Node p c1 c2 i /\
     ~ (exists R d1 d2 j s, (c1 = Node R d1 d2 j /\ c2 = Leaf (PSt s)) \/
                            (c2 = Node R d1 d2 j /\ c1 = Leaf (PSt s)))) \/
  (* a decay product without index *)
  (e = AttributeError /\ exists p c1 c2 i R d1 d2 j s q, t = Node p c1 c2 i /\
     ((c1 = Node R d1 d2 j /\ c2 = Leaf (PSt s)) \/ (c2 = Node R d1 d2 j /\ c1 = Leaf (PSt s))) /\
     (child_is d1 (PPart q) \/ child_is d2 (PPart q))) \/
  (* an initial state without index *)
  (e = TypeError /\ exists p c1 c2 i, t = Node (PPart p) c1 c2 i /\ is_ok (final_state_r t)) \/
  (* duplicate IDs *)
  (e = ValueError /\ exists s0 R s1 s2 s,
     is_three_body_chain t s0 R s1 s2 s /\ ~ distinct_ids [s0; s1; s2; s]).
Proof. exact chain_reject_aux. Qed.
Print Assumptions C05_chain_rejections.

Theorem C06_non_state_decay_product_refuted :
  exists s0 R o1 s2 s3 e,
    mk_chain (Node (PSt s0) (Node R (Leaf (PPart o1)) (Leaf (PSt s2)) None) (Leaf (PSt s3)) None)
      = Err e /\ e <> TypeError.
Proof. exact C06_refuted_aux. Qed.
Print Assumptions C06_non_state_decay_product_refuted.

Theorem C06_non_state_decay_product_error : forall t p c1 c2 i R d1 d2 j s q,
  t = Node p c1 c2 i ->
  ((c1 = Node R d1 d2 j /\ c2 = Leaf (PSt s)) \/ (c2 = Node R d1 d2 j /\ c1 = Leaf (PSt s))) ->
  (child_is d1 (PPart q) \/ child_is d2 (PPart q)) ->
  mk_chain t = Err AttributeError.
Proof. exact C06_attr_aux. Qed.
Print Assumptions C06_non_state_decay_product_error.

Theorem C06_non_state_initial_state_partial : forall p R d1 d2 i j s s1 s2,
  child_is d1 (PSt s1) -> child_is d2 (PSt s2) ->
  mk_chain (Node (PPart p) (Node R d1 d2 j) (Leaf (PSt s)) i) = Err TypeError /\
  mk_chain (Node (PPart p) (Leaf (PSt s)) (Node R d1 d2 j) i) = Err TypeError.
Proof. exact C06_initial_aux. Qed.
Print Assumptions C06_non_state_initial_state_partial.
Example C06_example : mk_chain ex_bad_chain = Err AttributeError.
Proof. reflexivity. Qed.

Theorem C07_decay_accepted_iff : forall states chains,
  (is_ok (mk_decay states chains) <->
   exists s0, dget 0 states = Some s0 /\
     forall c, In c chains -> ch_parent c = s0 /\
       forall s, (s = ch_spectator c \/ s = fst (ch_decay_products c) \/
                  s = snd (ch_decay_products c)) <-> final_state_of states s) /\
  (forall d, mk_decay states chains = Ok d -> d = Decay states chains) /\
  (forall e, mk_decay states chains = Err e ->
     (e = KeyError /\ dget 0 states = None) \/ (e = ValueError /\ dget 0 states <> None)).
Proof. exact C07_aux. Qed.
Print Assumptions C07_decay_accepted_iff.

Theorem C07_chain_states_found : forall d c s, valid_decay d -> In c (d_chains d) ->
  (s = ch_spectator c \/ s = fst (ch_decay_products c) \/ s = snd (ch_decay_products c)) ->
  dgetitem (st_index s) (final_states d) = Ok s.
Proof. exact C07_lookup_aux. Qed.
Print Assumptions C07_chain_states_found.

Example C07_example : valid_decay ex_decay /\
  mk_decay (firstn 3 ex_states) [ex_chain] = Err ValueError.
Proof.
  split; [|reflexivity]. split; [|reflexivity].
  repeat constructor.
Qed.

(** [get_subsystem] never fails on a valid decay, keeps exactly the chains with that
    spectator in order, is idempotent, warns iff empty; the subsystems of any set of
    IDs that contains all spectators partition the chains. *)
Theorem C08_subsystems_partition : forall d, valid_decay d ->
  (forall k, exists sub, fst (get_subsystem d k) = Ok sub /\
     valid_decay sub /\ d_states sub = d_states d /\
     d_chains sub = filter (fun c => st_index (ch_spectator c) =? k) (d_chains d) /\
     fst (get_subsystem sub k) = Ok sub /\
     (snd (get_subsystem d k) = true <->
        forall c, In c (d_chains d) -> st_index (ch_spectator c) <> k)) /\
  (forall ids, NoDup ids ->
     (forall c, In c (d_chains d) -> In (st_index (ch_spectator c)) ids) ->
     Permutation (d_chains d)
       (flat_map (fun k => match fst (get_subsystem d k) with
                           | Ok sub => d_chains sub | Err _ => [] end) ids)).
Proof. exact C08_aux. Qed.
Print Assumptions C08_subsystems_partition.

Theorem C08_subsystem_ids : forall d, NoDup (get_subsystem_ids d) /\
  forall k, In k (get_subsystem_ids d) <->
    exists c, In c (d_chains d) /\ st_index (ch_spectator c) = k.
Proof. exact C08_ids_aux. Qed.
Print Assumptions C08_subsystem_ids.

Example C08_example : valid_decay ex_decay /\
  get_subsystem_ids ex_decay = [2; 3] /\
  get_subsystem ex_decay 3 = (Ok (Decay ex_states [ex_chain2]), false) /\
  get_subsystem ex_decay 1 = (Ok (Decay ex_states []), true).
Proof.
  split; [apply C07_example|]. repeat split; reflexivity.
Qed.

Theorem C09_find_chain : forall d name,
  (forall c, find_chain d name = Ok c <->
     exists l1 l2, d_chains d = l1 ++ c :: l2 /\ p_name (ch_resonance c) = name /\
       forall c', In c' l1 -> p_name (ch_resonance c') <> name) /\
  (forall e, find_chain d name = Err e <->
     e = KeyError /\ forall c, In c (d_chains d) -> p_name (ch_resonance c) <> name).
Proof. exact C09_aux. Qed.
Print Assumptions C09_find_chain.
Example C09_example : find_chain ex_decay "D(1232)" = Ok ex_chain2 /\
  find_chain ex_decay "K*" = Err KeyError.
Proof. split; reflexivity. Qed.

Theorem C10_get_decay_product_ids : forall k,
  (forall i j, get_decay_product_ids k = Ok (i, j) <-> cyclic k i j) /\
  (forall e, get_decay_product_ids k = Err e <-> e = ValueError /\ ~ (1 <= k <= 3)).
Proof. exact C10_aux. Qed.
Print Assumptions C10_get_decay_product_ids.
