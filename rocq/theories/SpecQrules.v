(** Specification vocabulary for the QRules adapter (C41-C49): what a three-body isobar
    transition is, read from its graph, and the relations between transitions the
    properties speak about.  Nothing here uses the functions of the adapter. *)
From Coq Require Import String ZArith QArith Qcanon List Bool Sorted Permutation.
From Verif Require Import Prelude Spin Decay Qrules.
Import ListNotations.
Local Open Scope string_scope.
Local Open Scope Z_scope.
Local Open Scope list_scope.

(** ** Graphs *)
Definition ascending (l : list Z) : Prop := StronglySorted Z.lt l.

(** The edge IDs, the edge, the state and the coupling with a given ID *)
Definition edge_ids {E N} (t : transition E N) : list Z := map fst (t_edges (tr_topology t)).
Definition edge_of {E N} (t : transition E N) (i : Z) : option edge := dget i (t_edges (tr_topology t)).
Definition state_of {E N} (t : transition E N) (i : Z) : option E := dget i (tr_states t).
Definition coupling_of {E N} (t : transition E N) (n : Z) : option N := dget n (tr_interactions t).

(** A transition: every edge ID occurs once and carries a state.  This is what the constructor
    of [FrozenTransition] checks. *)
Definition is_transition {E N} (t : transition E N) : Prop :=
  NoDup (edge_ids t) /\ NoDup (map fst (tr_states t)) /\
  (forall i, In i (map fst (tr_states t)) <-> In i (edge_ids t)).

(** Roles of an edge *)
Definition is_initial {E N} (t : transition E N) (i : Z) : Prop :=
  exists e, edge_of t i = Some e /\ e_orig e = None.
Definition is_final {E N} (t : transition E N) (i : Z) : Prop :=
  exists e, edge_of t i = Some e /\ e_end e = None.
Definition is_intermediate {E N} (t : transition E N) (i : Z) : Prop :=
  exists e m n, edge_of t i = Some e /\ e_orig e = Some m /\ e_end e = Some n.

(** An order-preserving renumbering of a list of IDs by 0, 1, ..., N-1 *)
Definition renumbering (f : Z -> Z) (ids : list Z) : Prop :=
  (forall i j, In i ids -> In j ids -> (i < j <-> f i < f j)) /\
  (forall n, (exists i, In i ids /\ f i = n) <-> 0 <= n < Z.of_nat (length ids)).

(** A dictionary with renamed keys *)
Definition rename_keys {V} (f : Z -> Z) (d : dict Z V) : dict Z V := map (fun kv => (f (fst kv), snd kv)) d.

(** No edge floats freely: it starts or ends at a node. *)
Definition anchored {E N} (t : transition E N) : Prop :=
  forall i e, edge_of t i = Some e -> e_orig e <> None \/ e_end e <> None.

(** Exchange of two edge IDs *)
Definition exchange (i j x : Z) : Z := if x =? i then j else if x =? j then i else x.
Definition edges_exchanged {E N} (i j : Z) (t u : transition E N) : Prop :=
  forall x, edge_of u x = edge_of t (exchange i j x).

(** The isobar graph of [p -> (r -> i j) k], production at node 0 and decay at node 1 *)
Definition isobar_graph (g : topology) (p k i j r : Z) : Prop :=
  t_nodes g = [0; 1] /\ i < j /\ NoDup [p; k; i; j; r] /\
  Permutation (t_edges g)
    [(p, Edge None (Some 0)); (k, Edge (Some 0) None); (r, Edge (Some 0) (Some 1));
     (i, Edge (Some 1) None); (j, Edge (Some 1) None)].

(** A three-body transition whose dictionaries are in ascending order of their keys *)
Definition three_body {E N} (t : transition E N) (p k i j r : Z) : Prop :=
  isobar_graph (tr_topology t) p k i j r /\
  ascending (edge_ids t) /\
  map fst (tr_states t) = edge_ids t /\
  map fst (tr_interactions t) = [0; 1].

Definition is_three_body {E N} (t : transition E N) : Prop := exists p k i j r, three_body t p k i j r.
Definition spectator_is {E N} (t : transition E N) (x : Z) : Prop := exists p i j r, three_body t p x i j r.

(** Three-body transitions with the same edge IDs and the same initial and final states:
    they differ in the subsystem, the resonance and the couplings only. *)
Definition same_process {E N} (t t' : transition E N) : Prop :=
  exists p r, (exists k i j, three_body t p k i j r) /\ (exists k i j, three_body t' p k i j r) /\
  edge_ids t = edge_ids t' /\
  forall x, x <> r -> state_of t x = state_of t' x.

(** ** Minimal couplings *)
(** Same resonance in the same subsystem, same couplings at the nodes that are not filtered *)
Definition same_group {E M} (node_ids : list Z) (t t' : transition E (option M)) : Prop :=
  exists p k i j r p' k' i' j' r',
    three_body t p k i j r /\ three_body t' p' k' i' j' r' /\
    i = i' /\ j = j' /\ state_of t r = state_of t' r' /\
    (forall n, ~ In n node_ids -> coupling_of t n = coupling_of t' n).

(** [c] is the least of the couplings [cs]; a missing coupling is less than all others. *)
Definition least_coupling {M} `{Cmp M} (cs : option M -> Prop) (c : option M) : Prop :=
  cs c /\ match c with
          | None => True
          | Some m => forall c', cs c' -> exists m', c' = Some m' /\ (cmp m m' = Ok Lt \/ m = m')
          end.

(** The couplings found at node [n] in the group of [t] among the transitions [ts] *)
Definition coupling_in_group {E M} (node_ids : list Z) (ts : list (transition E (option M)))
    (t : transition E (option M)) (n : Z) (c : option M) : Prop :=
  exists t', In t' ts /\ same_group node_ids t t' /\ coupling_of t' n = Some c.

(** [u] is the representative of the group of [t]. *)
Definition minimal_of {E M} `{Cmp M} (node_ids : list Z) (ts : list (transition E (option M)))
    (t u : transition E (option M)) : Prop :=
  same_group node_ids t u /\
  forall n, In n [0; 1] -> In n node_ids ->
    exists c, coupling_of u n = Some c /\ least_coupling (coupling_in_group node_ids ts t n) c.

(** A node carries a coupling in all transitions or in none of them: the reaction was generated
    in one formalism. *)
Definition uniform_couplings {E M} (ts : list (transition E (option M))) : Prop :=
  forall t t' n c c', In t ts -> In t' ts -> coupling_of t n = Some c -> coupling_of t' n = Some c' ->
  (c = None <-> c' = None).
(** What a couplings filter at the nodes [node_ids] needs: some node is filtered or the
    couplings are uniform. *)
Definition unambiguous {E M} (node_ids : list Z) (ts : list (transition E (option M))) : Prop :=
  In 0 node_ids \/ In 1 node_ids \/ uniform_couplings ts.
(** The nodes a filter acts on; both by default *)
Definition filtered_nodes (node_ids : option (list Z)) : list Z :=
  match node_ids with None => [0; 1] | Some s => s end.
(** In each group the couplings of the two nodes occur in all combinations. *)
Definition independent_couplings {E M} (node_ids : list Z) (ts : list (transition E (option M))) : Prop :=
  forall t t', In t ts -> In t' ts -> same_group node_ids t t' ->
  exists t'', In t'' ts /\ same_group node_ids t t'' /\
    coupling_of t'' 0 = coupling_of t 0 /\ coupling_of t'' 1 = coupling_of t' 1.

(** ** Conversion *)
(** The [Particle] with the same attributes; the LaTeX of a nameless QRules particle is its name. *)
Definition converts_q (q : qparticle) (p : particle) : Prop :=
  p_name p = q_name q /\
  p_latex p = match q_latex q with Some l => l | None => q_name q end /\
  (Qc_of_Z (p_spin p) = Qc_of_Z 2 * q_spin q)%Qc /\
  p_parity p = q_parity q /\ p_parity p <> None /\
  p_mass p = q_mass q /\ p_width p = q_width q.
Definition converts_particle (o : edge_obj) (p : particle) : Prop :=
  match o with
  | EQState q _ | EQParticle q => converts_q q p
  | EParticle p' => p = p' /\ p_parity p' <> None
  | EState s => p = st_particle s /\ p_parity p <> None
  | EOther => False
  end.
(** The index of a converted outer state: its edge ID, unless the object carries an index. *)
Definition converts_index (o : edge_obj) (i n : Z) : Prop :=
  n = match o with EState s => st_index s | _ => i end.
Definition converts_coupling (n : node_obj) (c : option ls_coupling) : Prop :=
  match n with
  | NNone => c = None
  | NLS c' => c = Some c'
  | NProps (Some l) (Some s) =>
      exists S, c = Some (LS l S) /\ (Qc_of_Z S = Qc_of_Z 2 * s)%Qc
  | NProps _ _ => c = None
  | NOther => False
  end.
(** [u] is the conversion of [t]. *)
Definition converts (t : raw_transition) (u : dpd_transition) : Prop :=
  tr_topology u = tr_topology t /\
  map fst (tr_states u) = map fst (tr_states t) /\
  map fst (tr_interactions u) = map fst (tr_interactions t) /\
  (forall i o, In (i, o) (tr_states t) -> is_intermediate t i ->
     exists p, converts_particle o p /\ In (i, PPart p) (tr_states u)) /\
  (forall i o, In (i, o) (tr_states t) -> ~ is_intermediate t i ->
     exists s, converts_particle o (st_particle s) /\ converts_index o i (st_index s) /\
               In (i, PSt s) (tr_states u)) /\
  (forall n o, In (n, o) (tr_interactions t) ->
     exists c, converts_coupling o c /\ In (n, c) (tr_interactions u)).

(** Half-integer spin and defined parity: what the data model of a decay needs. *)
Definition half_integer (q : Qc) : Prop := exists n, (Qc_of_Z 2 * q = Qc_of_Z n)%Qc.
Definition convertible_edge (o : edge_obj) : Prop :=
  match o with
  | EQState q _ | EQParticle q => half_integer (q_spin q) /\ q_parity q <> None
  | EParticle p => p_parity p <> None
  | EState s => p_parity (st_particle s) <> None
  | EOther => False
  end.
Definition convertible_node (o : node_obj) : Prop :=
  match o with
  | NProps (Some _) (Some s) => half_integer s
  | NOther => False
  | _ => True
  end.
Definition convertible (t : raw_transition) : Prop :=
  (forall i o, In (i, o) (tr_states t) -> convertible_edge o) /\
  (forall n o, In (n, o) (tr_interactions t) -> convertible_node o).

(** An object without parity *)
Definition lacks_parity (o : edge_obj) : Prop :=
  match o with
  | EQState q _ | EQParticle q => q_parity q = None
  | EParticle p => p_parity p = None
  | EState s => p_parity (st_particle s) = None
  | EOther => False
  end.

(** ** Chains *)
(** The chain described by a converted three-body transition *)
Definition chain_of_transition (u : dpd_transition) (c : chain) : Prop :=
  exists p k i j r s0 sk si sj R prod dec,
    three_body u p k i j r /\
    state_of u p = Some (PSt s0) /\ state_of u k = Some (PSt sk) /\
    state_of u i = Some (PSt si) /\ state_of u j = Some (PSt sj) /\ state_of u r = Some (PPart R) /\
    coupling_of u 0 = Some prod /\ coupling_of u 1 = Some dec /\
    c = Node (PSt s0) (Node (PPart R) (Leaf (PSt si)) (Leaf (PSt sj)) dec) (Leaf (PSt sk)) prod.

(** QRules objects: nothing that already carries an index of this package *)
Definition without_index (o : edge_obj) : Prop := match o with EState _ => False | _ => True end.
Definition fresh (t : raw_transition) : Prop := forall i o, In (i, o) (tr_states t) -> without_index o.

(** The labels the decay model needs: initial state 0, final states 1, 2, 3 *)
Definition standard_labels {E N} (t : transition E N) : Prop :=
  (forall x, is_initial t x <-> x = 0) /\ (forall x, is_final t x <-> x = 1 \/ x = 2 \/ x = 3).

(** Raw three-body transitions of one reaction: the same edge IDs, initial and final states that
    stand for the same particles, and couplings at a node of all of them or of none of them. *)
Definition same_particle (o o' : edge_obj) : Prop :=
  exists q, converts_particle o q /\ converts_particle o' q.
Definition one_reaction (ts : list raw_transition) : Prop :=
  exists p r, (forall t, In t ts -> exists k i j, three_body t p k i j r) /\
  (forall t t', In t ts -> In t' ts -> edge_ids t = edge_ids t') /\
  (forall t t' x o o', In t ts -> In t' ts -> x <> r -> state_of t x = Some o -> state_of t' x = Some o' ->
     same_particle o o') /\
  (forall t t' n o o', In t ts -> In t' ts -> coupling_of t n = Some o -> coupling_of t' n = Some o' ->
     (converts_coupling o None <-> converts_coupling o' None)).
(** The edge ID of the resonance is larger than those of the outer states, as QRules numbers
    them. *)
Definition resonance_last {E N} (t : transition E N) : Prop :=
  forall p k i j r, three_body t p k i j r -> forall x, In x [p; k; i; j] -> x < r.
Definition initial_first {E N} (t : transition E N) : Prop :=
  forall p k i j r, three_body t p k i j r -> forall x, In x [k; i; j] -> p < x.
(** The label of an edge: the number of edge IDs below its own *)
Definition rank {E N} (t : transition E N) (x : Z) : Z :=
  Z.of_nat (length (filter (fun y => y <? x) (edge_ids t))).
(** The [State] for the outer edge [x] *)
Definition describes (t : raw_transition) (x : Z) (s : state) : Prop :=
  exists o, state_of t x = Some o /\ converts_particle o (st_particle s) /\ st_index s = rank t x.
(** The chain a raw transition stands for *)
Definition chain_of_raw (t : raw_transition) (c : chain) : Prop :=
  exists p k i j r s0 sk si sj oR R oprod odec prod dec,
    three_body t p k i j r /\
    describes t p s0 /\ describes t k sk /\ describes t i si /\ describes t j sj /\
    state_of t r = Some oR /\ converts_particle oR R /\
    coupling_of t 0 = Some oprod /\ converts_coupling oprod prod /\
    coupling_of t 1 = Some odec /\ converts_coupling odec dec /\
    c = Node (PSt s0) (Node (PPart R) (Leaf (PSt si)) (Leaf (PSt sj)) dec) (Leaf (PSt sk)) prod.

(** What the adapter needs of its input: three-body transitions of one reaction with half-integer
    spins, defined parities, no indices from an earlier conversion, and the resonance last. *)
Definition ready (ts : list raw_transition) : Prop :=
  ts <> [] /\ one_reaction ts /\
  (forall t, In t ts -> convertible t /\ fresh t /\ resonance_last t).

(** Two chains with the same resonance in the same subsystem, and with equal couplings at the nodes
    that are not in [ids]; 0 is the production node, 1 the decay node. *)
Definition chains_alike (ids : list Z) (c c' : chain) : Prop :=
  exists s0 R a b k prod dec prod' dec',
    c = Node s0 (Node R a b dec) k prod /\ c' = Node s0 (Node R a b dec') k prod' /\
    (~ In 0 ids -> prod = prod') /\ (~ In 1 ids -> dec = dec').
Definition coupling_at (n : Z) (c : chain) (x : option ls_coupling) : Prop :=
  exists s0 R a b k prod dec, c = Node s0 (Node R a b dec) k prod /\ (n = 0 /\ x = prod \/ n = 1 /\ x = dec).
(** The nodes the argument [min_ls] selects *)
Definition min_ls_nodes (m : min_ls_arg) : list Z :=
  match m with
  | MinLS b => if b then [0; 1] else []
  | MinLSPair p d => (if p then [0] else []) ++ (if d then [1] else [])
  end.
(** [d] keeps one chain of [d0] per resonance, subsystem and coupling at the unfiltered nodes; its
    couplings at the nodes [ids] are the least ones. *)
Definition minimal_selection (ids : list Z) (d0 d : decay) : Prop :=
  d_states d = d_states d0 /\
  (forall c0, In c0 (d_chains d0) -> exists c, In c (d_chains d) /\ chains_alike ids c0 c) /\
  (forall c, In c (d_chains d) -> exists c0, In c0 (d_chains d0) /\ chains_alike ids c c0) /\
  (forall c c', In c (d_chains d) -> In c' (d_chains d) -> chains_alike ids c c' -> c = c') /\
  (forall c n, In c (d_chains d) -> In n ids ->
     exists x, coupling_at n c x /\
       least_coupling (fun y => exists c0, In c0 (d_chains d0) /\ chains_alike ids c c0 /\ coupling_at n c0 y) x).
