(** Model of /repo/src/ampform_dpd/adapter/qrules.py

    The classes [Topology], [Edge], [FrozenDict], [FrozenTransition], [ReactionInfo]
    and the methods used on them belong to the external package qrules 0.10.6; they are
    modelled after their documented behaviour.  A [FrozenDict] is an insertion-ordered
    dictionary.  Python compares and hashes it as a mapping, while the model compares the
    list of items: the two agree on dictionaries whose keys are in ascending order, which
    is the hypothesis of the theorems that depend on it. *)
From Coq Require Import String ZArith QArith Qcanon List Bool.
From Verif Require Import Prelude Spin Decay.
Import ListNotations.
Local Open Scope string_scope.
Local Open Scope Z_scope.
Local Open Scope list_scope.

(** ** qrules.topology *)
(** [Edge(originating_node_id, ending_node_id)] *)
(** Library qrules (qrules.topology), used at adapter/qrules.py:248. *)
Record edge := Edge { e_orig : option Z; e_end : option Z }.
(** [Topology(nodes, edges)]; [nodes] is a frozenset, here the ascending list of its elements. *)
(** Library qrules (qrules.topology), used at adapter/qrules.py:91-95, 310-313. *)
Record topology := Topology { t_nodes : list Z; t_edges : dict Z edge }.
(** [FrozenTransition(topology, states, interactions)] *)
(** Library qrules (qrules.topology), used at adapter/qrules.py:122-134. *)
Record transition (E N : Type) := Transition {
  tr_topology : topology;
  tr_states : dict Z E;
  tr_interactions : dict Z N;
}.
Arguments Transition {E N}. Arguments tr_topology {E N}. Arguments tr_states {E N}.
Arguments tr_interactions {E N}.

Global Instance EqDec_edge : EqDec edge.
Proof. unfold EqDec; decide equality; apply eq_dec. Defined.
Global Instance EqDec_topology : EqDec topology.
Proof. unfold EqDec; decide equality; apply eq_dec. Defined.
Global Instance EqDec_transition {E N} `{EqDec E} `{EqDec N} : EqDec (transition E N).
Proof. unfold EqDec; decide equality; apply eq_dec. Defined.

(** Tuples of any length: lexicographic. *)
(** Python order of tuples; used for the order of topologies and transitions (adapter/qrules.py:116, 383). *)
Fixpoint cmp_list {A} `{Cmp A} (l l' : list A) : res comparison :=
  match l, l' with
  | [], [] => Ok Eq
  | [], _ => Ok Lt
  | _, [] => Ok Gt
  | a :: l, b :: l' => cmp_then (cmp a b) (cmp_list l l')
  end.
Global Instance Cmp_list {A} `{Cmp A} : Cmp (list A) := cmp_list.
(** attrs' [order=True] on [Edge] and [Topology]; [FrozenDict]s are compared as sorted tuples
    of items.  Two different node sets are compared as frozensets by Python and as lists here. *)
Global Instance Cmp_edge : Cmp edge := cmp_via (fun e => (e_orig e, e_end e)).
Global Instance Cmp_topology : Cmp topology := fun a b =>
  cmp_then (cmp (t_nodes a) (t_nodes b)) (cmp (t_edges a) (t_edges b)).
Global Instance Cmp_transition {E N} `{Cmp E} `{Cmp N} : Cmp (transition E N) := fun a b =>
  cmp_then (cmp (tr_topology a) (tr_topology b))
    (cmp_then (cmp (tr_states a) (tr_states b)) (cmp (tr_interactions a) (tr_interactions b))).

(** [sorted] on integers never raises. *)
(** Python [sorted], e.g. adapter/qrules.py:93-95, 252. *)
Definition zsort (l : list Z) : list Z := get_or [] (sorted l).

(** [Topology.incoming_edge_ids], [outgoing_edge_ids], [intermediate_edge_ids]: frozensets of
    small integers, which CPython iterates in ascending order. *)
Definition is_none {A} (o : option A) : bool := match o with None => true | Some _ => false end.
(** Library qrules: the comprehension shared by the properties of [Topology] below. *)
Definition ids_where (p : edge -> bool) (t : topology) : list Z :=
  zsort (dkeys (filter (fun ke => p (snd ke)) (t_edges t))).
(** Library qrules, [Topology.incoming_edge_ids], through [initial_states] at adapter/qrules.py:47. *)
Definition incoming_edge_ids := ids_where (fun e => is_none (e_orig e)).
(** Library qrules, [Topology.outgoing_edge_ids], through [final_states] at adapter/qrules.py:48. *)
Definition outgoing_edge_ids := ids_where (fun e => is_none (e_end e)).
(** Library qrules, [Topology.intermediate_edge_ids], through [intermediate_states] at adapter/qrules.py:126, 201. *)
Definition intermediate_edge_ids :=
  ids_where (fun e => negb (is_none (e_orig e)) && negb (is_none (e_end e))).
(** [Topology.get_edge_ids_outgoing_from_node], [get_edge_ids_ingoing_to_node] *)
(** Library qrules, used at adapter/qrules.py:93-94. *)
Definition outgoing_from (n : Z) := ids_where (fun e => eqb (e_orig e) (Some n)).
(** Library qrules, used at adapter/qrules.py:95. *)
Definition ingoing_to (n : Z) := ids_where (fun e => eqb (e_end e) (Some n)).

(** [Topology.get_originating_final_state_edge_ids]: breadth-first descent.  The fuel is the
    number of edges, enough for every acyclic topology. *)
(** Library qrules, used at adapter/qrules.py:252. *)
Fixpoint final_below (fuel : nat) (t : topology) (todo acc : list Z) : res (list Z) :=
  match todo with
  | [] => Ok acc
  | _ =>
      match fuel with
      | O => Err OutOfFuel
      | S fuel =>
          let fs := filter (fun i => memb i (outgoing_edge_ids t)) todo in
          let* next := mapM (fun i =>
             let* e := dgetitem i (t_edges t) in
             match e_end e with Some n => Ok (outgoing_from n t) | None => Err ValueError end)
             (filter (fun i => negb (memb i (outgoing_edge_ids t))) todo) in
          final_below fuel t (to_set (concat next)) (acc ++ fs)
      end
  end.
(** Library qrules, [Topology.get_originating_final_state_edge_ids], used at adapter/qrules.py:252. *)
Definition originating_final_state_edge_ids (t : topology) (n : Z) : res (list Z) :=
  final_below (length (t_edges t)) t (outgoing_from n t) [].

(** The items of a dictionary in ascending order of their keys.  The insertion order of
    [Topology.edges] cannot be observed: it is only read through sets and lookups. *)
(** Library qrules: order of the items of [Topology.edges], see adapter/qrules.py:310-313, 380. *)
Definition canonical {V} (d : dict Z V) : dict Z V :=
  flat_map (fun k => match dget k d with Some v => [(k, v)] | None => [] end) (zsort (dkeys d)).
(** [Topology.relabel_edges]: [{mapping.get(i, i): edge for i, edge in edges.items()}] *)
(** Library qrules, used at adapter/qrules.py:313. *)
Definition relabel_edges (mapping : dict Z Z) (t : topology) : topology :=
  Topology (t_nodes t)
    (canonical (dict_of
      (map (fun ke => (match dget (fst ke) mapping with Some j => j | None => fst ke end, snd ke))
        (t_edges t)))).
(** [Topology.swap_edges] *)
(** Library qrules, used at adapter/qrules.py:380. *)
Definition swap_edges (i j : Z) (t : topology) : topology :=
  relabel_edges (dict_of [(i, j); (j, i)]) t.

(** [Transition.initial_states], [final_states], [intermediate_states] *)
(** Library qrules: the comprehension shared by the three properties below. *)
Definition filter_states {E N} (ids : list Z) (t : transition E N) : res (dict Z E) :=
  mapM (fun i => let* s := dgetitem i (tr_states t) in Ok (i, s)) ids.
(** Library qrules, [Transition.initial_states], used at adapter/qrules.py:47, 65, 82. *)
Definition initial_states {E N} (t : transition E N) :=
  filter_states (incoming_edge_ids (tr_topology t)) t.
(** Library qrules, [Transition.final_states], used at adapter/qrules.py:48, 70, 85, 394. *)
Definition tr_final_states {E N} (t : transition E N) :=
  filter_states (outgoing_edge_ids (tr_topology t)) t.
(** Library qrules, [Transition.intermediate_states], used at adapter/qrules.py:126, 201, 215. *)
Definition intermediate_states {E N} (t : transition E N) :=
  filter_states (intermediate_edge_ids (tr_topology t)) t.

(** ** Objects found on the edges and nodes of a transition *)
(** [qrules.particle.Particle]; the remaining quantum numbers do not enter the adapter. *)
(** Library qrules, used at adapter/qrules.py:137-149. *)
Record qparticle := QParticle {
  q_name : string;
  q_latex : option string;
  q_spin : Qc;
  q_parity : option Z;
  q_mass : Qc;
  q_width : Qc;
}.
(** adapter/qrules.py:140, 153-160, 404-406: the classes distinguished by [isinstance]. *)
Inductive edge_obj :=
| EQState (p : qparticle) (projection : Qc)   (* qrules.transition.State *)
| EQParticle (p : qparticle)                  (* qrules.particle.Particle *)
| EParticle (p : particle)                    (* ampform_dpd.decay.Particle *)
| EState (s : state)                          (* ampform_dpd.decay.State *)
| EOther.
(** adapter/qrules.py:174-187: the values distinguished by [_to_ls_coupling]. *)
Inductive node_obj :=
| NNone
| NLS (c : ls_coupling)                       (* ampform_dpd.decay.LSCoupling *)
| NProps (l : option Z) (s : option Qc)       (* qrules InteractionProperties *)
| NOther.
(** adapter/qrules.py:113, 120: [FrozenTransition] as given. *)
Definition raw_transition := transition edge_obj node_obj.
(** adapter/qrules.py:114, 121: [FrozenTransition[Particle | State, LSCoupling | None]]. *)
Definition dpd_transition := transition pobj (option ls_coupling).

(** [int(parity)]: [int(None)] raises. *)
(** adapter/qrules.py:146, 167. *)
Definition int_parity (p : option Z) : res (option Z) :=
  match p with Some z => Ok (Some z) | None => Err TypeError end.
(** The part common to qrules.py:142-149 and 163-171; [latex] falls back to [name]. *)
Definition copy_qparticle (p : qparticle) : res particle :=
  let* par := int_parity (q_parity p) in
  mk_particle (q_name p) (match q_latex p with None => q_name p | Some l => l end)
    (q_spin p) par (q_mass p) (q_width p).
(** The same for an object that already is an [ampform_dpd.decay.Particle]: its spin passed the
    validator before. *)
(** adapter/qrules.py:163-171 for such an object. *)
Definition copy_particle (p : particle) : res particle :=
  let* par := int_parity (p_parity p) in
  Ok (Particle (p_name p) (p_latex p) (p_spin p) par (p_mass p) (p_width p)).

(** qrules.py:137-149 [_to_particle] *)
Definition q_to_particle (o : edge_obj) : res particle :=
  match o with
  | EQState p _ | EQParticle p => copy_qparticle p
  | EParticle p => copy_particle p
  | EState s => copy_particle (st_particle s)
  | EOther => Err AttributeError
  end.

(** qrules.py:152-171 [_to_state] *)
Definition q_to_state (o : edge_obj) (index : option Z) : res state :=
  let index := match o with EState s => Some (st_index s) | _ => index end in
  match index with
  | None => Err ValueError
  | Some i =>
      match o with
      | EQState p _ | EQParticle p => let* q := copy_qparticle p in Ok (State q i)
      | EParticle p => let* q := copy_particle p in Ok (State q i)
      | EState s => let* q := copy_particle (st_particle s) in Ok (State q i)
      | EOther => Err NotImplementedErr
      end
  end.

(** qrules.py:174-187 [_to_ls_coupling] *)
Definition to_ls_coupling (n : node_obj) : res (option ls_coupling) :=
  match n with
  | NNone => Ok None
  | NLS c => Ok (Some c)
  | NProps (Some l) (Some s) => let* c := mk_ls l s in Ok (Some c)
  | NProps _ _ => Ok None
  | NOther => Err NotImplementedErr
  end.

(** qrules.py:119-134 [_convert_transition] *)
Definition convert_transition (t : raw_transition) : res dpd_transition :=
  let* states := mapM (fun ks =>
      let* inter := intermediate_states t in
      if memb (fst ks) (dkeys inter)
      then let* p := q_to_particle (snd ks) in Ok (fst ks, PPart p)
      else let* s := q_to_state (snd ks) (Some (fst ks)) in Ok (fst ks, PSt s))
    (tr_states t) in
  let* inter := mapM (fun kn => let* c := to_ls_coupling (snd kn) in Ok (fst kn, c))
    (tr_interactions t) in
  Ok (Transition (tr_topology t) states inter).

(** qrules.py:112-116 [convert_transitions] *)
Definition convert_transitions (ts : list raw_transition) : res (list dpd_transition) :=
  let* us := mapM convert_transition ts in
  sorted (to_set us).

(** A converted transition as an argument: Python values carry their class with them. *)
Definition edge_of_pobj (o : pobj) : edge_obj :=
  match o with PPart p => EParticle p | PSt s => EState s end.
(** adapter/qrules.py:132, 177-178: a converted node as input of a further conversion. *)
Definition node_of_ls (o : option ls_coupling) : node_obj :=
  match o with None => NNone | Some c => NLS c end.
(** adapter/qrules.py:114: a converted transition as input of a further conversion. *)
Definition as_raw (t : dpd_transition) : raw_transition :=
  Transition (tr_topology t)
    (map (fun ks => (fst ks, edge_of_pobj (snd ks))) (tr_states t))
    (map (fun kn => (fst kn, node_of_ls (snd kn))) (tr_interactions t)).

(** ** Minimal couplings *)
Section Filter.
  Context {E M : Type} `{EqDec E} `{EqDec M} `{Cmp M}.
  Local Notation trans := (transition E (option M)).

  (** qrules.py:247-252 [_get_decay_product_ids] *)
  Definition decay_product_ids (t : topology) (resonance_id : Z) : res (list Z) :=
    let* e := dgetitem resonance_id (t_edges t) in
    match e_end e with
    | None => Err ValueError
    | Some n => let* l := originating_final_state_edge_ids t n in Ok (zsort l)
    end.

  (** qrules.py:214-224: the grouping key.  An attrs object is always true, so [if node and ...]
      drops the nodes that are [None]. *)
  Definition group_key (node_ids : list Z) (t : trans) : res (E * list Z * list M) :=
    let* inter := intermediate_states t in
    match inter with
    | [] => Err ValueError
    | (rid, r) :: _ =>
        let* ids := decay_product_ids (tr_topology t) rid in
        Ok (r, ids, flat_map (fun kn => match snd kn with
              | Some m => if memb (fst kn) node_ids then [] else [m]
              | None => [] end) (tr_interactions t))
    end.
  (** qrules.py:206-225: a [defaultdict(list)] filled in a loop *)
  Fixpoint group_transitions (node_ids : list Z) (ts : list trans)
      (acc : dict (E * list Z * list M) (list trans)) :
      res (dict (E * list Z * list M) (list trans)) :=
    match ts with
    | [] => Ok acc
    | t :: ts =>
        let* k := group_key node_ids t in
        group_transitions node_ids ts
          (dset k (match dget k acc with Some g => g | None => [] end ++ [t]) acc)
    end.

  (** Python's [min] of a non-empty sequence *)
  Fixpoint py_min (cur : M) (l : list M) : res M :=
    match l with
    | [] => Ok cur
    | m :: l => let* c := cmp m cur in py_min (match c with Lt => m | _ => cur end) l
    end.
  (** qrules.py:233-239: the coupling at node [i] of the transition that represents a group *)
  Definition min_coupling (node_ids : list Z) (group : list trans) (i : Z) (c0 : option M) :
      res (option M) :=
    let* cs := mapM (fun t => dgetitem i (tr_interactions t)) group in
    if existsb is_none cs then Ok None
    else if memb i node_ids then
      match flat_map (fun c => match c with Some m => [m] | None => [] end) cs with
      | [] => Err ValueError
      | m :: ms => let* m := py_min m ms in Ok (Some m)
      end
    else Ok c0.
  (** qrules.py:228-242 *)
  Definition min_transition (node_ids : list Z) (group : list trans) : res trans :=
    match group with
    | [] => Err ValueError
    | t0 :: _ =>
        let* inter := mapM (fun kn =>
          let* c := min_coupling node_ids group (fst kn) (snd kn) in Ok (fst kn, c))
          (tr_interactions t0) in
        Ok (Transition (tr_topology t0) (tr_states t0) inter)
    end.

  (** [any(p(t) for t in ts)]: stops at the first true one *)
  Fixpoint anyM (p : trans -> res bool) (ts : list trans) : res bool :=
    match ts with
    | [] => Ok false
    | t :: ts => let* b := p t in if b then Ok true else anyM p ts
    end.

  (** qrules.py:190-244 [filter_min_ls].  The argument is an iterable: [ts n] is what the
      [n]-th traversal yields.  A tuple yields the same items each time, a generator yields
      nothing after the first traversal. *)
  Definition filter_min_ls (ts : nat -> list trans) (node_ids : option (list Z)) :
      res (list trans) :=
    let available := to_set (flat_map (fun t => dkeys (tr_interactions t)) (ts 0%nat)) in
    if negb (set_eqb available [0; 1]) then Err ValueError
    else
      let* bad := anyM (fun t => let* s := intermediate_states t in
                                 Ok (negb (length s =? 1)%nat)) (ts 1%nat) in
      if bad then Err ValueError
      else
        let ids := match node_ids with None => available | Some s => s end in
        let* groups := group_transitions ids (ts 2%nat) [] in
        mapM (min_transition ids) (dvalues groups).
End Filter.

(** Iterables: a collection can be traversed again, an iterator is exhausted. *)
(** Python iterables at adapter/qrules.py:190-194, 201, 214: the n-th traversal of a collection. *)
Definition reiterable {A} (l : list A) : nat -> list A := fun _ => l.
(** Python iterators at adapter/qrules.py:190-194, 201, 214: the n-th traversal of an iterator. *)
Definition one_shot {A} (l : list A) : nat -> list A :=
  fun n => match n with O => l | S _ => [] end.

(** ** Decay chains *)
(** qrules.py:79-109 [_to_decay_chain] *)
Definition to_decay_chain (t : dpd_transition) : res chain :=
  let* ini := initial_states t in
  if negb (length ini =? 1)%nat then Err ValueError else
  let* fin := tr_final_states t in
  if negb (length fin =? 3)%nat then Err ValueError else
  if negb (length (tr_interactions t) =? 2)%nat then Err ValueError else
  match dvalues ini, outgoing_from 0 (tr_topology t), outgoing_from 1 (tr_topology t),
        ingoing_to 1 (tr_topology t), dvalues (tr_interactions t) with
  | parent :: _, [spectator_id; _], [child1_id; child2_id], resonance_id :: _,
    [production_node; decay_node] =>
      let* r := dgetitem resonance_id (tr_states t) in
      let* c1 := dgetitem child1_id (tr_states t) in
      let* c2 := dgetitem child2_id (tr_states t) in
      let* s := dgetitem spectator_id (tr_states t) in
      mk_chain (Node parent (Node r (Leaf c1) (Leaf c2) decay_node) (Leaf s) production_node)
  | _, _, _, _, _ => Err ValueError
  end.

(** ** Relabelling *)
(** [enumerate] *)
(** Python [enumerate], adapter/qrules.py:297, 312. *)
Definition enumerate {A} (l : list A) : list (Z * A) :=
  combine (map Z.of_nat (seq 0 (length l))) l.
(** qrules.py:310-313 *)
Definition normalize_topology (t : topology) : topology :=
  relabel_edges (dict_of (map (fun ni => (snd ni, fst ni)) (enumerate (zsort (dkeys (t_edges t))))))
    t.
(** qrules.py:291-298 *)
Definition normalize_transition {E N} (t : transition E N) : res (transition E N) :=
  let* states := mapM (fun ni => let* s := dgetitem (snd ni) (tr_states t) in Ok (fst ni, s))
    (enumerate (zsort (dkeys (tr_states t)))) in
  Ok (Transition (normalize_topology (tr_topology t)) (dict_of states) (tr_interactions t)).
(** qrules.py:316-318 *)
Definition normalize_transitions {E N} (ts : list (transition E N)) := mapM normalize_transition ts.

(** [ReactionInfo(transitions, formalism)] *)
(** Library qrules, [ReactionInfo], used at adapter/qrules.py:279-285, 353-358. *)
Record reaction (E N : Type) := Reaction { rx_transitions : list (transition E N);
                                           rx_formalism : string }.
Arguments Reaction {E N}. Arguments rx_transitions {E N}. Arguments rx_formalism {E N}.
(** qrules.py:279-285 *)
Definition normalize_reaction {E N} (r : reaction E N) : res (reaction E N) :=
  let* ts := normalize_transitions (rx_transitions r) in Ok (Reaction ts (rx_formalism r)).

(** ** Permutation of equal final states *)
Section Permute.
  Context {E N : Type} `{EqDec E} `{EqDec N} `{Cmp E} `{Cmp N}.
  (** [_uniqueness_repr], see [uniqueness_repr] below *)
  Context (repr : E -> res string).

  (** qrules.py:386-400 [_get_equal_final_state_ids] *)
  Fixpoint group_ids (l : dict Z E) (acc : dict string (list Z)) : res (dict string (list Z)) :=
    match l with
    | [] => Ok acc
    | (i, s) :: l =>
        let* k := repr s in
        group_ids l (dset k (match dget k acc with Some g => g | None => [] end ++ [i]) acc)
    end.
  Definition equal_final_state_ids (t : transition E N) : res (list Z) :=
    let* fin := tr_final_states t in
    let* groups := group_ids fin [] in
    match filter (fun ids => (1 <? length ids)%nat) (dvalues groups) with
    | [] => Ok []
    | ids :: _ => Ok (zsort (to_set ids))
    end.

  (** [itertools.combinations(l, 2)] *)
  Fixpoint pairs_of (l : list Z) : list (Z * Z) :=
    match l with [] => [] | a :: l => map (fun b => (a, b)) l ++ pairs_of l end.

  (** qrules.py:371-383 *)
  Definition permute_equal_final_states (t : transition E N) : res (list (transition E N)) :=
    let* ids := equal_final_state_ids t in
    match ids with
    | [] => Ok [t]
    | _ => sorted (to_set (t :: map (fun ij =>
             Transition (swap_edges (fst ij) (snd ij) (tr_topology t))
               (tr_states t) (tr_interactions t)) (pairs_of ids)))
    end.
  (** qrules.py:361-368 *)
  Definition permute_all (ts : list (transition E N)) : res (list (transition E N)) :=
    let* ls := mapM permute_equal_final_states ts in Ok (concat ls).
  (** qrules.py:353-358 *)
  Definition permute_reaction (r : reaction E N) : res (reaction E N) :=
    let* ts := permute_all (rx_transitions r) in Ok (Reaction ts (rx_formalism r)).
End Permute.

(** qrules.py:403-409 [_uniqueness_repr] *)
Definition uniqueness_repr (o : edge_obj) : res string :=
  match o with
  | EQState p _ | EQParticle p => Ok (q_name p)
  | EParticle p => Ok (p_name p)
  | EState s => Ok (p_name (st_particle s))
  | EOther => Err NotImplementedErr
  end.

(** ** The decay *)
(** The argument [min_ls : bool | tuple[bool, bool]] *)
(** adapter/qrules.py:41, 53-62. *)
Inductive min_ls_arg := MinLS (b : bool) | MinLSPair (production decay : bool).

(** qrules.py:39-76 [to_three_body_decay] *)
Definition to_three_body_decay (ts : list raw_transition) (min_ls : min_ls_arg) : res decay :=
  match ts with
  | [] => Err ValueError
  | t0 :: _ =>
      let* ini := initial_states t0 in
      let* fin := tr_final_states t0 in
      let* ts := if negb (set_eqb (dkeys ini) [0]) || negb (set_eqb (dkeys fin) [1; 2; 3])
                 then normalize_transitions ts else Ok ts in
      let* ts := convert_transitions ts in
      let* ts := match min_ls with
                 | MinLS false => Ok ts
                 | MinLS true => filter_min_ls (reiterable ts) None
                 | MinLSPair p d =>
                     filter_min_ls (reiterable ts)
                       (Some ((if p then [0] else []) ++ (if d then [1] else [])))
                 end in
      match ts with
      | [] => Err IndexError
      | some :: _ =>
          let* ini := initial_states some in
          match ini with
          | [] => Err ValueError
          | (i0, s0) :: _ =>
              let* st0 := q_to_state (edge_of_pobj s0) (Some i0) in
              let* fin := tr_final_states some in
              let* sts := mapM (fun ks => q_to_state (edge_of_pobj (snd ks)) (Some (fst ks))) fin in
              let* chains := mapM to_decay_chain ts in
              let* chains := sorted chains in
              mk_decay (dict_of (map (fun s => (st_index s, s)) (st0 :: sts))) chains
          end
      end
  end.
