(** Model of /repo/src/ampform_dpd/decay.py and /repo/src/ampform_dpd/_attrs.py *)
From Coq Require Import String ZArith QArith Qcanon List Bool.
From Verif Require Import Prelude Spin.
Import ListNotations.
Local Open Scope string_scope.
Local Open Scope Z_scope.

(** decay.py:28-35 [Particle].  [p_spin] is twice the validated spin value.
    [float] masses and widths are (exact) rationals. *)
Record particle := Particle {
  p_name : string;
  p_latex : string;
  p_spin : Z;
  p_parity : option Z;
  p_mass : Qc;
  p_width : Qc;
}.

(** decay.py:38-42 [State], a subclass of [Particle] with an index. *)
Record state := State { st_particle :> particle; st_index : Z }.

(** An object of class [Particle]: either exactly [Particle] or a [State]. *)
(** decay.py:29-44: a [Particle] or an instance of its subclass [State]. *)
Inductive pobj := PPart (p : particle) | PSt (s : state).

(** decay.py:38-42: the fields that [State] inherits from [Particle]. *)
Definition pobj_particle (o : pobj) : particle :=
  match o with PPart p => p | PSt s => st_particle s end.

(** decay.py:225-228 [LSCoupling]; [ls_S] is twice [S]. *)
Record ls_coupling := LS { ls_L : Z; ls_S : Z }.

(** decay.py:53-62 [IsobarNode], and the two kinds of children it can have. *)
Inductive tree :=
| Leaf (o : pobj)
| Node (parent : pobj) (child1 child2 : tree) (interaction : option ls_coupling).

(** ** Converters and validators: _attrs.py *)

(** _attrs.py:17-20 [assert_spin_value] after _attrs.py:41-42 [to_rational]: the
    stored value is twice the rational. *)
Definition spin_value (q : Qc) : res Z :=
  if (Qden q =? 1)%positive then Ok (2 * Qnum q)
  else if (Qden q =? 2)%positive then Ok (Qnum q)
  else Err ValueError.

(** decay.py:28-35: [Particle(name, latex, spin, parity, mass, width)] *)
Definition mk_particle name latex (spin : Qc) parity mass width : res particle :=
  let* j := spin_value spin in
  Ok (Particle name latex j parity mass width).

(** decay.py:225-228: [LSCoupling(L, S)] *)
Definition mk_ls (L : Z) (S0 : Qc) : res ls_coupling :=
  let* s := spin_value S0 in Ok (LS L s).

(** The values accepted for the [interaction] argument of [IsobarNode]. *)
(** _attrs.py:23-34: the values that [to_ls] distinguishes. *)
Inductive ls_arg :=
| ArgNone | ArgLS (c : ls_coupling) | ArgTuple (L : Z) (S0 : Qc)
| ArgTupleN (n : nat) (* a tuple whose length is not 2 *) | ArgOther.

(** _attrs.py:23-34 [to_ls] *)
Definition to_ls (a : ls_arg) : res (option ls_coupling) :=
  match a with
  | ArgNone => Ok None
  | ArgLS c => Ok (Some c)
  | ArgTuple L S0 => let* c := mk_ls L S0 in Ok (Some c)
  | ArgTupleN _ => Err ValueError
  | ArgOther => Err TypeError
  end.

(** decay.py:53-58 [IsobarNode(parent, child1, child2, interaction)] *)
Definition mk_node (parent : pobj) (c1 c2 : tree) (a : ls_arg) : res tree :=
  let* i := to_ls a in Ok (Node parent c1 c2 i).

(** ** Equality and order generated by attrs ([@frozen(order=True)]):
    tuples of the fields in order of definition, for objects of the same class. *)
Global Instance EqDec_particle : EqDec particle.
Proof. unfold EqDec; decide equality; apply eq_dec. Defined.
Global Instance EqDec_state : EqDec state.
Proof. unfold EqDec; decide equality; apply eq_dec. Defined.
Global Instance EqDec_pobj : EqDec pobj.
Proof. unfold EqDec; decide equality; apply eq_dec. Defined.
Global Instance EqDec_ls : EqDec ls_coupling.
Proof. unfold EqDec; decide equality; apply eq_dec. Defined.
Global Instance EqDec_tree : EqDec tree.
Proof. unfold EqDec; decide equality; apply eq_dec. Defined.

(** decay.py:28-35: the tuple of fields that attrs compares ([order=True]). *)
Definition particle_tuple (p : particle) :=
  (p_name p, (p_latex p, (p_spin p, (p_parity p, (p_mass p, p_width p))))).
Global Instance Cmp_particle : Cmp particle := cmp_via particle_tuple.
(** [State]: the fields of [Particle], then [index]. *)
Global Instance Cmp_state : Cmp state := fun a b =>
  cmp_then (cmp (st_particle a) (st_particle b)) (cmp (st_index a) (st_index b)).
Global Instance Cmp_pobj : Cmp pobj := fun a b =>
  match a, b with
  | PPart a, PPart b => cmp a b
  | PSt a, PSt b => cmp a b
  | _, _ => Err TypeError
  end.
Global Instance Cmp_ls : Cmp ls_coupling := cmp_via (fun c => (ls_L c, ls_S c)).
(** decay.py:53-58: attrs order of [IsobarNode]; comparing a node with a state raises TypeError. *)
Fixpoint cmp_tree (a b : tree) : res comparison :=
  match a, b with
  | Leaf a, Leaf b => cmp a b
  | Node p c1 c2 i, Node p' c1' c2' i' =>
      cmp_then (cmp p p')
        (cmp_then (cmp_tree c1 c1') (cmp_then (cmp_tree c2 c2') (cmp i i')))
  | _, _ => Err TypeError
  end.
Global Instance Cmp_tree : Cmp tree := cmp_tree.

(** ** [ThreeBodyDecayChain] *)

(** decay.py:231-240 [to_particle] *)
Definition to_particle (t : tree) : pobj :=
  match t with Node p _ _ _ => p | Leaf o => o end.

(** decay.py:60-62 [IsobarNode.children]; no such attribute on a particle. *)
Definition children (t : tree) : res (list tree) :=
  match t with Node _ c1 c2 _ => Ok [c1; c2] | Leaf _ => Err AttributeError end.

(** decay.py:205-211 [_get_child_of_type(IsobarNode)], decay.py:191-192 [decay_node] *)
Definition is_node (t : tree) : bool := match t with Node _ _ _ _ => true | _ => false end.
(** decay.py:190-192 [decay_node], by [_get_child_of_type] (205-211). *)
Definition decay_node_r (chain : tree) : res tree :=
  let* cs := children chain in
  match find_first is_node cs with Some c => Ok c | None => Err ValueError end.

(** decay.py:205-211 [_get_child_of_type(State)], decay.py:201-203 [spectator] *)
Definition as_state (t : tree) : option state :=
  match t with Leaf (PSt s) => Some s | _ => None end.
(** decay.py:207-209: the loop of [_get_child_of_type] for [State]. *)
Fixpoint first_state (l : list tree) : option state :=
  match l with
  | [] => None
  | c :: l => match as_state c with Some s => Some s | None => first_state l end
  end.
(** decay.py:201-203 [spectator], by [_get_child_of_type] (205-211). *)
Definition spectator_r (chain : tree) : res state :=
  let* cs := children chain in
  match first_state cs with Some s => Ok s | None => Err ValueError end.

(** decay.py:194-199 [decay_products] *)
Definition decay_products_r (chain : tree) : res (pobj * pobj) :=
  let* n := decay_node_r chain in
  let* cs := children n in
  match cs with
  | [c1; c2] => Ok (to_particle c1, to_particle c2)
  | _ => Err ValueError (* unreachable: a node has two children *)
  end.

(** The key function [lambda x: x.index] of decay.py:176. *)
Definition index_of (o : pobj) : res state :=
  match o with PSt s => Ok s | PPart _ => Err AttributeError end.

(** [sorted(..., key=lambda x: x.index)] on states: stable insertion by index. *)
(** decay.py:176: [sorted(..., key=lambda x: x.index)], a stable sort; one insertion. *)
Fixpoint insert_by_index (s : state) (l : list state) : list state :=
  match l with
  | [] => [s]
  | t :: l' => if st_index t <=? st_index s then t :: insert_by_index s l' else s :: t :: l'
  end.
(** decay.py:176: [sorted(..., key=lambda x: x.index)]. *)
Definition sort_by_index (l : list state) : list state :=
  fold_left (fun acc s => insert_by_index s acc) l [].

(** decay.py:172-176 [final_state] *)
Definition final_state_r (chain : tree) : res (list state) :=
  let* (d1, d2) := decay_products_r chain in
  let* s := spectator_r chain in
  let* l := mapM index_of [d1; d2; PSt s] in
  Ok (sort_by_index l).

(** decay.py:152-166: validator and [__attrs_post_init__] of
    [ThreeBodyDecayChain(decay)].  A chain is represented by its tree. *)
Definition mk_chain (decay : tree) : res tree :=
  match decay with
  | Leaf _ => Err TypeError                       (* instance_of(IsobarNode) *)
  | Node parent _ _ _ =>
      let* fs := final_state_r decay in
      match parent with
      | PPart _ => Err TypeError
      | PSt s0 =>
          if Nat.eqb (length (to_set (map st_index (s0 :: fs)))) 4
          then Ok decay
          else Err ValueError
      end
  end.

(** A chain object: a tree that passed the constructor. *)
(** decay.py:152-154 [ThreeBodyDecayChain]: its only field is the production node. *)
Definition chain := tree.
(** decay.py:154-166: the object can exist, i.e. its constructor does not raise. *)
Definition valid_chain (t : chain) : Prop := mk_chain t = Ok t.

(** Accessors on chain objects.  The exceptional branches cannot occur on valid
    chains (lemma [valid_chain_accessors]); there the value is a dummy. *)
(** Not in /repo: value in the branches that cannot occur on valid chains. *)
Definition dummy_particle := Particle "" "" 0 None (Qc_of_Z 0) (Qc_of_Z 0).
(** Not in /repo: value in the branches that cannot occur on valid chains. *)
Definition dummy_state := State dummy_particle 0.
(** Not in /repo: value of a property in the case that it does not raise. *)
Definition get_or {A} (d : A) (r : res A) : A := match r with Ok a => a | Err _ => d end.
(** decay.py:178-180: [parent] is a [State] on valid chains (158-161). *)
Definition obj_state (o : pobj) : state := match o with PSt s => s | PPart _ => dummy_state end.

(** decay.py:178-180 [parent]. *)
Definition ch_parent (c : chain) : state := obj_state (to_particle c).        (* 178-180 *)
Definition ch_decay_node (c : chain) : tree := get_or c (decay_node_r c).     (* 190-192 *)
Definition ch_resonance (c : chain) : particle :=                             (* 182-184 *)
  pobj_particle (to_particle (ch_decay_node c)).
(** decay.py:201-203 [spectator]. *)
Definition ch_spectator (c : chain) : state := get_or dummy_state (spectator_r c). (* 201-203 *)
Definition ch_decay_products (c : chain) : state * state :=                   (* 194-199 *)
  match decay_products_r c with
  | Ok (a, b) => (obj_state a, obj_state b)
  | Err _ => (dummy_state, dummy_state)
  end.
(** decay.py:172-176 [final_state]. *)
Definition ch_final_state (c : chain) : list state := get_or [] (final_state_r c). (* 172-176 *)
Definition node_interaction (t : tree) : option ls_coupling :=
  match t with Node _ _ _ i => i | Leaf _ => None end.
(** decay.py:213-215 [incoming_ls]. *)
Definition ch_incoming_ls (c : chain) : option ls_coupling := node_interaction c. (* 213-215 *)
Definition ch_outgoing_ls (c : chain) : option ls_coupling :=                 (* 217-219 *)
  node_interaction (ch_decay_node c).

(** ** [ThreeBodyDecay] *)
(** decay.py:71-74 *)
Record decay := Decay { d_states : dict Z state; d_chains : list chain }.

(** decay.py:104-106 [initial_state] *)
Definition initial_state_r (d : decay) : res state := dgetitem 0 (d_states d).
(** decay.py:108-110 [final_state] *)
Definition final_states (d : decay) : dict Z state :=
  dict_of (map (fun s => (st_index s, s))
             (filter (fun s => negb (st_index s =? 0)) (dvalues (d_states d)))).

(** decay.py:76-102 [__attrs_post_init__]; the loop over the chains. *)
Fixpoint check_chains (s0 : state) (expected : list state) (cs : list chain) : res unit :=
  match cs with
  | [] => Ok tt
  | c :: cs =>
      if eq_dec (ch_parent c) s0 then
        let (a, b) := ch_decay_products c in
        if set_eqb [ch_spectator c; a; b] expected
        then check_chains s0 expected cs
        else Err ValueError
      else Err ValueError
  end.

(** decay.py:71-102 [ThreeBodyDecay(states, chains)] *)
Definition mk_decay (states : dict Z state) (chains : list chain) : res decay :=
  let d := Decay states chains in
  let* s0 := initial_state_r d in
  let* _ := check_chains s0 (to_set (dvalues (final_states d))) chains in
  Ok d.

(** decay.py:112-117 [find_chain] *)
Definition find_chain (d : decay) (resonance_name : string) : res chain :=
  match find_first (fun c => eqb (p_name (ch_resonance c)) resonance_name) (d_chains d) with
  | Some c => Ok c
  | None => Err KeyError
  end.

(** decay.py:119-126 [get_subsystem]; the boolean says whether a warning is issued. *)
Definition get_subsystem (d : decay) (subsystem_id : Z) : res decay * bool :=
  let filtered := filter (fun c => st_index (ch_spectator c) =? subsystem_id) (d_chains d) in
  (mk_decay (d_states d) filtered, match filtered with [] => true | _ => false end).

(** decay.py:135-136 [_get_subsystem_ids]; a set of ints. *)
Definition get_subsystem_ids (d : decay) : list Z :=
  to_set (map (fun c => st_index (ch_spectator c)) (d_chains d)).

(** decay.py:139-149 [get_decay_product_ids] *)
Definition get_decay_product_ids (spectator_id : Z) : res (Z * Z) :=
  if spectator_id =? 1 then Ok (2, 3)
  else if spectator_id =? 2 then Ok (3, 1)
  else if spectator_id =? 3 then Ok (1, 2)
  else Err ValueError.

(** A decay object: one that passed the constructor, built from chain objects. *)
(** decay.py:71-102: the object can exist, i.e. its constructor and those of its chains do not raise. *)
Definition valid_decay (d : decay) : Prop :=
  Forall valid_chain (d_chains d) /\ mk_decay (d_states d) (d_chains d) = Ok d.
