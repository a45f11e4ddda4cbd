(** Specification vocabulary: which chains of a serialised model definition are accepted. *)
From Coq Require Import String ZArith QArith Qcanon List Bool Permutation.
From Verif Require Import Prelude SerFormat SpecSerial SpecPropagators SpecSerStrip.
From Verif Require SerDynamics SerAmplitude.
Import ListNotations.
Local Open Scope string_scope.
Local Open Scope Z_scope.
Local Open Scope list_scope.

(** The vertex has as many helicities as items in its node. *)
Definition helicities_given (v : vertex) : Prop :=
  exists hs, v_helicities v = Some hs /\ length hs = length (v_node v).
(** One of the items in its node is a pair. *)
Definition contains_pair (v : vertex) : Prop := exists a b, In (Sub [a; b]) (v_node v).
(** A vertex with two items, two helicities, and a type that determines the coupling from them *)
Definition helicity_vertex (v : vertex) : Prop :=
  length (v_node v) = 2%nat /\ helicities_given v /\
  (v_type v = "helicity" \/
   v_type v = "parity" /\ forall t, v_parity_factor v = Some t -> exists u, In u ["+"; "-"; ""] /\ padded u t).
(** A chain that can be formulated: a resonance decaying to [i], [j], with spectator [k].  The topology names one
    state [t], which need not be the spectator. *)
Definition accepted_chain (m : model_def) (tl : string -> string)
  (additional : option (dict string SerDynamics.prop_builder)) (c : chain_def) : Prop :=
  exists i j k t vp vd a b, Permutation [i; j; k] [1; 2; 3] /\
    (cd_vertices c = [vp; vd] \/ cd_vertices c = [vd; vp]) /\
    v_node vd = [It i; It j] /\ with_pair k [a; b] (v_node vp) /\
    helicity_vertex vp /\ helicity_vertex vd /\
    (exists p ps z, cd_propagators c = p :: ps /\ pr_spin p = half z) /\
    (forall p, In p (cd_propagators c) -> exists x, lineshape_of m (tl (cd_name c)) additional p x) /\
    complete_form_factor m vp /\ complete_form_factor m vd /\
    In t [1; 2; 3] /\ In (It t) (cd_topology c) /\ forall n, In (It n) (cd_topology c) -> n = t.
