(** Specification vocabulary for the way from a reaction to a model (C99) *)
From Coq Require Import String ZArith QArith Qcanon List Bool.
From Verif Require Import Prelude Decay Qrules SpecQrules CExpr Builder.
Import ListNotations.
Local Open Scope string_scope.
Local Open Scope Z_scope.
Local Open Scope list_scope.

(** The spins of the initial and final state particles are not negative. *)
Definition proper_spins (ts : list raw_transition) : Prop :=
  forall t x s, In t ts -> ~ is_intermediate t x -> describes t x s -> 0 <= p_spin (st_particle s).
(** All transitions have an LS coupling at node [n]. *)
Definition couplings_at (ts : list raw_transition) (n : Z) : Prop :=
  forall t o, In t ts -> coupling_of t n = Some o -> ~ converts_coupling o None.

(** The loop [for chain in chains: builder.dynamics_choices.register_builder(chain, f)] *)
Fixpoint register_each (b : builder) (chains : list chain) (f : dyn_builder) : res builder :=
  match chains with
  | [] => Ok b
  | c :: cs => let* b' := builder_register b (IdChain c) f in register_each b' cs f
  end.
