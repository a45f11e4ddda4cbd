(** Vocabulary for reactions with identical particles in the final state (C110) *)
From Coq Require Import ZArith List Bool.
From Verif Require Import Prelude Decay Qrules SpecQrules.
Import ListNotations.
Local Open Scope Z_scope.

(** The final states with the labels [a] and [b] are the same particle. *)
Definition identical (ts : list raw_transition) (a b : Z) : Prop :=
  exists t x y ox oy, In t ts /\ is_final t x /\ is_final t y /\ x <> y /\
    state_of t x = Some ox /\ state_of t y = Some oy /\ same_particle ox oy /\ rank t x = a /\ rank t y = b.
(** No node is reordered. *)
Definition never (_ : chain) : bool := false.
(** With the new labels the decay products of the resonance are in descending order. *)
Definition descending (p : Z -> Z) (c : chain) : bool :=
  match c with
  | Node _ (Node _ (Leaf (PSt a)) (Leaf (PSt b)) _) _ _ => p (st_index b) <? p (st_index a)
  | _ => false
  end.
