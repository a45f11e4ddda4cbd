(** Vocabulary for the texts of warnings and errors (C107) *)
From Coq Require Import String ZArith List Bool Sorted.
From Verif Require Import Prelude Decay SpecLatex.
Import ListNotations.
Local Open Scope list_scope.
Local Open Scope string_scope.
Local Open Scope Z_scope.

(** The IDs of the final state, in the order in which the states of the decay were given *)
Definition final_order (d : decay) : list Z := filter (fun k => negb (k =? 0)) (map fst (d_states d)).
(** A decay as a text: "A → 1: B, 2: C, 3: D" *)
Definition decay_text (d : decay) (s : Z -> state) : string :=
  p_name (s 0) ++ " → " ++ comma_list (map (fun i => (str_of_Z i ++ ": " ++ p_name (s i))%string) (final_order d)).
(** The subsystems of a decay, in ascending order *)
Definition subsystems_of (d : decay) (ks : list Z) : Prop :=
  StronglySorted Z.lt ks /\ forall k, In k ks <-> exists c, In c (d_chains d) /\ st_index (ch_spectator c) = k.
