(** Specification vocabulary for changes of the reference subsystem (C28). *)
From Coq Require Import ZArith Bool Reals.
From Verif Require Import Decay.
Local Open Scope Z_scope.

(** The sign of a subsystem [k] if the reference changes from [r1] to [r2]: the three rotations of the decay plane
    between the subsystems are a full turn together, which changes the sign for half-integer spin of the parent.
    (Spins are doubled.) *)
Definition turn_sign (s : Z -> state) (r1 r2 k : Z) : R :=
  if Z.even (p_spin (s 0)) || (r1 =? r2) || (k =? r1) || (k =? r2) then 1%R else (-1)%R.
