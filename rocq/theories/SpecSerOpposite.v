(** Specification vocabulary for C158: resonances of opposite parity in one subsystem of a model file *)
From Coq Require Import ZArith List Bool.
From Verif Require Import SpecSerial.
Local Open Scope Z_scope.

(** The decay vertices have the same helicities, or all opposite ones, of the same particles, and parity factors 1 and -1. *)
Definition opposite_parity (q q' : content) : Prop :=
  ct_i q = ct_i q' /\ ct_j q = ct_j q' /\
  ((ct_li q = ct_li q' /\ ct_lj q = ct_lj q') \/ (ct_li q = - ct_li q' /\ ct_lj q = - ct_lj q')) /\
  ~ (ct_li q = 0 /\ ct_lj q = 0) /\ ct_fd q * ct_fd q' = -1.
