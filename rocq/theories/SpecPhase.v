(** Specification vocabulary for the phases of lineshapes (C145) *)
From Coq Require Import Reals.
From Coquelicot Require Import Complex.
Local Open Scope R_scope.

(** [z] is not zero and [d], between 0 and pi, is its phase. *)
Definition has_phase (z : C) (d : R) : Prop := 0 < d < PI /\ exists r, 0 < r /\ z = (RtoC r * (cos d, sin d))%C.
