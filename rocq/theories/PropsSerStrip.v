(** C58: blanks around the parity factor of a vertex *)
From Coq Require Import String Ascii ZArith List Bool.
From Verif Require Import Prelude SerAmplitude SpecSerStrip SerStrip.
Import ListNotations.
Local Open Scope string_scope.

Theorem C58_sign_blanks t :
  (forall f, sign_to_value t = Ok f <-> (f = 1%Z /\ padded "+" t) \/ (f = (-1)%Z /\ padded "-" t) \/ (f = 0%Z /\ padded "" t)) /\
  (forall e, sign_to_value t = Err e <-> e = NotImplementedErr /\ ~ padded "+" t /\ ~ padded "-" t /\ ~ padded "" t).
Proof. exact (sign_padded t). Qed.
Print Assumptions C58_sign_blanks.
