(** Specification vocabulary for spins, independent of the model's helpers. *)
From Coq Require Import ZArith QArith Qcanon.
Local Open Scope Qc_scope.

Definition is_integer (q : Qc) : Prop := exists z : Z, q = Q2Qc (inject_Z z).
Definition is_half_integer (q : Qc) : Prop := exists z : Z, q = Q2Qc (z # 2).

(** [m] is an allowed projection of a spin [j]. *)
Definition projection (j m : Qc) : Prop := - j <= m /\ m <= j /\ is_integer (j - m).

(** [|a - b| <= c <= a + b]: the triangle inequalities. *)
Definition triangle (a b c : Qc) : Prop := a - b <= c /\ b - a <= c /\ c <= a + b.

(** [c] occurs in the product of the spins [a] and [b] (addition of angular momenta). *)
Definition couples_to (a b c : Qc) : Prop := triangle a b c /\ is_integer (a + b - c).
