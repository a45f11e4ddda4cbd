(** Specification vocabulary for C156: which chains of a subsystem of a model file interfere *)
From Coq Require Import String ZArith List Bool Reals.
From Coquelicot Require Import Complex.
From Verif Require Import Prelude Expr SpecDPD SerFormat SpecSerial.
Import ListNotations.
Local Open Scope Z_scope.

(** All chains have the same spectator. *)
Definition one_spectator (x : chain_def -> content) (cs : list chain_def) (k : Z) : Prop :=
  cs <> [] /\ forall c, In c cs -> ct_k (x c) = k.
(** The helicities of the final states that a chain contributes to: those of the file and, for parity vertices, the opposite ones of
    that vertex; in the production vertex the resonance must then have helicity 0. *)
Definition combination (q : content) (l : Z * Z * Z * Z) : Prop :=
  ((at4 l (ct_i q) = ct_li q /\ at4 l (ct_j q) = ct_lj q) \/
   (ct_fd q <> 0 /\ at4 l (ct_i q) = - ct_li q /\ at4 l (ct_j q) = - ct_lj q)) /\
  (at4 l (ct_k q) = ct_lk q \/ (ct_fp q <> 0 /\ ct_r q = 0 /\ at4 l (ct_k q) = - ct_lk q)).
