(** Specification vocabulary for C154: helicities of massless final states in model files *)
From Coq Require Import ZArith List Bool Reals.
From Coquelicot Require Import Complex.
From Verif Require Import Prelude SerFormat SpecSerial.
Import ListNotations.
Local Open Scope Z_scope.

(** The helicities that a chain gives to final state [n]: the one in the file and, for parity vertices, the opposite one *)
Definition gives (q : content) (n h : Z) : Prop :=
  h = helicity_in q n \/ (h = - helicity_in q n /\ (if n =? ct_k q then ct_fp q else ct_fd q) <> 0).
(** The chains with [keep] give to final state [n] helicities in [H] only, the others give none of these. *)
Definition separated (x : chain_def -> content) (cs : list chain_def) (n : Z) (keep : chain_def -> bool) (H : list Z) : Prop :=
  forall c h, In c cs -> gives (x c) n h -> if keep c then In h H else ~ In h H.
(** 1 for a chain that is kept and 0 for the others *)
Definition kept (keep : chain_def -> bool) (c : chain_def) : C := if keep c then RtoC 1 else RtoC 0.
