(** Specification vocabulary for C155: the mass distribution of one chain of a model file *)
From Coq Require Import String ZArith List Bool Reals.
From Coquelicot Require Import Complex.
From Verif Require Import Prelude Expr SerFormat SpecSerial.
Import ListNotations.
Local Open Scope R_scope.

(** All other weights are zero. *)
Definition only_chain (w : chain_def -> symbol) (cs : list chain_def) (base : symbol -> C) (c : chain_def) : Prop :=
  forall c', In c' cs -> c' <> c -> base (w c') = RtoC 0.
(** A vertex contributes with its helicities, and with parity factor [f] also with the opposite ones; these two are the same if
    both helicities are 0. *)
Definition decay_count (q : content) : R :=
  if ((ct_li q =? 0) && (ct_lj q =? 0))%Z then (1 + IZR (ct_fd q)) ^ 2 else 1 + IZR (ct_fd q) ^ 2.
(** In the production vertex the helicity of the resonance is fixed, so that the opposite ones only count if it is 0. *)
Definition production_count (q : content) : R :=
  if (ct_r q =? 0)%Z then (if (ct_lk q =? 0)%Z then (1 + IZR (ct_fp q)) ^ 2 else 1 + IZR (ct_fp q) ^ 2) else 1.
