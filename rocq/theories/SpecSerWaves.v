(** Specification vocabulary for C157: resonances with different spins in the mass distributions of model files *)
From Coq Require Import String ZArith List Bool Reals.
From Coquelicot Require Import Complex.
From Verif Require Import Prelude Expr CExpr Builder SpecDPD SpecObs SerFormat SpecSerial SpecSerEffect.
Import ListNotations.
Local Open Scope Z_scope.

(** The difference of the helicities of the decay products, seen from particle i *)
Definition difference_at (i : Z) (q : content) : Z := if ct_i q =? i then ct_li q - ct_lj q else ct_lj q - ct_li q.
(** Two chains have the same helicities, or all opposite ones. *)
Definition same_helicities (i : Z) (q q' : content) : Prop :=
  (ct_r q = ct_r q' /\ difference_at i q = difference_at i q') \/ (ct_r q = - ct_r q' /\ difference_at i q = - difference_at i q').
(** The chains with a weight other than 0 *)
Definition active (w : chain_def -> symbol) (cs : list chain_def) (base : symbol -> C) (c : chain_def) : Prop :=
  In c cs /\ base (w c) <> RtoC 0.
(** They have spectator k, helicities that are possible for the resonance and a lineshape that is constant on lines of constant sigma_k. *)
Definition in_subsystem (x : chain_def -> content) (dyn : chain_def -> defexpr) (i j k : Z) (c : chain_def) : Prop :=
  ct_k (x c) = k /\ resonance_possible (x c) /\
  ~ In (sigma_at i) (symbols_of (de_expr (dyn c))) /\ ~ In (sigma_at j) (symbols_of (de_expr (dyn c))).
