(** Specification vocabulary for the boundedness of serialised models (C141) *)
From Coq Require Import String ZArith QArith Qcanon List Bool Reals.
From Coquelicot Require Import Complex.
From Verif Require Import Prelude Spin Decay Expr CExpr Builder SerFormat SpecSerial SpecSerFinite SpecBounded.
Import ListNotations.
Local Open Scope R_scope.

(** A chain whose lineshape has no pole on the whole Dalitz plot: in addition to the conditions of C127 at the lower limit of its invariant
    mass (which ask that further channels are S waves or open on the whole range), it decays into a pair with positive mass that is not
    the mass of the resonance. *)
Definition threshold_serial (m : model_def) (tl : string -> string) (x : chain_def -> content) (base : symbol -> C) (c : chain_def) : Prop :=
  let t := lower_limit base (ct_k (x c)) in
  regular_serial m tl x (at_sigmas base t t t) c /\
  0 < Re (base (mass_sym (ct_i (x c)))) + Re (base (mass_sym (ct_j (x c)))) /\
  Re (base (named "m" (tl (cd_name c)))) <> Re (base (mass_sym (ct_i (x c)))) + Re (base (mass_sym (ct_j (x c)))).
