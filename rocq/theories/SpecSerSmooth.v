(** Specification vocabulary for derivatives of serialised models (C139) *)
From Coq Require Import String ZArith QArith Qcanon List Bool Reals.
From Coquelicot Require Import Complex.
From Verif Require Import Prelude Spin Decay Expr CExpr Builder SerFormat SpecSerial SpecSerPoints SpecSerFinite.
Import ListNotations.
Local Open Scope string_scope.
Local Open Scope Z_scope.

(** A chain whose lineshape has a derivative in the physical region: in addition to the conditions of C127, further channels that are not
    S waves are open and not at their threshold. *)
Definition smooth_serial (m : model_def) (tl : string -> string) (x : chain_def -> content) (base : symbol -> C) (c : chain_def) : Prop :=
  regular_serial m tl x base c /\
  forall p f ch0 chs q ch, In p (cd_propagators c) -> function_of m (pr_parametrization p) f -> fd_channels f = Some (ch0 :: chs) ->
    nth_error chs q = Some ch -> dget "l" ch = Some (Q2Qc 0) \/
    (let n := (2 + Z.of_nat q)%Z in
     (Re (base (channel_mass_sym "a" n)) + Re (base (channel_mass_sym "b" n))) * (Re (base (channel_mass_sym "a" n)) + Re (base (channel_mass_sym "b" n)))
     < Re (base (sigma_sym (ct_k (x c)))))%R.
