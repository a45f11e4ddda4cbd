(** Specification vocabulary for serialised models without poles (C127) *)
From Coq Require Import String ZArith QArith Qcanon List Bool Reals.
From Coquelicot Require Import Complex.
From Verif Require Import Prelude Spin Decay Expr CExpr Builder SerFormat SpecSerial SpecSerPoints.
Import ListNotations.
Local Open Scope string_scope.
Local Open Scope Z_scope.
Local Open Scope list_scope.

(** All parameters of the lineshape of a chain are real; mass, width and radii are positive. *)
Definition real_serial (tl : string -> string) (x : chain_def -> content) (base : symbol -> C) (c : chain_def) : Prop :=
  let name := tl (cd_name c) in
  (forall y, In y (sigma_sym (ct_k (x c)) :: map mass_sym [0; 1; 2; 3]) \/ resonance_masses name y \/ resonance_widths name y \/ resonance_radii name y ->
     Im (base y) = 0%R) /\
  (0 < Re (base (named "m" name)) /\ 0 < Re (base (named "\Gamma" name)) /\ 0 < Re (base radius_sym) /\ 0 < Re (base (named "R" name)))%R.
(** The second, third, ... channel of a lineshape has no negative coupling or masses, and is an S wave or open. *)
Definition regular_channels (m : model_def) (tl : string -> string) (x : chain_def -> content) (base : symbol -> C) (c : chain_def) : Prop :=
  let name := tl (cd_name c) in
  forall p f ch0 chs q ch, In p (cd_propagators c) -> function_of m (pr_parametrization p) f -> fd_channels f = Some (ch0 :: chs) ->
    nth_error chs q = Some ch ->
    let n := 2 + Z.of_nat q in
    let ma := Re (base (channel_mass_sym "a" n)) in
    let mb := Re (base (channel_mass_sym "b" n)) in
    (0 <= Re (base (channel_width_sym name n)) /\ 0 <= ma /\ 0 <= mb)%R /\
    (dget "l" ch = Some (Q2Qc 0) \/ ((ma + mb) * (ma + mb) <= Re (base (sigma_sym (ct_k (x c)))))%R).
(** A chain whose lineshape has no pole in the physical region *)
Definition regular_serial (m : model_def) (tl : string -> string) (x : chain_def -> content) (base : symbol -> C) (c : chain_def) : Prop :=
  complete_chain m c /\ no_production_barrier m c /\ real_serial tl x base c /\ above_threshold m tl x base c /\
  regular_channels m tl x base c.
