(** Specification of parts of a model with given helicities of one final state (C135) *)
From Coq Require Import ZArith Bool Reals List.
From Coquelicot Require Import Complex.
From Verif Require Import Prelude Expr Spin Decay CExpr SpecSpin SpecDPD Builder.
Import ListNotations.
Local Open Scope R_scope.

(** The amplitudes of [ev'] are those of [ev] for helicities in [H] of final state [n], and 0 for the other helicities. *)
Definition restricted (s : Z -> state) (b : builder) (m : model) (n : Z) (H : list Z) (ev ev' : env) : Prop :=
  forall k l, In k (get_subsystem_ids (b_decay b)) -> helicity_tuple s l ->
    amp_value ev' m k l = if in_dec Z.eq_dec (at4 l n) H then amp_value ev m k l else RtoC 0.
(** The couplings of [ev'] are those of [ev] if the helicity of final state [n] is in [H], and 0 otherwise; [scal] is the coupling of a
    chain with spectator k, as a function of the helicities of the resonance, k, i and j. *)
Definition restricted_couplings (s : Z -> state) (b : builder) (n : Z) (H : list Z) (scal scal' : chain -> Z -> Z -> Z -> Z -> C) : Prop :=
  forall c i j k r l, In c (d_chains (b_decay b)) -> st_index (ch_spectator c) = k -> cyclic i j k ->
    In r (helicities (p_spin (ch_resonance c))) -> helicity_tuple s l ->
    scal' c r (at4 l k) (at4 l i) (at4 l j) = if in_dec Z.eq_dec (at4 l n) H then scal c r (at4 l k) (at4 l i) (at4 l j) else RtoC 0.
