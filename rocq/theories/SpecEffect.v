(** Specification vocabulary for C151: which couplings of a model have an effect on its intensity *)
From Coq Require Import String ZArith List Bool Reals.
From Coquelicot Require Import Complex.
From Verif Require Import Prelude Decay Expr CExpr Sums SpecKin SpecDPD Builder SpecBuilder SpecObs.
Import ListNotations.
Local Open Scope Z_scope.

(** The couplings (base and indices) in the term of a chain with helicity r of the resonance *)
Definition coupling_keys (uc ph dh : bool) (c : chain) (r lk li lj : Z) : list (string * list ival) :=
  if uc then [coefficient_key ph dh c r lk li lj]
  else [fst (coupling_pair ph dh c r lk li lj); snd (coupling_pair ph dh c r lk li lj)].
(** The coupling that depends on the helicities of the decay products *)
Definition decay_key (uc ph dh : bool) (c : chain) (r lk li lj : Z) : string * list ival :=
  if uc then coefficient_key ph dh c r lk li lj else snd (coupling_pair ph dh c r lk li lj).

(** What distinguishes the couplings of two chains: the label of the resonance and the LS couplings that are used *)
Definition chain_key (ph dh : bool) (c : chain) : string * option ls_coupling * option ls_coupling :=
  (p_latex (ch_resonance c), if ph then None else ch_incoming_ls c, if dh then None else ch_outgoing_ls c).
(** Chains with the same label have the same resonance in the same subsystem. *)
Definition labels_identify (d : decay) : Prop :=
  forall c c', In c (d_chains d) -> In c' (d_chains d) -> p_latex (ch_resonance c) = p_latex (ch_resonance c') ->
    p_spin (ch_resonance c) = p_spin (ch_resonance c') /\ st_index (ch_spectator c) = st_index (ch_spectator c').

(** Two sets of couplings differ in one coupling at most. *)
Definition same_but (key : string * list ival) (cpl cpl' : string -> list ival -> C) : Prop :=
  forall n v, (n, v) <> key -> cpl n v = cpl' n v.
(** A change of this coupling changes the intensity at some point of the Dalitz plot, *)
Definition has_effect (m : model) (key : string * list ival) : Prop :=
  exists base cpl cpl', same_but key cpl cpl' /\ physical (fun y => Re (base y)) /\
    full_value (at_point (m_variables m) base cpl) m <> full_value (at_point (m_variables m) base cpl') m.
(** or it never changes the intensity, whatever the values of the other symbols. *)
Definition no_effect (m : model) (key : string * list ival) : Prop :=
  forall sym cpl cpl', same_but key cpl cpl' -> full_value (Env sym cpl) m = full_value (Env sym cpl') m.

(** The lineshape of a chain is not zero somewhere inside of the Dalitz plot; it does not depend on the other two Mandelstam
    variables. *)
Definition live (dyn : chain -> defexpr) (c : chain) : Prop :=
  exists base i j, cyclic i j (st_index (ch_spectator c)) /\ between_thresholds base i j (st_index (ch_spectator c)) /\
    ~ In (sigma_at i) (symbols_of (de_expr (dyn c))) /\ ~ In (sigma_at j) (symbols_of (de_expr (dyn c))) /\
    forall cpl, ceval (Env base cpl) (fun _ => 0) (de_expr (dyn c)) <> RtoC 0.
