(** Specification vocabulary for C153: which weights of a model file have an effect on the intensity *)
From Coq Require Import String ZArith List Bool Reals.
From Coquelicot Require Import Complex.
From Verif Require Import Prelude Decay Expr CExpr Sums SpecKin SpecDPD Builder SpecBuilder SpecObs SerFormat SpecSerial.
Import ListNotations.
Local Open Scope Z_scope.

(** The helicity of the resonance, and the difference of those of its decay products, are possible for its spin. *)
Definition resonance_possible (q : content) : Prop :=
  In (ct_r q) (helicities (ct_spin q)) /\ In (ct_li q - ct_lj q) (helicities (ct_spin q)).
(** The helicities of the final state are possible for its spins, and no vertex is the difference of two equal terms: this is so
    for parity factor -1 if the two helicities are 0. *)
Definition final_possible (s : Z -> state) (q : content) : Prop :=
  In (ct_lk q) (helicities (p_spin (s (ct_k q)))) /\ In (ct_li q) (helicities (p_spin (s (ct_i q)))) /\
  In (ct_lj q) (helicities (p_spin (s (ct_j q)))) /\
  ~ (ct_fp q = -1 /\ ct_r q = 0 /\ ct_lk q = 0) /\ ~ (ct_fd q = -1 /\ ct_li q = 0 /\ ct_lj q = 0).

(** A change of the value of this symbol changes the intensity at some point of the Dalitz plot, *)
Definition value_has_effect (m : model) (y : symbol) : Prop :=
  exists base base' cpl, (forall z, z <> y -> base z = base' z) /\ physical (fun z => Re (base z)) /\
    full_value (at_point (m_variables m) base cpl) m <> full_value (at_point (m_variables m) base' cpl) m.
(** or it never changes the intensity, whatever the values of the other symbols. *)
Definition value_no_effect (m : model) (y : symbol) : Prop :=
  forall sym sym' cpl, (forall z, z <> y -> sym z = sym' z) -> full_value (Env sym cpl) m = full_value (Env sym' cpl) m.

(** The lineshape of a chain is not zero somewhere inside of the Dalitz plot; it does not depend on the other two Mandelstam
    variables. *)
Definition live_serial (x : chain_def -> content) (dyn : chain_def -> defexpr) (c : chain_def) : Prop :=
  exists base i j, cyclic i j (ct_k (x c)) /\ between_thresholds base i j (ct_k (x c)) /\
    ~ In (sigma_at i) (symbols_of (de_expr (dyn c))) /\ ~ In (sigma_at j) (symbols_of (de_expr (dyn c))) /\
    forall cpl, ceval (Env base cpl) (fun _ => 0) (de_expr (dyn c)) <> RtoC 0.
