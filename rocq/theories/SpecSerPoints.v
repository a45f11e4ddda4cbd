(** Specification vocabulary for the values of serialised models at different points (C126) *)
From Coq Require Import String ZArith QArith Qcanon List Bool Reals.
From Coquelicot Require Import Complex.
From Verif Require Import Prelude Spin Decay Expr CExpr Builder SerFormat SpecSerial.
Import ListNotations.
Local Open Scope string_scope.
Local Open Scope Z_scope.
Local Open Scope list_scope.

(** Similar points in phase space: all masses of the initial and final states are multiplied with [t], all Mandelstam
    variables with t^2. For t = 1: the same point *)
Definition similar_points (t : R) (base base' : symbol -> C) : Prop :=
  (forall n, In n [0; 1; 2; 3] -> base' (mass_sym n) = (RtoC t * base (mass_sym n))%C) /\
  (forall k, In k [1; 2; 3] -> base' (sigma_sym k) = (RtoC (t * t) * base (sigma_sym k))%C).
(** Weight times lineshape of a chain *)
Definition chain_strength (w : chain_def -> symbol) (dyn : chain_def -> defexpr) (base : symbol -> C)
  (cpl : string -> list ival -> C) (c : chain_def) : C :=
  (base (w c) * ceval (Env base cpl) (fun _ => 0) (de_expr (dyn c)))%C.

(** The parameters of the lineshapes of a resonance: masses, widths and radii. Couplings of channels are widths. *)
Definition resonance_masses (name : string) (y : symbol) : Prop :=
  y = named "m" name \/ exists n, y = channel_mass_sym "a" n \/ y = channel_mass_sym "b" n.
Definition resonance_widths (name : string) (y : symbol) : Prop :=
  y = named "\Gamma" name \/ exists n, y = channel_width_sym name n.
Definition resonance_radii (name : string) (y : symbol) : Prop := y = radius_sym \/ y = named "R" name.
(** The same model in a unit of mass that is smaller by a factor [t] *)
Definition serial_units (tl : string -> string) (w : chain_def -> symbol) (cs : list chain_def) (t : R) (base base' : symbol -> C) : Prop :=
  similar_points t base base' /\
  forall c, In c cs -> base' (w c) = base (w c) /\
    (forall y, resonance_masses (tl (cd_name c)) y \/ resonance_widths (tl (cd_name c)) y -> base' y = (RtoC t * base y)%C) /\
    (forall y, resonance_radii (tl (cd_name c)) y -> base' y = (RtoC (/ t) * base y)%C).
(** A chain has no form factor in the production vertex, or one in an S wave. *)
Definition no_production_barrier (m : model_def) (c : chain_def) : Prop :=
  forall v k pair, In v (cd_vertices c) -> with_pair k pair (v_node v) ->
    v_formfactor v = None \/ v_formfactor v = Some "" \/
    exists name f, v_formfactor v = Some name /\ function_of m name f /\ dget "l" (fd_numbers f) = Some (Q2Qc 0).

(** The same point with opposite widths and complex conjugate weights; all values but the weights are real. *)
Definition opposite_serial_widths (tl : string -> string) (w : chain_def -> symbol) (cs : list chain_def) (base base' : symbol -> C) : Prop :=
  similar_points 1 base base' /\
  (forall n, In n [0; 1; 2; 3] -> Im (base (mass_sym n)) = 0%R) /\ (forall k, In k [1; 2; 3] -> Im (base (sigma_sym k)) = 0%R) /\
  forall c, In c cs -> base' (w c) = Cconj (base (w c)) /\
    (forall y, resonance_masses (tl (cd_name c)) y \/ resonance_radii (tl (cd_name c)) y -> base' y = base y /\ Im (base y) = 0%R) /\
    (forall y, resonance_widths (tl (cd_name c)) y -> base' y = (- base y)%C /\ Im (base y) = 0%R).
(** The lineshapes of the type BreitWigner are of resonances above the threshold of their decay. *)
Definition above_threshold (m : model_def) (tl : string -> string) (x : chain_def -> content) (base : symbol -> C) (c : chain_def) : Prop :=
  (exists p f, In p (cd_propagators c) /\ function_of m (pr_parametrization p) f /\ fd_type f = "BreitWigner") ->
  (Re (base (mass_sym (ct_i (x c)))) + Re (base (mass_sym (ct_j (x c)))) < Re (base (named "m" (tl (cd_name c)))))%R.
