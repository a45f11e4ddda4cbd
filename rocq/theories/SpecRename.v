(** Specification of a change of the particles of a decay that keeps their spins *)
From Coq Require Import String ZArith List Bool Reals Permutation.
From Coquelicot Require Import Complex.
From Verif Require Import Prelude Decay Expr CExpr Builder SpecDPD Dynamics SpecDynamics.
Import ListNotations.
Local Open Scope string_scope.
Local Open Scope Z_scope.
Local Open Scope list_scope.

(** [g] replaces particles: by others with any name, LaTeX, parity, mass and width, and with the same spin. *)
Definition keeps_spins (g : particle -> particle) : Prop := forall p, p_spin (g p) = p_spin p.
Definition replace_state (g : particle -> particle) (s : state) : state := State (g (st_particle s)) (st_index s).
Definition replace_pobj (g : particle -> particle) (o : pobj) : pobj :=
  match o with PPart q => PPart (g q) | PSt s => PSt (replace_state g s) end.
Fixpoint replace (g : particle -> particle) (t : tree) : tree :=
  match t with
  | Leaf o => Leaf (replace_pobj g o)
  | Node o a b ls => Node (replace_pobj g o) (replace g a) (replace g b) ls
  end.
(** The decays differ by their particles only; chains in any order. *)
Definition replaced_decay (g : particle -> particle) (d : decay) (s : Z -> state) (d' : decay) (s' : Z -> state) : Prop :=
  (forall i, In i [0; 1; 2; 3] -> st_particle (s' i) = g (st_particle (s i))) /\
  Permutation (d_chains d') (map (replace g) (d_chains d)).
(** The same point in phase space; parameters can have other names and values. *)
Definition same_point (base base' : symbol -> C) : Prop :=
  forall n, In n ["m0"; "m1"; "m2"; "m3"; "sigma1"; "sigma2"; "sigma3"] -> base' (Sym n ANonneg) = base (Sym n ANonneg).
(** A common phase [u] for all chains, and complex conjugation if [cj] *)
Definition common_phase (u : C) (cj : bool) (x : C) : C := (u * (if cj then Cconj x else x))%C.
(** The product of the couplings and the lineshape of a chain: its only unknowns *)
Definition strength (uc ph dh : bool) (base : symbol -> C) (cpl : string -> list ival -> C) (e : defexpr) (c : chain) (r lk li lj : Z) : C :=
  ((if uc then coefficient else coupling_product) (Env base cpl) ph dh c r lk li lj
   * ceval (Env base cpl) (fun _ => 0%Z) (de_expr e))%C.
(** The strengths of all chains of two models agree up to a common phase and conjugation. *)
Definition same_strengths (uc : bool) (b : builder) (s : Z -> state) (g : particle -> particle) (dyn dyn' : chain -> defexpr)
  (base base' : symbol -> C) (cpl cpl' : string -> list ival -> C) (u : C) (cj : bool) : Prop :=
  forall c r l i j k, In c (d_chains (b_decay b)) -> ch_spectator c = s k -> cyclic i j k -> helicity_tuple s l ->
    In r (helicities (p_spin (ch_resonance c))) ->
    strength uc (b_prod_helicity b) (b_dec_helicity b) base' cpl' (dyn' (replace g c)) (replace g c) r (at4 l k) (at4 l i) (at4 l j)
    = common_phase u cj (strength uc (b_prod_helicity b) (b_dec_helicity b) base cpl (dyn c) c r (at4 l k) (at4 l i) (at4 l j)).

(** Breit-Wigners with constant widths and without form factors, or no dynamics *)
Definition constant_widths (d : decay) (dyn : chain -> defexpr) : Prop := forall c, In c (d_chains d) ->
  dyn c = DefExpr (CNum 1) [] \/
  exists rho f, phsp_value rho f /\ bw_call (BWBuilder false false false rho) c = Ok (dyn c).
(** Real values of the masses and widths of the resonances and of the invariants; the second point differs by the signs of the widths. *)
Definition opposite_widths (d : decay) (base base' : symbol -> C) : Prop :=
  same_point base base' /\
  (forall n, In n ["sigma1"; "sigma2"; "sigma3"] -> Im (base (Sym n ANonneg)) = 0%R) /\
  forall c, In c (d_chains d) ->
    Im (base (resonance_mass (ch_resonance c))) = 0%R /\ Im (base (resonance_width (ch_resonance c))) = 0%R /\
    base' (resonance_mass (ch_resonance c)) = base (resonance_mass (ch_resonance c)) /\
    base' (resonance_width (ch_resonance c)) = (- base (resonance_width (ch_resonance c)))%C.
(** A chain and the chain with the new particles have lineshapes of BreitWignerBuilder with the same settings, or no dynamics. *)
Definition same_settings (g : particle -> particle) (d : decay) (dyn dyn' : chain -> defexpr) : Prop :=
  forall c, In c (d_chains d) ->
    (dyn c = DefExpr (CNum 1) [] /\ dyn' (replace g c) = DefExpr (CNum 1) []) \/
    exists w f, phsp_value (bw_phsp_factor w) f /\
      bw_call w c = Ok (dyn c) /\ bw_call w (replace g c) = Ok (dyn' (replace g c)).
(** The labels of the couplings and parameters: the LaTeX of the initial state and the resonances *)
Definition keeps_labels (g : particle -> particle) (d : decay) (s : Z -> state) : Prop :=
  p_latex (g (st_particle (s 0))) = p_latex (st_particle (s 0)) /\
  forall c, In c (d_chains d) -> p_latex (g (ch_resonance c)) = p_latex (ch_resonance c).
