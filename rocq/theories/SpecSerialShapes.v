(** Specification vocabulary for the lineshapes of deserialised models *)
From Coq Require Import String ZArith QArith Qcanon List Reals.
From Coquelicot Require Import Complex.
From Verif Require Import Prelude Expr CExpr Sums SpecDynamics SpecSerial.
Import ListNotations.
Local Open Scope string_scope.
Local Open Scope Z_scope.
Local Open Scope list_scope.

(** The width of one channel: g m / sqrt(s) FF_L(s)^2 *)
Definition channel_formula (L : Z) (s m g ma mb r : C) : C :=
  (g * m / csqrt s * (form_factor L s ma mb r * form_factor L s ma mb r))%C.
(** The sum over the channels number [n], [n]+1, ... with angular momenta [Ls] *)
Fixpoint further_widths (ev : env) (k : Z) (name : string) (n : Z) (Ls : list Z) : C :=
  match Ls with
  | [] => RtoC 0
  | L :: Ls =>
      (channel_formula L (e_sym ev (sigma_sym k)) (e_sym ev (named "m" name)) (e_sym ev (channel_width_sym name n))
         (e_sym ev (channel_mass_sym "a" n)) (e_sym ev (channel_mass_sym "b" n)) (e_sym ev (named "R" name))
       + further_widths ev k name (n + 1) Ls)%C
  end.
(** The resonance name does not look like a channel number *)
Definition not_a_channel (name : string) : Prop :=
  forall n, 2 <= n -> named "m" name <> channel_mass_sym "a" n /\ named "m" name <> channel_mass_sym "b" n.
