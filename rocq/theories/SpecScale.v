(** Specification vocabulary for C152: which couplings give the same amplitudes *)
From Coq Require Import String ZArith List Bool Reals.
From Coquelicot Require Import Complex.
From Verif Require Import Prelude Decay Expr CExpr SpecDPD Builder.
Import ListNotations.
Local Open Scope Z_scope.

(** The production couplings of each resonance are multiplied by a number and its decay couplings are divided by it. *)
Definition rescaled (ph dh : bool) (z : string -> C) (cpl cpl' : string -> list ival -> C) : Prop :=
  forall label v,
    cpl' (production_name ph) (IStr label :: v) = (z label * cpl (production_name ph) (IStr label :: v))%C /\
    cpl' (decay_name dh) (IStr label :: v) = (cpl (decay_name dh) (IStr label :: v) / z label)%C.

(** The chains of a subsystem *)
Definition chains_in (d : decay) (k : Z) : list chain := filter (fun c => st_index (ch_spectator c) =? k) (d_chains d).
