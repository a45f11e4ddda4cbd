(** Specification vocabulary for the dependence of the intensity on the couplings (C95) *)
From Coq Require Import String ZArith List Bool Reals.
From Coquelicot Require Import Complex.
From Verif Require Import Prelude Decay Expr CExpr SpecDPD Builder.
Import ListNotations.

(** The couplings whose base is in [names] are a x (first) + b x (second); all others are the same. *)
Definition combined (names : string -> Prop) (a b : C) (cpl1 cpl2 cpl : string -> list ival -> C) : Prop :=
  forall n ix, (names n -> cpl n ix = (a * cpl1 n ix + b * cpl2 n ix)%C) /\
               (~ names n -> cpl1 n ix = cpl n ix /\ cpl2 n ix = cpl n ix).
(** With one coefficient per chain these are all couplings; otherwise the couplings of the production vertices or
    those of the decay vertices. *)
Definition one_factor (b : builder) (use_coefficients : bool) (names : string -> Prop) : Prop :=
  if use_coefficients then forall n, names n
  else (forall n, names n <-> n = production_name (b_prod_helicity b)) \/
       (forall n, names n <-> n = decay_name (b_dec_helicity b)).
