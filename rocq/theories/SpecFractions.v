(** Specification of interference between any number of contributions (C122). *)
From Coq Require Import String ZArith List Bool Reals.
From Coquelicot Require Import Complex.
From Verif Require Import Prelude Decay Expr Sums CExpr SpecDPD Builder.
Import ListNotations.

(** The couplings whose base is in [names] are a linear combination of couplings; all others are the same. *)
Definition superposed (names : string -> Prop) (xs : list (C * (string -> list ival -> C))) (cpl : string -> list ival -> C) : Prop :=
  forall n ix, (names n -> cpl n ix = Csum xs (fun x => fst x * snd x n ix)%C) /\
               (~ names n -> forall x, In x xs -> snd x n ix = cpl n ix).
(** A matrix of interferences: Hermitian, with the intensities of the single contributions on the diagonal, and bounded
    by them. *)
Record interference {A} (value : A -> C) (G : A -> A -> C) : Prop := {
  if_diagonal : forall x, G x x = value x;
  if_hermitian : forall x y, G y x = Cconj (G x y);
  if_bound : forall x y, (Cmod (G x y) ^ 2 <= Re (value x) * Re (value y))%R;
}.
(** All pairs of an element and a later one *)
Fixpoint pairs {A} (l : list A) : list (A * A) :=
  match l with
  | [] => []
  | x :: l => map (fun y => (x, y)) l ++ pairs l
  end.

(** A part of a model: a builder with some of the chains and its model *)
Record part : Type := Part { pt_builder : builder; pt_reference : option Z; pt_cleanup : bool; pt_model : model }.
(** The part has the same outer particles, lineshapes, bases and resolved reference subsystem. *)
Record is_part (b : builder) (s : Z -> state) (dyn : chain -> defexpr) (uc : bool) (r : Z) (p : part) : Prop := {
  ip_decay : std_decay (b_decay (pt_builder p)) s;
  ip_dynamics : dynamics_of (pt_builder p) dyn;
  ip_prod : b_prod_helicity (pt_builder p) = b_prod_helicity b;
  ip_dec : b_dec_helicity (pt_builder p) = b_dec_helicity b;
  ip_model : formulate (pt_builder p) (pt_reference p) (pt_cleanup p) uc = Ok (pt_model p);
  ip_reference : resolve_reference (b_decay (pt_builder p)) (pt_reference p) = Ok r;
}.
