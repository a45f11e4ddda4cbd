(** Specification vocabulary for rates in other conventions (C147) *)
From Coq Require Import String ZArith List Bool Reals.
From Coquelicot Require Import Complex.
From Verif Require Import Prelude Decay Expr CExpr SpecDPD SpecRelabel Builder SpecObs SpecBounded SpecNormal.
Import ListNotations.
Local Open Scope R_scope.

(** The same point of the Dalitz plot with the new labels [p] and in a unit of mass that is smaller by a factor [t] *)
Definition same_place (t : R) (p : Z -> Z) (s1 s2 s3 s1' s2' s3' : R) : Prop :=
  forall n, In n [1; 2; 3]%Z -> sigma_value s1' s2' s3' (p n) = t * t * sigma_value s1 s2 s3 n.
(** The pair opposite to [k], in the order that goes with the labels *)
Definition ordered (turn : bool) (p : Z -> Z) : Prop := if turn then exchanges p else keeps_order p.
(** Rates and projections are the same up to the unit of mass and a factor [q] of the distribution: the projection of [I] on sigma_k
    is that of [I'] on sigma_k' in the new unit, and so is the rate. *)
Definition same_rates (t q : R) (base : symbol -> C) (I : (symbol -> C) -> R) (i j k : Z)
  (base' : symbol -> C) (I' : (symbol -> C) -> R) (i' j' k' : Z) : Prop :=
  (forall P, projects_to base I i j k P -> projects_to base' I' i' j' k' (fun s => t ^ 2 * q * P (s / t ^ 2))) /\
  (forall N, integrates_to base I i j k N -> integrates_to base' I' i' j' k' (t ^ 4 * q * N)).
