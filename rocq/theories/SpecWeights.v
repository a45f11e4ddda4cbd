(** Specification vocabulary for the weights of serialised models (C117, C118) *)
From Coq Require Import String ZArith List Bool Reals Permutation.
From Coquelicot Require Import Complex.
From Verif Require Import Prelude Decay Expr CExpr Builder SpecDPD SpecBuilder SerFormat SpecSerial.
Import ListNotations.

(** The symbol [y] is the weight of one of the chains [cs]. *)
Definition is_weight (w : chain_def -> symbol) (cs : list chain_def) (y : symbol) : Prop := exists c, In c cs /\ y = w c.
(** The weights of the chains [cs] are a x (first) + b x (second); all other values are the same. *)
Definition weights_combined (w : chain_def -> symbol) (cs : list chain_def) (a b : C) (v1 v2 v : symbol -> C) : Prop :=
  forall y, (is_weight w cs y -> v y = (a * v1 y + b * v2 y)%C) /\
            (~ is_weight w cs y -> v1 y = v y /\ v2 y = v y).
(** Weights are not used in lineshapes. *)
Definition weights_only (w : chain_def -> symbol) (dyn : chain_def -> defexpr) (cs : list chain_def) : Prop :=
  forall c y, In c cs -> is_weight w cs y -> ~ In y (symbols_of (de_expr (dyn c))).
(** The weight of every chain [c] is [f c] x (first); all other values are the same. *)
Definition weights_scaled (w : chain_def -> symbol) (cs : list chain_def) (f : chain_def -> C) (v1 v : symbol -> C) : Prop :=
  (forall c, In c cs -> v (w c) = (f c * v1 (w c))%C) /\ (forall y, ~ is_weight w cs y -> v1 y = v y).
