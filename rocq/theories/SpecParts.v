(** Specification vocabulary for parts of serialised models (C124) *)
From Coq Require Import String ZArith List Bool Reals.
From Coquelicot Require Import Complex.
From Verif Require Import Prelude Decay Expr Sums CExpr Builder SerFormat SerDynamics SpecSerial SpecWeights.
Import ListNotations.

(** The model definition with other chains *)
Definition with_chains (m : model_def) (cs : list chain_def) : model_def :=
  match md_distributions m with
  | [] => m
  | d :: rest => ModelDef (Distribution (di_initial d) (di_final d) (di_reference d) cs :: rest) (md_functions m)
  end.
(** The user's lineshape builders do not look at the chains of the model. *)
Definition chains_unused (additional : option (dict string prop_builder)) : Prop :=
  forall table type b, additional = Some table -> In (type, b) table ->
    forall p resonance m cs, b p resonance (with_chains m cs) = b p resonance m.
(** The weights of the chains [cs] are a linear combination of weights; all other values are the same. *)
Definition weights_superposed (w : chain_def -> symbol) (cs : list chain_def) (xs : list (C * (symbol -> C))) (v : symbol -> C) : Prop :=
  forall y, (is_weight w cs y -> v y = Csum xs (fun x => fst x * snd x y)%C) /\
            (~ is_weight w cs y -> forall x, In x xs -> snd x y = v y).
(** Two valuations differ in weights of the chains [cs] only. *)
Definition same_but_weights (w : chain_def -> symbol) (cs : list chain_def) (v v' : symbol -> C) : Prop :=
  forall y, ~ is_weight w cs y -> v y = v' y.
