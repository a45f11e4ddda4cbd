(** Specification vocabulary for the parameters of a model file (C55): the symbols that hold the numbers of its functions *)
From Coq Require Import String ZArith List.
From Verif Require Import Prelude Expr SerFormat SpecSerial.
Import ListNotations.
Local Open Scope string_scope.

(** Lineshapes of type [ty] of a resonance *)
Definition function_symbols (ty name : string) : list (string * symbol) :=
  if eqb ty "BreitWigner" then [("mass", named "m" name); ("width", named "\Gamma" name); ("d", radius_sym)]
  else if eqb ty "BreitWignerWidthExpLikeBugg" then [("mass", named "m" name); ("width", named "\Gamma" name); ("slope", named "\gamma" name)]
  else if eqb ty "MultichannelBreitWigner" then [("mass", named "m" name)] else [].
(** Form factors: of the decay of a resonance, and of the initial state *)
Definition radius_symbol (initial : string) (v : vertex) : symbol :=
  match v_node v with [It _; It _] => radius_sym | _ => named "R" initial end.
