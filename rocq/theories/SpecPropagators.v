(** Specification of the lineshapes of the propagators of a serialised chain, with user-defined lineshapes. *)
From Coq Require Import String ZArith QArith Qcanon List Bool Reals.
From Coquelicot Require Import Complex.
From Verif Require Import Prelude Expr CExpr Builder SerFormat SpecSerial.
From Verif Require SerDynamics.
Import ListNotations.
Local Open Scope string_scope.
Local Open Scope list_scope.

(** The builder for a function type: the user's if there is one, otherwise the built-in one *)
Definition builder_for (additional : option (dict string SerDynamics.prop_builder)) (type : string)
  (b : SerDynamics.prop_builder) : Prop :=
  (exists a, additional = Some a /\ In (type, b) a) \/
  (forall a, additional = Some a -> ~ In type (map fst a)) /\
  (type = "BreitWigner" /\ b = SerDynamics.formulate_breit_wigner \/
   type = "MultichannelBreitWigner" /\ b = SerDynamics.formulate_multichannel_breit_wigner).
(** Dictionaries have each key once. *)
Definition is_dict (additional : option (dict string SerDynamics.prop_builder)) : Prop :=
  forall a, additional = Some a -> NoDup (map fst a).
(** [x] is the lineshape of the propagator [p] of the resonance [name]. *)
Definition lineshape_of (m : model_def) (name : string) (additional : option (dict string SerDynamics.prop_builder))
  (p : propagator) (x : defexpr) : Prop :=
  exists f b, function_of m (pr_parametrization p) f /\ builder_for additional (fd_type f) b /\ b p name m = Ok x.
(** Why a propagator has no lineshape *)
Definition no_lineshape (m : model_def) (name : string) (additional : option (dict string SerDynamics.prop_builder))
  (p : propagator) (e : exn) : Prop :=
  (e = KeyError /\ forall f, In f (md_functions m) -> fd_name f <> pr_parametrization p) \/
  (e = NotImplementedErr /\ exists f, function_of m (pr_parametrization p) f /\ forall b, ~ builder_for additional (fd_type f) b) \/
  (exists f b, function_of m (pr_parametrization p) f /\ builder_for additional (fd_type f) b /\ b p name m = Err e).
Fixpoint product (l : list C) : C := match l with [] => RtoC 1 | z :: l => (z * product l)%C end.
(** The last of several lineshapes that defines a parameter gives its value. *)
Definition last_value (y : pkey) (xs : list defexpr) (v : pval) : Prop :=
  exists xs1 x xs2, xs = xs1 ++ x :: xs2 /\ In (y, v) (de_params x) /\
    forall x', In x' xs2 -> ~ In y (map fst (de_params x')).
