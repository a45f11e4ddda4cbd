(** Properties of the dynamics of serialised chains with user-defined lineshapes. *)
From Coq Require Import String ZArith QArith Qcanon List Bool Reals.
From Coquelicot Require Import Complex.
From Verif Require Import Prelude Expr CExpr Builder SerFormat SpecSerial SerDynamics SpecPropagators SerPropagators.
From Verif Require SerExamples.
Import ListNotations.
Local Open Scope string_scope.
Local Open Scope list_scope.

(** ** C82 *)
Theorem C82_product c m tl additional e : is_dict additional -> formulate_dynamics c m tl additional = Ok e ->
  exists xs, Forall2 (lineshape_of m (tl (cd_name c)) additional) (cd_propagators c) xs /\
    (forall ev h, ceval ev h (de_expr e) = product (map (fun x => ceval ev h (de_expr x)) xs)) /\
    ((forall x, In x xs -> NoDup (map fst (de_params x))) ->
     forall y v, dget y (de_params e) = Some v <-> last_value y xs v).
Proof. exact (c82_value c m tl additional e). Qed.
Print Assumptions C82_product.

Theorem C82_outcome c m tl additional : is_dict additional ->
  ((exists e, formulate_dynamics c m tl additional = Ok e) <->
     forall p, In p (cd_propagators c) -> exists x, lineshape_of m (tl (cd_name c)) additional p x) /\
  (forall x, formulate_dynamics c m tl additional = Err x ->
     exists ps1 p ps2, cd_propagators c = ps1 ++ p :: ps2 /\
       (forall q, In q ps1 -> exists x, lineshape_of m (tl (cd_name c)) additional q x) /\
       no_lineshape m (tl (cd_name c)) additional p x).
Proof. exact (c82_outcome c m tl additional). Qed.
Print Assumptions C82_outcome.
(** A chain with two propagators, and a user's builder that replaces the built-in Breit-Wigner *)
Example C82_example : exists own : prop_builder,
  let additional := Some [("BreitWigner", own)] in
  let c := ChainDef "D" [Propagator (Spin.half 3) [It 1; It 2] "D_BW"; Propagator (Spin.half 1) [It 1; It 2] "L_MC"] [] []
    one_val in
  is_dict additional /\ builder_for additional "BreitWigner" own /\
  builder_for additional "MultichannelBreitWigner" formulate_multichannel_breit_wigner /\
  is_ok (formulate_dynamics c SerExamples.sx_model (fun n => n) additional).
Proof.
  exists (fun p r m => Ok (DefExpr (CVar (Sym r ANone)) [])). cbv zeta. split; [|split; [|split]].
  - intros a E. injection E as <-. repeat constructor. intros [].
  - left. eexists. split; [reflexivity|]. left. reflexivity.
  - right. split; [|right; auto]. intros a E. injection E as <-. intros [E|[]]. discriminate E.
  - vm_compute. eexists. reflexivity.
Qed.

(** ** C70: the dynamics in the amplitudes are the product of the lineshapes and form factors. *)
Theorem C70_dynamics m tl additional c x : is_dict additional -> dynamics_of_chain m tl additional c x ->
  exists ls fs, Forall2 (lineshape_of m (tl (cd_name c)) additional) (cd_propagators c) ls /\
    Forall2 (fun v f => formulate_form_factor v m = Ok f) (cd_vertices c) fs /\
    (forall ev h, ceval ev h (de_expr x) = product (map (fun y => ceval ev h (de_expr y)) (ls ++ fs))) /\
    ((forall y, In y (ls ++ fs) -> NoDup (map fst (de_params y))) ->
     forall y v, dget y (de_params x) = Some v <-> last_value y (ls ++ fs) v).
Proof. exact (c70_dynamics m tl additional c x). Qed.
Print Assumptions C70_dynamics.
Example C70_dynamics_example : forall c, In c SerExamples.sx_chains ->
  dynamics_of_chain SerExamples.sx_model SerExamples.sx_tl None c (SerExamples.sx_dyn c).
Proof. exact (hd_dynamics _ _ _ _ _ _ _ _ _ (proj1 SerExamples.sx_definition)). Qed.
