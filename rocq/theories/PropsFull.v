(** C125: the full expression of a model *)
From Coq Require Import String ZArith List Bool Reals.
From Coquelicot Require Import Complex.
From Verif Require Import Prelude Decay Expr CExpr SpecDPD SpecBuilder Builder SerFormat SerDynamics SpecSerial DoIt SpecFull
  BuilderExamples LcModel LcProofs FullProofs.
From Verif Require SerAmplitude.
Import ListNotations.
Local Open Scope Z_scope.
Local Open Scope list_scope.

(** Built models *)
Theorem C125_value (b : builder) (s : Z -> state) (dyn : chain -> defexpr) (ref : option Z) (cl uc : bool) (m : model) :
  std_decay (b_decay b) s -> dynamics_of b dyn -> Builder.formulate b ref cl uc = Ok m ->
  forall ev h, ceval ev h (full_expression m) = full_value ev m.
Proof. exact (c125_value b s dyn ref cl uc m). Qed.
Print Assumptions C125_value.
Theorem C125_expanded (b : builder) (s : Z -> state) (dyn : chain -> defexpr) (ref : option Z) (cl uc : bool) (m : model) :
  std_decay (b_decay b) s -> dynamics_of b dyn -> Builder.formulate b ref cl uc = Ok m -> expanded (full_expression m).
Proof. exact (c125_expanded b s dyn ref cl uc m). Qed.
Print Assumptions C125_expanded.
Theorem C125_defined (b : builder) (s : Z -> state) (dyn : chain -> defexpr) (ref : option Z) (cl uc : bool) (m : model) :
  std_decay (b_decay b) s -> dynamics_of b dyn -> Builder.formulate b ref cl uc = Ok m ->
  (forall c y, In c (d_chains (b_decay b)) -> In y (symbols_of (de_expr (dyn c))) ->
     In (KSym y) (dkeys (de_params (dyn c))) \/ mass_symbol y \/ mandelstam y) ->
  all_defined m (full_expression m).
Proof. exact (c125_defined b s dyn ref cl uc m). Qed.
Print Assumptions C125_defined.
Theorem C125_inputs (b : builder) (s : Z -> state) (dyn : chain -> defexpr) (ref : option Z) (cl uc : bool) (m : model) :
  std_decay (b_decay b) s -> dynamics_of b dyn -> Builder.formulate b ref cl uc = Ok m ->
  forall base base' cpl cpl',
  (forall c y, In c (d_chains (b_decay b)) -> In y (symbols_of (de_expr (dyn c))) ->
     In (KSym y) (dkeys (de_params (dyn c))) \/ mass_symbol y \/ mandelstam y) ->
  same_inputs m base base' cpl cpl' ->
  full_value (at_point (m_variables m) base cpl) m = full_value (at_point (m_variables m) base' cpl') m.
Proof. exact (c125_inputs b s dyn ref cl uc m). Qed.
Print Assumptions C125_inputs.
Example C125_example : std_decay (b_decay ex_b) ex_st /\ dynamics_of ex_b ex_dyn /\
  (exists m, Builder.formulate ex_b None false false = Ok m) /\
  (forall c y, In c (d_chains (b_decay ex_b)) -> In y (symbols_of (de_expr (ex_dyn c))) ->
     In (KSym y) (dkeys (de_params (ex_dyn c))) \/ mass_symbol y \/ mandelstam y) /\ symbols_of (de_expr (ex_dyn DecayProofs.ex_chain)) <> [].
Proof.
  split; [exact ex_std|]. split; [apply ex_dynamics; auto|]. split; [apply ex_formulate; auto|]. split; [|discriminate].
  intros c y [<-|[<-|[]]]; [|intros []]. intros I. unfold mass_symbol, mandelstam. cbn in I |- *. repeat (destruct I as [<-|I]; [cbn; tauto|]). destruct I.
Qed.

(** Serialised models *)
Theorem C125_serial_value (md : model_def) (d : distribution) (s : Z -> state) (r : Z)
  (tl : string -> string) (additional : option (dict string prop_builder))
  (x : chain_def -> content) (w : chain_def -> symbol) (dyn : chain_def -> defexpr)
  (H : helicity_definition md d s r tl additional x w dyn) (cl : bool) (m : model)
  (F : SerAmplitude.formulate md cl tl additional = Ok m) :
  (forall ev h, ceval ev h (full_expression m) = full_value ev m) /\ expanded (full_expression m).
Proof.
  exact (conj (c125_serial_value md d s r tl additional x w dyn H cl m F) (c125_serial_expanded md d s r tl additional x w dyn H cl m F)).
Qed.
Print Assumptions C125_serial_value.
Theorem C125_serial_defined (md : model_def) (d : distribution) (s : Z -> state) (r : Z)
  (tl : string -> string) (additional : option (dict string prop_builder))
  (x : chain_def -> content) (w : chain_def -> symbol) (dyn : chain_def -> defexpr)
  (H : helicity_definition md d s r tl additional x w dyn) (cl : bool) (m : model)
  (F : SerAmplitude.formulate md cl tl additional = Ok m) :
  (forall c, In c (di_chains d) -> closed_expression (dyn c)) ->
  all_defined m (full_expression m) /\ forall h base idx, ~ In (OIdx base idx) (occ h (full_expression m)).
Proof. exact (c125_serial_defined md d s r tl additional x w dyn H cl m F). Qed.
Print Assumptions C125_serial_defined.
Theorem C125_serial_inputs (md : model_def) (d : distribution) (s : Z -> state) (r : Z)
  (tl : string -> string) (additional : option (dict string prop_builder))
  (x : chain_def -> content) (w : chain_def -> symbol) (dyn : chain_def -> defexpr)
  (H : helicity_definition md d s r tl additional x w dyn) (cl : bool) (m : model)
  (F : SerAmplitude.formulate md cl tl additional = Ok m) (base base' : symbol -> C) (cpl cpl' : string -> list ival -> C) :
  (forall c, In c (di_chains d) -> closed_expression (dyn c)) -> same_inputs m base base' cpl cpl' ->
  full_value (at_point (m_variables m) base cpl) m = full_value (at_point (m_variables m) base' cpl') m.
Proof. exact (c125_serial_inputs md d s r tl additional x w dyn H cl m F base base' cpl cpl'). Qed.
Print Assumptions C125_serial_inputs.
Example C125_serial_example : helicity_definition lc_model lc_dist lc_s 2 lc_tl lc_builders lc_x lc_w lc_dyn /\
  (forall c, In c (di_chains lc_dist) -> closed_expression (lc_dyn c)) /\
  exists M, SerAmplitude.formulate lc_model true lc_tl lc_builders = Ok M.
Proof. split; [exact lc_definition|]. split; [exact lc_closed|apply lc_formulate]. Qed.
