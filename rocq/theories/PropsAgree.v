(** C116: built and serialised models agree if the initial state has spin 0 *)
From Coq Require Import String ZArith List Bool Reals.
From Coquelicot Require Import Complex.
From Verif Require Import Prelude Spin Decay Expr CExpr SpecDPD Builder SpecBuilder Dynamics SpecDynamics SerFormat SerDynamics
  SpecSerial SpecAgree AgreeProofs AgreeExamples SerExamples.
From Verif Require SerAmplitude.
Import ListNotations.
Local Open Scope string_scope.
Local Open Scope Z_scope.
Local Open Scope list_scope.

(** ** C116 *)
Theorem C116_agreement (b : builder) (s s' : Z -> state) (dyn : chain -> defexpr) (ref : option Z) (cl cl' uc : bool) (m M : model) (r : Z)
  (md : model_def) (d : distribution) (tl : string -> string) (additional : option (dict string prop_builder))
  (x : chain_def -> content) (w : chain_def -> symbol) (dyn' : chain_def -> defexpr) (term : chain -> Z * Z * Z * Z -> chain_def) :
  std_decay (b_decay b) s -> dynamics_of b dyn -> (b_prod_helicity b = false -> plain_resonances (b_decay b)) ->
  Builder.formulate b ref cl uc = Ok m -> resolve_reference (b_decay b) ref = Ok r -> p_spin (s 0) = 0 ->
  helicity_definition md d s' r tl additional x w dyn' -> SerAmplitude.formulate md cl' tl additional = Ok M ->
  (forall i, In i [0; 1; 2; 3] -> p_spin (s' i) = p_spin (s i)) ->
  serial_copy s (d_chains (b_decay b)) d x term ->
  forall ev,
  (forall c l i j k, In c (d_chains (b_decay b)) -> In l (allowed_helicities s c) -> ch_spectator c = s k -> cyclic i j k ->
    (e_sym ev (w (term c l)) * ceval ev (fun _ => 0) (de_expr (dyn' (term c l)))
     = weight_of uc ev b s c l i j k * ceval ev (fun _ => 0) (de_expr (dyn c)))%C) ->
  full_value ev M = full_value ev m /\
  forall k l, In k [1; 2; 3] -> helicity_tuple s l -> amp_value ev M k l = amp_value ev m k l.
Proof.
  exact (fun D Y P F R J H F' S C ev V =>
    conj (agree_intensity b s s' dyn ref cl cl' uc m M r md d tl additional x w dyn' term D Y P F R J H F' S C ev V)
         (agree_amplitude b s s' dyn ref cl cl' uc m M r md d tl additional x w dyn' term D Y P F J H F' S C ev V)).
Qed.
Print Assumptions C116_agreement.

(** The angles are the same functions of the Mandelstam variables. *)
Theorem C116_variables (b : builder) (s s' : Z -> state) (dyn : chain -> defexpr) (ref : option Z) (cl cl' uc : bool) (m M : model) (r : Z)
  (md : model_def) (d : distribution) (tl : string -> string) (additional : option (dict string prop_builder))
  (x : chain_def -> content) (w : chain_def -> symbol) (dyn' : chain_def -> defexpr) (term : chain -> Z * Z * Z * Z -> chain_def) :
  std_decay (b_decay b) s -> dynamics_of b dyn -> (b_prod_helicity b = false -> plain_resonances (b_decay b)) ->
  Builder.formulate b ref cl uc = Ok m -> resolve_reference (b_decay b) ref = Ok r ->
  helicity_definition md d s' r tl additional x w dyn' -> SerAmplitude.formulate md cl' tl additional = Ok M ->
  (forall i, In i [0; 1; 2; 3] -> p_spin (s' i) = p_spin (s i)) ->
  serial_copy s (d_chains (b_decay b)) d x term -> (forall c, In c (di_chains d) -> closed_expression (dyn' c)) ->
  forall y e, dget y (m_variables M) = Some e -> dget y (m_variables m) = Some e.
Proof.
  exact (fun D Y P F R H F' S C Cl y e =>
    agree_variables b s s' dyn ref cl cl' uc m M r md d tl additional x w dyn' term D Y P F R H F' S C y e Cl).
Qed.
Print Assumptions C116_variables.

(** The Breit-Wigner functions of the two differ by the product of mass and width of the resonance. *)
Theorem C116_breit_wigner (c : chain) (p0 : state) (res : particle) (a b k : state) i L S e
  (md : model_def) (p : propagator) (f : func_def) vm vw va vb vd :
  isobar_chain c p0 res a b k i (Some (LS L S)) -> bw_call (BWBuilder true false false phase_space_factor) c = Ok e ->
  pr_node p = [It (st_index a); It (st_index b)] -> function_of md (pr_parametrization p) f ->
  dget "l" (fd_numbers f) = Some (Qc_of_Z L) -> dget "mass" (fd_numbers f) = Some vm -> dget "width" (fd_numbers f) = Some vw ->
  dget "ma" (fd_numbers f) = Some va -> dget "mb" (fd_numbers f) = Some vb -> dget "d" (fd_numbers f) = Some vd ->
  exists e', formulate_breit_wigner p (p_latex res) md = Ok e' /\
    forall ev h, ceval ev h (de_expr e)
      = (e_sym ev (named "m" (p_latex res)) * e_sym ev (named "\Gamma" (p_latex res)) * ceval ev h (de_expr e'))%C.
Proof. exact (agree_breit_wigner c p0 res a b k i L S e md p f vm vw va vb vd). Qed.
Print Assumptions C116_breit_wigner.

(** B -> p pbar K with a resonance X of spin 1 in p pbar and a resonance L of spin 1/2 in pbar K: eight serialised chains *)
Example C116_example :
  std_decay (b_decay ag_b) ag_s /\ dynamics_of ag_b ag_dyn /\ (exists m, Builder.formulate ag_b (Some 1) false false = Ok m) /\
  resolve_reference (b_decay ag_b) (Some 1) = Ok 1 /\ p_spin (ag_s 0) = 0 /\
  helicity_definition ag_model ag_dist ag_s 1 sx_tl None ag_x ag_w ag_dyn' /\
  (exists M, SerAmplitude.formulate ag_model true sx_tl None = Ok M) /\
  serial_copy ag_s (d_chains (b_decay ag_b)) ag_dist ag_x ag_term /\ length (di_chains ag_dist) = 8%nat /\
  (forall c, In c (di_chains ag_dist) -> closed_expression (ag_dyn' c)) /\
  (forall c l i j k, In c (d_chains (b_decay ag_b)) -> In l (allowed_helicities ag_s c) -> ch_spectator c = ag_s k -> cyclic i j k ->
    (e_sym ag_env (ag_w (ag_term c l)) * ceval ag_env (fun _ => 0) (de_expr (ag_dyn' (ag_term c l)))
     = weight_of false ag_env ag_b ag_s c l i j k * ceval ag_env (fun _ => 0) (de_expr (ag_dyn c)))%C) /\
  isobar_chain ag_X (ag_s 0) (ag_res "X" 2) (ag_s 1) (ag_s 2) (ag_s 3) (Some (LS 1 2)) (Some (LS 1 0)) /\
  bw_call (BWBuilder true false false phase_space_factor) ag_X = Ok (ag_dyn ag_X).
Proof.
  split; [exact ag_std|]. split; [exact ag_dynamics|]. split; [exact ag_formulate|]. split; [reflexivity|]. split; [reflexivity|].
  split; [exact (proj1 ag_definition)|]. split; [exact (ag_serial true)|]. split; [exact ag_copy|]. split; [reflexivity|].
  split; [exact (proj2 ag_definition)|]. split; [exact ag_values|]. split; [exact ag_iso_X|exact (ag_call _ (or_introl eq_refl))].
Qed.
