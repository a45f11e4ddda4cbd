(** C117, C118: the weights and the reference subsystem of serialised models *)
From Coq Require Import String ZArith List Bool Reals Permutation.
From Coquelicot Require Import Complex.
From Verif Require Import Prelude Spin Decay Expr CExpr SpecKin SpecDPD Builder SpecBuilder SpecTurn Dynamics SerFormat SerDynamics
  SpecSerial SpecWeights SerWeights SerSymbols SerExamples SerWeightExamples.
From Verif Require SerAmplitude.
Import ListNotations.
Local Open Scope string_scope.
Local Open Scope Z_scope.
Local Open Scope list_scope.

(** ** C117 *)
Theorem C117_nonnegative (m : model_def) (d : distribution) (s : Z -> state) (r : Z) (tl : string -> string)
  (additional : option (dict string prop_builder)) (x : chain_def -> content) (w : chain_def -> symbol) (dyn : chain_def -> defexpr)
  (cl : bool) (M : model) :
  helicity_definition m d s r tl additional x w dyn -> SerAmplitude.formulate m cl tl additional = Ok M ->
  forall ev, exists v, (0 <= v)%R /\ full_value ev M = RtoC v.
Proof. exact (c117_nonnegative m d s r tl additional x w dyn cl M). Qed.
Print Assumptions C117_nonnegative.
Theorem C117_linear (m : model_def) (d : distribution) (s : Z -> state) (r : Z) (tl : string -> string)
  (additional : option (dict string prop_builder)) (x : chain_def -> content) (w : chain_def -> symbol) (dyn : chain_def -> defexpr)
  (cl : bool) (M : model) :
  helicity_definition m d s r tl additional x w dyn -> SerAmplitude.formulate m cl tl additional = Ok M ->
  weights_only w dyn (di_chains d) ->
  forall v1 v2 v idx a b k l, weights_combined w (di_chains d) a b v1 v2 v -> In k [1; 2; 3] -> helicity_tuple s l ->
  amp_value (Env v idx) M k l = (a * amp_value (Env v1 idx) M k l + b * amp_value (Env v2 idx) M k l)%C.
Proof. exact (fun H F W v1 v2 v idx a b k l => c117_linear m d s r tl additional x w dyn H cl M F W v1 v2 v idx a b k l). Qed.
Print Assumptions C117_linear.
Theorem C117_interference (m : model_def) (d : distribution) (s : Z -> state) (r : Z) (tl : string -> string)
  (additional : option (dict string prop_builder)) (x : chain_def -> content) (w : chain_def -> symbol) (dyn : chain_def -> defexpr)
  (cl : bool) (M : model) :
  helicity_definition m d s r tl additional x w dyn -> SerAmplitude.formulate m cl tl additional = Ok M ->
  weights_only w dyn (di_chains d) ->
  forall v1 v2 idx, (forall y, ~ is_weight w (di_chains d) y -> v1 y = v2 y) -> exists H12 : C,
    (Cmod H12 ^ 2 <= Re (full_value (Env v1 idx) M) * Re (full_value (Env v2 idx) M))%R /\
    forall a b v, weights_combined w (di_chains d) a b v1 v2 v ->
      full_value (Env v idx) M =
      RtoC (Cmod a ^ 2 * Re (full_value (Env v1 idx) M) + Cmod b ^ 2 * Re (full_value (Env v2 idx) M)
            + 2 * Re (a * Cconj b * H12)%C)%R.
Proof. exact (fun H F W => c117_interference m d s r tl additional x w dyn H cl M F W). Qed.
Print Assumptions C117_interference.
Theorem C117_common_factor (m : model_def) (d : distribution) (s : Z -> state) (r : Z) (tl : string -> string)
  (additional : option (dict string prop_builder)) (x : chain_def -> content) (w : chain_def -> symbol) (dyn : chain_def -> defexpr)
  (cl : bool) (M : model) :
  helicity_definition m d s r tl additional x w dyn -> SerAmplitude.formulate m cl tl additional = Ok M ->
  weights_only w dyn (di_chains d) ->
  forall v v' idx f, weights_scaled w (di_chains d) (fun _ => f) v v' ->
  full_value (Env v' idx) M = (RtoC (Cmod f ^ 2) * full_value (Env v idx) M)%C.
Proof. exact (fun H F W => c117_scale m d s r tl additional x w dyn H cl M F W). Qed.
Print Assumptions C117_common_factor.
Theorem C117_additive (m m1 m2 : model_def) (d d1 d2 : distribution) (s : Z -> state) (r r1 r2 : Z) (tl : string -> string)
  (additional : option (dict string prop_builder)) (x : chain_def -> content) (w : chain_def -> symbol) (dyn : chain_def -> defexpr)
  (cl cl1 cl2 : bool) (M M1 M2 : model) :
  helicity_definition m d s r tl additional x w dyn -> helicity_definition m1 d1 s r1 tl additional x w dyn ->
  helicity_definition m2 d2 s r2 tl additional x w dyn -> Permutation (di_chains d) (di_chains d1 ++ di_chains d2) ->
  SerAmplitude.formulate m cl tl additional = Ok M -> SerAmplitude.formulate m1 cl1 tl additional = Ok M1 ->
  SerAmplitude.formulate m2 cl2 tl additional = Ok M2 ->
  forall ev k l, In k [1; 2; 3] -> helicity_tuple s l -> amp_value ev M k l = (amp_value ev M1 k l + amp_value ev M2 k l)%C.
Proof. exact (c117_additive m m1 m2 d d1 d2 s r r1 r2 tl additional x w dyn cl cl1 cl2 M M1 M2). Qed.
Print Assumptions C117_additive.
(** The built-in lineshapes and form factors contain no weights. *)
Theorem C117_builtin (m : model_def) (d : distribution) (s : Z -> state) (r : Z) (tl : string -> string)
  (x : chain_def -> content) (w : chain_def -> symbol) (dyn : chain_def -> defexpr) :
  helicity_definition m d s r tl None x w dyn -> weights_only w dyn (di_chains d).
Proof. exact (builtin_weights m d s r tl x w dyn). Qed.
Print Assumptions C117_builtin.
Example C117_example : helicity_definition sx_model (sx_dist sx_chains) sx_s 1 sx_tl None sx_x sx_w sx_dyn /\
  (exists M, SerAmplitude.formulate sx_model true sx_tl None = Ok M) /\ weights_only sx_w sx_dyn sx_chains /\
  (forall a b c a' b' c' y, ~ is_weight sx_w sx_chains y -> wx_base a b c y = wx_base a' b' c' y) /\
  (forall a b c a' b' c' u v, weights_combined sx_w sx_chains u v (wx_base a b c) (wx_base a' b' c')
    (wx_base (u * a + v * a')%C (u * b + v * b')%C (u * c + v * c')%C)).
Proof. exact (conj (proj1 sx_definition) (conj (sx_formulate true) (conj wx_only (conj wx_other wx_combined)))). Qed.
Print Assumptions C117_example.

(** ** C118 *)
Theorem C118_reference_change (m1 m2 : model_def) (d1 d2 : distribution) (s : Z -> state) (r1 r2 : Z) (tl : string -> string)
  (additional : option (dict string prop_builder)) (x : chain_def -> content) (w : chain_def -> symbol) (dyn : chain_def -> defexpr)
  (cl1 cl2 : bool) (M1 M2 : model) :
  helicity_definition m1 d1 s r1 tl additional x w dyn -> helicity_definition m2 d2 s r2 tl additional x w dyn ->
  Permutation (di_chains d1) (di_chains d2) ->
  SerAmplitude.formulate m1 cl1 tl additional = Ok M1 -> SerAmplitude.formulate m2 cl2 tl additional = Ok M2 ->
  forall base base' cpl, weights_only w dyn (di_chains d1) ->
  weights_scaled w (di_chains d1) (fun c => RtoC (turn_sign s r1 r2 (ct_k (x c)))) base base' ->
  physical (fun y => Re (base y)) -> nonsingular (fun y => Re (base y)) ->
  full_value (at_point (m_variables M2) base cpl) M2 = full_value (at_point (m_variables M1) base' cpl) M1.
Proof. exact (fun H1 H2 P F1 F2 => c118_change m1 m2 d1 d2 s r1 r2 tl additional x w dyn H1 H2 P cl1 cl2 M1 M2 F1 F2). Qed.
Print Assumptions C118_reference_change.
Theorem C118_reference_independence (m1 m2 : model_def) (d1 d2 : distribution) (s : Z -> state) (r1 r2 : Z) (tl : string -> string)
  (additional : option (dict string prop_builder)) (x : chain_def -> content) (w : chain_def -> symbol) (dyn : chain_def -> defexpr)
  (cl1 cl2 : bool) (M1 M2 : model) :
  helicity_definition m1 d1 s r1 tl additional x w dyn -> helicity_definition m2 d2 s r2 tl additional x w dyn ->
  Permutation (di_chains d1) (di_chains d2) ->
  SerAmplitude.formulate m1 cl1 tl additional = Ok M1 -> SerAmplitude.formulate m2 cl2 tl additional = Ok M2 ->
  forall base cpl, turn_safe s r1 r2 (map (fun c => ct_k (x c)) (di_chains d1)) ->
  weights_only w dyn (di_chains d1) -> physical (fun y => Re (base y)) -> nonsingular (fun y => Re (base y)) ->
  full_value (at_point (m_variables M2) base cpl) M2 = full_value (at_point (m_variables M1) base cpl) M1.
Proof. exact (fun H1 H2 P F1 F2 => c118_independence m1 m2 d1 d2 s r1 r2 tl additional x w dyn H1 H2 P cl1 cl2 M1 M2 F1 F2). Qed.
Print Assumptions C118_reference_independence.
Example C118_example_change : helicity_definition sx_model (sx_dist sx_chains) sx_s 1 sx_tl None sx_x sx_w sx_dyn /\
  helicity_definition wx_model wx_dist sx_s 2 sx_tl None sx_x sx_w sx_dyn /\ Permutation sx_chains wx_chains /\
  (exists M, SerAmplitude.formulate sx_model true sx_tl None = Ok M) /\ (exists M, SerAmplitude.formulate wx_model false sx_tl None = Ok M) /\
  weights_only sx_w sx_dyn sx_chains /\
  (forall a b c, weights_scaled sx_w sx_chains (fun q => RtoC (turn_sign sx_s 1 2 (ct_k (sx_x q)))) (wx_base a b c) (wx_base (- a)%C b c)) /\
  (forall a b c, physical (fun y => Re (wx_base a b c y)) /\ nonsingular (fun y => Re (wx_base a b c y))).
Proof.
  exact (conj (proj1 sx_definition) (conj wx_definition (conj wx_perm (conj (sx_formulate true) (conj (wx_formulate false)
    (conj wx_only (conj wx_scaled wx_physical))))))).
Qed.
Print Assumptions C118_example_change.
Example C118_example_independence : helicity_definition (wy_model wy_dist1) wy_dist1 sx_s 1 sx_tl None sx_x sx_w sx_dyn /\
  helicity_definition (wy_model wy_dist2) wy_dist2 sx_s 2 sx_tl None sx_x sx_w sx_dyn /\
  (exists M, SerAmplitude.formulate (wy_model wy_dist1) true sx_tl None = Ok M) /\
  (exists M, SerAmplitude.formulate (wy_model wy_dist2) true sx_tl None = Ok M) /\
  turn_safe sx_s 1 2 (map (fun c => ct_k (sx_x c)) wy_chains).
Proof.
  exact (conj (wy_definition wy_dist1 1 wy_describes1 eq_refl eq_refl) (conj (wy_definition wy_dist2 2 wy_describes2 eq_refl eq_refl)
    (conj (wy_formulate wy_dist1 1 true wy_describes1 eq_refl) (conj (wy_formulate wy_dist2 2 true wy_describes2 eq_refl) wy_safe)))).
Qed.
Print Assumptions C118_example_independence.
