(** C130: new labels of the final state and other order of decay products in a serialised model *)
From Coq Require Import String ZArith QArith Qcanon List Bool Reals.
From Coquelicot Require Import Complex.
From Verif Require Import Prelude Decay Expr SpecKin SpecDPD CExpr Builder SpecRelabel SerFormat SerDynamics SerAmplitude SpecSerial
  SerExamples SpecSerPoints SerPointExamples SpecSerRelabel SerRelabelDef SerRelabelExamples.
Import ListNotations.
Local Open Scope Z_scope.

(** The definition with new labels describes the same states and chains with new labels, and is complete if the old one is. *)
Theorem C130_definition : forall p turn swap m m' d d' s r tl,
  relabelling p -> relabelled_definition p turn swap m d m' d' -> describes_states tl m d s r ->
  (exists s', describes_states tl m' d' s' (p r) /\ forall i, In i [0; 1; 2; 3] -> s' (p i) = relabel_state p (s i)) /\
  (forall c x, In c (di_chains d) -> has_content c x ->
     In (relabel_chain_def p turn (swap c) c) (di_chains d') /\
     has_content (relabel_chain_def p turn (swap c) c) (relabelled_content p turn (swap c) x)) /\
  (forall c, complete_chain m c -> complete_chain m' (relabel_chain_def p turn (swap c) c)).
Proof. exact new_definition. Qed.
Print Assumptions C130_definition.

(** At the same point in phase space, amplitudes are the same up to a sign that depends on the helicities only, and the intensity is
    the same, if weight times lineshape of each chain have the sign [label_sign]. All lineshapes; physical points are needed only if
    decay products are listed in the other order. *)
Theorem C130_labels : forall p (turn : bool) swap m m' d d' s s' r tl tl' additional additional' x x' w w' dyn dyn' cl cl' M M' base base' cpl cpl',
  relabelling p -> (if turn then exchanges p else keeps_order p) -> relabelled_definition p turn swap m d m' d' ->
  helicity_definition m d s r tl additional x w dyn -> helicity_definition m' d' s' (p r) tl' additional' x' w' dyn' ->
  SerAmplitude.formulate m cl tl additional = Ok M -> SerAmplitude.formulate m' cl' tl' additional' = Ok M' ->
  relabelled_point p base base' ->
  ((exists c, In c (di_chains d) /\ swap c = true) -> physical (fun y => Re (base y)) /\ nonsingular (fun y => Re (base y))) ->
  (forall c, In c (di_chains d) ->
     chain_strength w' dyn' base' cpl' (relabel_chain_def p turn (swap c) c)
     = (RtoC (label_sign s turn (swap c) (x c)) * chain_strength w dyn base cpl c)%C) ->
  (forall k l l', In k [1; 2; 3] -> helicity_tuple s l -> relabelled_helicities p l l' ->
     amp_value (at_point (m_variables M') base' cpl') M' (p k) l'
     = (RtoC (if turn then final_sign s l else 1%R) * amp_value (at_point (m_variables M) base cpl) M k l)%C) /\
  full_value (at_point (m_variables M') base' cpl') M' = full_value (at_point (m_variables M) base cpl) M.
Proof.
  exact (fun p turn swap m m' d d' s s' r tl tl' ad ad' x x' w w' dyn dyn' cl cl' M M' base base' cpl cpl' P O RD H H' F F' =>
    new_labels p turn swap m m' d d' s s' r tl tl' ad ad' x x' w w' dyn dyn' P O RD H H' cl cl' M M' F F' base base' cpl cpl').
Qed.
Print Assumptions C130_labels.

(** Models with built-in lineshapes: the values of all parameters are the same, weights have the sign [label_sign]. *)
Theorem C130_builtin : forall p (turn : bool) swap m m' d d' s s' r tl x x' w w' dyn dyn' cl cl' M M' base base' cpl cpl',
  relabelling p -> (if turn then exchanges p else keeps_order p) -> relabelled_definition p turn swap m d m' d' ->
  helicity_definition m d s r tl None x w dyn -> helicity_definition m' d' s' (p r) tl None x' w' dyn' ->
  (forall c, In c (di_chains d) -> complete_chain m c) ->
  SerAmplitude.formulate m cl tl None = Ok M -> SerAmplitude.formulate m' cl' tl None = Ok M' ->
  relabelled_point p base base' ->
  same_parameters tl s (di_chains d) (fun c => relabel_chain_def p turn (swap c) c) w w'
    (fun c => label_sign s turn (swap c) (x c)) base base' ->
  ((exists c, In c (di_chains d) /\ swap c = true) -> physical (fun y => Re (base y)) /\ nonsingular (fun y => Re (base y))) ->
  full_value (at_point (m_variables M') base' cpl') M' = full_value (at_point (m_variables M) base cpl) M.
Proof. exact new_labels_builtin. Qed.
Print Assumptions C130_builtin.

(** Lc -> p pi K: labels in cyclic order, and two labels exchanged; the decay products of one chain in the other order, whose weight
    changes sign *)
Example C130_hypotheses_satisfiable : forall turn : bool,
  relabelling (rl_p turn) /\ (if turn then exchanges (rl_p turn) else keeps_order (rl_p turn)) /\
  relabelled_definition (rl_p turn) turn rl_swap px_model (sx_dist px_chains) (rl_model turn) (rl_dist turn) /\
  helicity_definition px_model (sx_dist px_chains) sx_s 1 sx_tl None sx_x px_w px_dyn /\
  helicity_definition (rl_model turn) (rl_dist turn) (rl_s turn) (rl_p turn 1) sx_tl None (rl_x turn) (rl_w turn) (rl_dyn turn) /\
  (forall c, In c px_chains -> complete_chain px_model c) /\
  (forall cl, exists M, SerAmplitude.formulate px_model cl sx_tl None = Ok M) /\
  (forall cl, exists M, SerAmplitude.formulate (rl_model turn) cl sx_tl None = Ok M) /\
  relabelled_point (rl_p turn) px_base (rl_base turn) /\
  same_parameters sx_tl sx_s px_chains (fun c => relabel_chain_def (rl_p turn) turn (rl_swap c) c) px_w (rl_w turn)
    (fun c => label_sign sx_s turn (rl_swap c) (sx_x c)) px_base (rl_base turn) /\
  physical (fun y => Re (px_base y)) /\ nonsingular (fun y => Re (px_base y)).
Proof.
  exact (fun turn => conj (proj1 (rl_relabelling turn)) (conj (proj2 (rl_relabelling turn)) (conj (rl_relabelled turn) (conj px_definition
    (conj (rl_definition turn) (conj (fun c I => proj2 (px_hyp c I)) (conj px_formulate (conj (rl_formulate turn) (conj (rl_point turn)
    (conj (rl_parameters turn) px_physical)))))))))).
Qed.
