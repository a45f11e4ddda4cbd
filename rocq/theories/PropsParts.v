(** C124: parts of serialised models *)
From Coq Require Import String ZArith List Bool Reals Permutation.
From Coquelicot Require Import Complex.
From Verif Require Import Prelude Spin Decay Expr CExpr Sums SpecDPD Builder SpecFractions Dynamics SerFormat SerDynamics
  SpecSerial SpecWeights SpecParts SerParts LcModel LcProofs PartExamples.
From Verif Require SerAmplitude.
Import ListNotations.
Local Open Scope string_scope.
Local Open Scope Z_scope.
Local Open Scope list_scope.

(** Any selection of the chains can be formulated, ... *)
Theorem C124_part (m : model_def) (d : distribution) (s : Z -> state) (r : Z) (tl : string -> string)
  (additional : option (dict string prop_builder)) (x : chain_def -> content) (w : chain_def -> symbol) (dyn : chain_def -> defexpr) :
  helicity_definition m d s r tl additional x w dyn -> chains_unused additional ->
  forall cs cl, incl cs (di_chains d) -> exists M, SerAmplitude.formulate (with_chains m cs) cl tl additional = Ok M.
Proof. exact (part_model m d s r tl additional x w dyn). Qed.
Print Assumptions C124_part.
(** ... the intensity of the whole is the sum of the intensities of its parts and of one interference term for each pair
    of parts, ... *)
Theorem C124_parts (m : model_def) (d : distribution) (s : Z -> state) (r : Z) (tl : string -> string)
  (additional : option (dict string prop_builder)) (x : chain_def -> content) (w : chain_def -> symbol) (dyn : chain_def -> defexpr)
  (cl : bool) (M : model) :
  helicity_definition m d s r tl additional x w dyn -> SerAmplitude.formulate m cl tl additional = Ok M -> chains_unused additional ->
  forall ps : list (list chain_def * model), Permutation (di_chains d) (flat_map fst ps) ->
  (forall p, In p ps -> exists cl', SerAmplitude.formulate (with_chains m (fst p)) cl' tl additional = Ok (snd p)) ->
  forall ev, exists G : (list chain_def * model) -> (list chain_def * model) -> C,
    (forall p, In p ps -> G p p = full_value ev (snd p)) /\
    (forall p q, G q p = Cconj (G p q)) /\
    (forall p q, In p ps -> In q ps ->
       (Cmod (G p q) ^ 2 <= Re (full_value ev (snd p)) * Re (full_value ev (snd q)))%R) /\
    full_value ev M =
      (Csum ps (fun p => full_value ev (snd p)) + Csum (pairs ps) (fun pq => RtoC (2 * Re (G (fst pq) (snd pq)))))%C /\
    (Re (full_value ev M) <= INR (length ps) * Rsum ps (fun p => Re (full_value ev (snd p))))%R.
Proof. exact (fun H F U => c124_parts m d s r tl additional x w dyn H cl M F U). Qed.
Print Assumptions C124_parts.
(** ... the intensity of a part is the intensity of the whole with the weights of all other chains set to 0, ... *)
Theorem C124_switched_off (m : model_def) (d : distribution) (s : Z -> state) (r : Z) (tl : string -> string)
  (additional : option (dict string prop_builder)) (x : chain_def -> content) (w : chain_def -> symbol) (dyn : chain_def -> defexpr)
  (cl : bool) (M : model) :
  helicity_definition m d s r tl additional x w dyn -> SerAmplitude.formulate m cl tl additional = Ok M ->
  forall cs off cl' M' v idx, chains_unused additional -> Permutation (di_chains d) (cs ++ off) ->
    SerAmplitude.formulate (with_chains m cs) cl' tl additional = Ok M' ->
    (forall c, In c off -> v (w c) = RtoC 0) -> full_value (Env v idx) M = full_value (Env v idx) M'.
Proof. exact (fun H F => c124_switched_off m d s r tl additional x w dyn H cl M F). Qed.
Print Assumptions C124_switched_off.
(** ... and one matrix gives the intensities of all linear combinations of weights. *)
Theorem C124_weights (m : model_def) (d : distribution) (s : Z -> state) (r : Z) (tl : string -> string)
  (additional : option (dict string prop_builder)) (x : chain_def -> content) (w : chain_def -> symbol) (dyn : chain_def -> defexpr)
  (cl : bool) (M : model) :
  helicity_definition m d s r tl additional x w dyn -> SerAmplitude.formulate m cl tl additional = Ok M ->
  weights_only w dyn (di_chains d) ->
  forall base idx, exists G : (symbol -> C) -> (symbol -> C) -> C,
    (forall v, same_but_weights w (di_chains d) v base -> G v v = full_value (Env v idx) M) /\
    (forall v v', G v' v = Cconj (G v v')) /\
    (forall v v', same_but_weights w (di_chains d) v base -> same_but_weights w (di_chains d) v' base ->
       (Cmod (G v v') ^ 2 <= Re (full_value (Env v idx) M) * Re (full_value (Env v' idx) M))%R) /\
    (forall xs v, same_but_weights w (di_chains d) v base -> weights_superposed w (di_chains d) xs v ->
       full_value (Env v idx) M = Csum xs (fun u => Csum xs (fun u' => fst u * Cconj (fst u') * G (snd u) (snd u'))%C)).
Proof. exact (fun H F W base idx => c124_weights m d s r tl additional x w dyn H cl M F W base idx). Qed.
Print Assumptions C124_weights.
(** The model of the documentation, each chain a part of its own *)
Example C124_example : helicity_definition lc_model lc_dist lc_s 2 lc_tl lc_builders lc_x lc_w lc_dyn /\
  (exists M, SerAmplitude.formulate lc_model true lc_tl lc_builders = Ok M) /\ chains_unused lc_builders /\
  weights_only lc_w lc_dyn (di_chains lc_dist) /\
  (exists ps : list (list chain_def * model), Permutation (di_chains lc_dist) (flat_map fst ps) /\ length ps = length lc_chains /\
    forall p, In p ps -> exists cl', SerAmplitude.formulate (with_chains lc_model (fst p)) cl' lc_tl lc_builders = Ok (snd p)) /\
  (forall off base, exists v, same_but_weights lc_w off v base /\ forall c, In c off -> v (lc_w c) = RtoC 0) /\
  (forall v v' a b, same_but_weights lc_w lc_chains v v' ->
    let u := fun y => if existsb (fun c => eqb y (lc_w c)) lc_chains then (a * v y + b * v' y)%C else v y in
    same_but_weights lc_w lc_chains u v /\ weights_superposed lc_w lc_chains [(a, v); (b, v')] u).
Proof.
  exact (conj lc_definition (conj (lc_formulate true) (conj lc_unused (conj lc_weights (conj (lc_singles true) (conj lc_off lc_superposed)))))).
Qed.
Print Assumptions C124_example.
