(** C146: rates of serialised models, and the matrix from which fit fractions are computed. The vocabulary is in SpecNormal.v (integrals over the
    Dalitz plot), SpecWeights.v and SpecParts.v (weights and parts of serialised models). *)
From Coq Require Import String ZArith List Bool Reals Permutation.
From Coquelicot Require Import Complex.
From Verif Require Import Prelude Decay Expr CExpr Sums SpecKin SpecDPD Builder SpecObs SpecBounded SpecNormal SpecFractions
  SerFormat SerDynamics SpecSerial SpecSerBounded SpecWeights SpecParts SerRate SerRateWeights SerRateExamples
  SerExamples SerPointExamples SerFiniteExamples SerBoundedExamples.
From Verif Require SerAmplitude.
Import ListNotations.
Local Open Scope R_scope.

(** The rate differs from the sum of the rates of the parts by at most twice the geometric means of the pairs of rates. *)
Theorem C146_parts m d s r tl additional x w dyn cl M (ps : list (list chain_def * model)) base cpl i j k N0 N :
  helicity_definition m d s r tl additional x w dyn -> SerAmplitude.formulate m cl tl additional = Ok M -> chains_unused additional ->
  Permutation (di_chains d) (flat_map fst ps) ->
  (forall p, In p ps -> exists cl', SerAmplitude.formulate (with_chains m (fst p)) cl' tl additional = Ok (snd p)) ->
  cyclic i j k -> open_phase_space base ->
  integrates_to base (intensity_at M cpl) i j k N0 ->
  (forall p, In p ps -> integrates_to base (intensity_at (snd p) cpl) i j k (N p)) ->
  Rabs (N0 - Rsum ps N) <= Rsum (pairs ps) (fun pq => 2 * sqrt (N (fst pq) * N (snd pq))) /\
  N0 <= INR (length ps) * Rsum ps N.
Proof. exact (c146_parts m d s r tl additional x w dyn cl M ps base cpl i j k N0 N). Qed.
Print Assumptions C146_parts.

(** The rate is a Hermitian form of the weights, not negative: *)
Theorem C146_weights m d s r tl additional x w dyn cl M base cpl i j k :
  helicity_definition m d s r tl additional x w dyn -> SerAmplitude.formulate m cl tl additional = Ok M ->
  cyclic i j k -> open_phase_space base -> weights_only w dyn (di_chains d) ->
  (forall c, In c (di_chains d) ->
     own_sigma_only base cpl (ct_k (x c)) (de_expr (dyn c)) /\ continuous_on_range base cpl (ct_k (x c)) (de_expr (dyn c))) ->
  exists G : (symbol -> C) -> (symbol -> C) -> C,
    (forall v N, same_but_weights w (di_chains d) v base -> integrates_to v (intensity_at M cpl) i j k N -> G v v = RtoC N) /\
    (forall v v', same_but_weights w (di_chains d) v base -> same_but_weights w (di_chains d) v' base ->
       G v' v = Cconj (G v v') /\ Cmod (G v v') ^ 2 <= Re (G v v) * Re (G v' v')) /\
    (forall xs v, same_but_weights w (di_chains d) v base -> weights_superposed w (di_chains d) xs v ->
       G v v = Csum xs (fun u => Csum xs (fun u' => fst u * Cconj (fst u') * G (snd u) (snd u'))%C)).
Proof. exact (fun H F Cy Op W Sh => c146_weights m d s r tl additional x w dyn H cl M F base cpl i j k Cy Op W Sh). Qed.
Print Assumptions C146_weights.

(** ... if every chain has its own weight, one matrix with an entry for every pair of chains gives the rates for all weights, and its diagonal
    gives the rates of the models with one chain. *)
Theorem C146_fractions m d s r tl additional x w dyn cl M base cpl i j k :
  helicity_definition m d s r tl additional x w dyn -> SerAmplitude.formulate m cl tl additional = Ok M ->
  cyclic i j k -> open_phase_space base -> weights_only w dyn (di_chains d) ->
  (forall c, In c (di_chains d) ->
     own_sigma_only base cpl (ct_k (x c)) (de_expr (dyn c)) /\ continuous_on_range base cpl (ct_k (x c)) (de_expr (dyn c))) ->
  NoDup (map w (di_chains d)) -> chains_unused additional ->
  exists G : chain_def -> chain_def -> C,
    (forall c c', G c' c = Cconj (G c c')) /\
    (forall c c', Cmod (G c c') ^ 2 <= Re (G c c) * Re (G c' c')) /\
    (forall v N, same_but_weights w (di_chains d) v base -> integrates_to v (intensity_at M cpl) i j k N ->
       RtoC N = Csum (di_chains d) (fun c => Csum (di_chains d) (fun c' => v (w c) * Cconj (v (w c')) * G c c')%C)) /\
    (forall c cl1 M1 v N, In c (di_chains d) -> SerAmplitude.formulate (with_chains m [c]) cl1 tl additional = Ok M1 ->
       same_but_weights w (di_chains d) v base -> integrates_to v (intensity_at M1 cpl) i j k N -> N = Cmod (v (w c)) ^ 2 * Re (G c c)).
Proof. exact (fun H F Cy Op W Sh Di FO => c146_fractions m d s r tl additional x w dyn H cl M F base cpl i j k Cy Op W Sh Di FO). Qed.
Print Assumptions C146_fractions.

(** For models with built-in lineshapes it is enough that these are regular at the limits of the phase space. *)
Theorem C146_builtin m d s r tl x w dyn cl M base cpl i j k : helicity_definition m d s r tl None x w dyn ->
  SerAmplitude.formulate m cl tl None = Ok M -> cyclic i j k ->
  physical (fun y => Re (base y)) -> nonsingular (fun y => Re (base y)) ->
  (forall c, In c (di_chains d) -> threshold_serial m tl x base c) -> NoDup (map w (di_chains d)) ->
  exists G : chain_def -> chain_def -> C,
    (forall c c', G c' c = Cconj (G c c')) /\
    (forall c c', Cmod (G c c') ^ 2 <= Re (G c c) * Re (G c' c')) /\
    (forall v N, same_but_weights w (di_chains d) v base -> integrates_to v (intensity_at M cpl) i j k N ->
       RtoC N = Csum (di_chains d) (fun c => Csum (di_chains d) (fun c' => v (w c) * Cconj (v (w c')) * G c c')%C)) /\
    (forall c cl1 M1 v N, In c (di_chains d) -> SerAmplitude.formulate (with_chains m [c]) cl1 tl None = Ok M1 ->
       same_but_weights w (di_chains d) v base -> integrates_to v (intensity_at M1 cpl) i j k N -> N = Cmod (v (w c)) ^ 2 * Re (G c c)).
Proof. exact (c146_builtin m d s r tl x w dyn cl M base cpl i j k). Qed.
Print Assumptions C146_builtin.

(** Three chains with different lineshapes, and the parts with one chain each *)
Example C146_example : helicity_definition px_model (sx_dist px_chains) sx_s 1 sx_tl None sx_x px_w px_dyn /\
  (exists M, SerAmplitude.formulate px_model true sx_tl None = Ok M) /\
  physical (fun y => Re (nx_base y)) /\ nonsingular (fun y => Re (nx_base y)) /\
  (forall c, In c (di_chains (sx_dist px_chains)) -> threshold_serial px_model sx_tl sx_x nx_base c) /\
  NoDup (map px_w (di_chains (sx_dist px_chains))) /\
  exists ps : list (list chain_def * model), Permutation (di_chains (sx_dist px_chains)) (flat_map fst ps) /\ length ps = 3%nat /\
    forall p, In p ps -> exists cl', SerAmplitude.formulate (with_chains px_model (fst p)) cl' sx_tl None = Ok (snd p).
Proof. exact (conj px_definition (conj (px_formulate true) (conj (proj1 nx_physical) (conj (proj2 nx_physical) (conj nx_threshold (conj px_distinct px_parts)))))). Qed.
Print Assumptions C146_example.
