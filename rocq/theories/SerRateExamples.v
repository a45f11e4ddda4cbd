(** C146: built-in lineshapes, and an example *)
From Coq Require Import String ZArith List Bool Reals Permutation.
From Coquelicot Require Import Complex.
From Verif Require Import Prelude Decay Expr CExpr Sums SpecKin SpecDPD Builder SpecObs SpecBounded SpecNormal FiniteShapes NormalProofs SpecFractions
  SerFormat SpecSerial SpecSerBounded SpecWeights SpecParts SerParts SerSymbols SerBounded SerRate SerRateWeights
  SerExamples SerPointExamples SerFiniteExamples SerBoundedExamples.
From Verif Require SerAmplitude.
Import ListNotations.
Local Open Scope R_scope.

Lemma none_unused : chains_unused None.
Proof. intros table type b E. discriminate E. Qed.
Theorem c146_builtin m d s r tl x w dyn cl M base cpl i j k : helicity_definition m d s r tl None x w dyn ->
  SerAmplitude.formulate m cl tl None = Ok M -> cyclic i j k ->
  physical (fun y => Re (base y)) -> nonsingular (fun y => Re (base y)) ->
  (forall c, In c (di_chains d) -> threshold_serial m tl x base c) -> NoDup (map w (di_chains d)) ->
  exists G : chain_def -> chain_def -> C,
    (forall c c', G c' c = Cconj (G c c')) /\
    (forall c c', Cmod (G c c') ^ 2 <= Re (G c c) * Re (G c' c')) /\
    (forall v N, same_but_weights w (di_chains d) v base -> integrates_to v (intensity_at M cpl) i j k N ->
       RtoC N = Csum (di_chains d) (fun c => Csum (di_chains d) (fun c' => v (w c) * Cconj (v (w c')) * G c c')%C)) /\
    (forall c cl1 M1 v N, In c (di_chains d) -> SerAmplitude.formulate (with_chains m [c]) cl1 tl None = Ok M1 ->
       same_but_weights w (di_chains d) v base -> integrates_to v (intensity_at M1 cpl) i j k N -> N = Cmod (v (w c)) ^ 2 * Re (G c c)).
Proof.
  intros H F Cy Ph Ns Rg Di. destruct (serial_shapes m d s r tl x w dyn base cpl H Ph Ns Rg) as [O Ct].
  exact (c146_fractions m d s r tl None x w dyn H cl M F base cpl i j k Cy (open_of_physical base Ph Ns)
    (builtin_weights m d s r tl x w dyn H) (fun c Hc => conj (O c Hc) (Ct c Hc)) Di none_unused).
Qed.

Lemma px_distinct : NoDup (map px_w px_chains).
Proof.
  assert (B : forall l : list symbol, (fix ok (l : list symbol) := match l with [] => true | y :: l => negb (existsb (eqb y) l) && ok l end) l = true -> NoDup l).
  { induction l as [|y l IH]; intros Q; constructor.
    - intros I. apply andb_true_iff in Q. destruct Q as [Q _]. apply negb_true_iff in Q. assert (T : existsb (eqb y) l = true); [|congruence].
      apply existsb_exists. exists y. split; [exact I|apply Prelude.eqb_refl].
    - apply IH. apply andb_true_iff in Q. apply Q. }
  apply B. vm_compute. reflexivity.
Qed.
(** The parts with one chain each *)
Lemma px_parts : exists ps : list (list chain_def * model), Permutation (di_chains (sx_dist px_chains)) (flat_map fst ps) /\ length ps = 3%nat /\
  forall p, In p ps -> exists cl', SerAmplitude.formulate (with_chains px_model (fst p)) cl' sx_tl None = Ok (snd p).
Proof.
  assert (Q : forall c, In c px_chains -> exists M, SerAmplitude.formulate (with_chains px_model [c]) true sx_tl None = Ok M).
  { intros c Hc. apply (part_model _ _ _ _ _ _ _ _ _ px_definition none_unused [c] true). intros q [<-|[]]. exact Hc. }
  destruct (Q px_A) as (M1 & F1); [cbn; auto|]. destruct (Q sx_B) as (M2 & F2); [cbn; auto|]. destruct (Q sx_C) as (M3 & F3); [cbn; auto|].
  exists [([px_A], M1); ([sx_B], M2); ([sx_C], M3)]. split; [apply Permutation_refl|]. split; [reflexivity|].
  intros p [<-|[<-|[<-|[]]]]; exists true; assumption.
Qed.
