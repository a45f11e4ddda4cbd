(** Examples for C153 *)
From Coq Require Import String ZArith QArith Qcanon List Bool Reals Permutation.
From Verif Require Import Prelude Spin Decay Expr CExpr Builder SpecDPD SerFormat SerDynamics SpecSerial SerTotal SerExamples SpecSerEffect.
From Verif Require SerAmplitude.
Import ListNotations.
Local Open Scope string_scope.
Local Open Scope Z_scope.
Local Open Scope list_scope.

Lemma sx_possible : NoDup (map sx_w sx_chains) /\ forall c, In c sx_chains -> complete_chain sx_model c /\ resonance_possible (sx_x c) /\ final_possible sx_s (sx_x c).
Proof.
  split; [cbn; repeat constructor; cbn; intuition discriminate|]. intros c I. split; [apply sx_complete; exact I|].
  destruct I as [<-|[<-|[<-|[]]]]; (split; [split; apply memb_In; reflexivity|]); repeat split; try (apply memb_In; reflexivity); intros (A & B & D); cbn in A, B, D; discriminate.
Qed.
(** The resonance of the second chain decays to two particles without spin, with parity factor -1. *)
Definition se_K : chain_def := sx_chain "K" "K_BW" 2 2 3 1 0 1 0 0
  (sx_vertex "helicity" None (Some "")) (sx_vertex "parity" (Some "-") None) 5.
Definition se_chains : list chain_def := [sx_A; se_K].
Definition se_model : model_def := sx_def se_chains sx_functions.
Definition se_x (c : chain_def) : content :=
  if eqb (cd_name c) "D" then Content 3 1 2 3 1 0 1 0 0 (-1) else Content 2 2 3 1 0 1 0 0 0 (-1).
Definition se_w (c : chain_def) : symbol := weight_sym sx_tl c (se_x c).
Definition se_dyn : chain_def -> defexpr := dynamics_value se_model sx_tl.
Lemma se_contents c : In c se_chains -> has_content c (se_x c).
Proof.
  intros [<-|[<-|[]]].
  - apply sx_content; [perm|left; auto|right; cbn; auto].
  - apply sx_content; [perm|left; auto|right; cbn; auto].
Qed.
Lemma se_complete c : In c se_chains -> complete_chain se_model c.
Proof.
  intros [<-|[<-|[]]].
  - exact (sx_complete sx_A (or_introl eq_refl)).
  - split; [exact (proj1 (sx_complete sx_C (or_intror (or_intror (or_introl eq_refl)))))|]. intros v [<-|[<-|[]]]; [right; left|left]; reflexivity.
Qed.
Lemma se_definition : helicity_definition se_model (sx_dist se_chains) sx_s 1 sx_tl None se_x se_w se_dyn /\
  (exists M, SerAmplitude.formulate se_model true sx_tl None = Ok M) /\ NoDup (map se_w se_chains) /\
  In se_K se_chains /\ complete_chain se_model se_K /\ resonance_possible (se_x se_K) /\ ~ final_possible sx_s (se_x se_K) /\
  final_possible sx_s (se_x sx_A).
Proof.
  split; [|split; [|split; [|split; [|split; [|split; [|split]]]]]].
  - apply (complete_helicity se_model (sx_dist se_chains) sx_s 1 sx_tl (sx_describes _ _)).
    intros c I. split; [apply se_contents; exact I|apply se_complete; exact I].
  - apply (serial_total se_model (sx_dist se_chains) sx_s 1 sx_tl (sx_describes _ _) se_x).
    intros c I. split; [apply se_contents; exact I|apply se_complete; exact I].
  - cbn; repeat constructor; cbn; intuition discriminate.
  - right; left; reflexivity.
  - apply se_complete. right; left; reflexivity.
  - split; apply memb_In; reflexivity.
  - intros (_ & _ & _ & _ & N). apply N. repeat split; reflexivity.
  - repeat split; try (apply memb_In; reflexivity); intros (A & B & D); cbn in A, B, D; discriminate.
Qed.
