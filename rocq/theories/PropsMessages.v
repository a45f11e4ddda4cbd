(** C107: warnings and errors about subsystems name the decay and its subsystems *)
From Coq Require Import String ZArith List Bool Sorted Permutation.
From Verif Require Import Prelude Decay Builder SpecDPD Latex SpecLatex Messages SpecMessages MessageFacts MessageExamples.
From Verif Require DecayProofs BuilderExamples.
Import ListNotations.
Local Open Scope string_scope.
Local Open Scope Z_scope.
Local Open Scope list_scope.

(** Every decay has exactly one ascending list of subsystems, and its description lists each final state once. *)
Theorem C107_lists : forall d s, std_decay d s ->
  Permutation (final_order d) [1; 2; 3]
  /\ exists ks, subsystems_of d ks /\ forall ks', subsystems_of d ks' -> ks' = ks.
Proof. exact c107_lists. Qed.
Print Assumptions C107_lists.
Theorem C107_get_subsystem : forall d s ks k, std_decay d s -> subsystems_of d ks ->
  (In k ks -> get_subsystem_warning d k = Ok None)
  /\ (~ In k ks -> get_subsystem_warning d k
        = Ok (Some ("Decay " ++ decay_text d s ++ " only has subsystems " ++ comma_list (map str_of_Z ks)
                    ++ ", not " ++ str_of_Z k)%string)).
Proof. exact (fun d s ks k D => c107_subsystem d s D ks k). Qed.
Print Assumptions C107_get_subsystem.
Theorem C107_reference : forall d s ks k, std_decay d s -> subsystems_of d ks ->
  (In k ks -> check_reference_warning d k = Ok None)
  /\ (~ In k ks -> check_reference_warning d k
        = Ok (Some ("Decay " ++ decay_text d s ++ " only has subsystems " ++ comma_list (map str_of_Z ks)
                    ++ ". Are you sure you want to use subsystem " ++ str_of_Z k ++ " as reference?")%string)).
Proof. exact (fun d s ks k D => c107_reference d s D ks k). Qed.
Print Assumptions C107_reference.
(** [formulate] warns exactly about a given reference without chains and, with all_subsystems, about subsystems without chains. *)
Theorem C107_formulate : forall b ks ref, subsystems_of (b_decay b) ks ->
  (formulate_warns b ref = true <->
   (exists r, ref = Some r /\ ~ In r ks) \/ (b_all_subsystems b = true /\ exists k, In k [1; 2; 3] /\ ~ In k ks)).
Proof. exact c107_formulate. Qed.
Print Assumptions C107_formulate.
Theorem C107_no_subsystems : forall d s, std_decay d s ->
  (d_chains d <> [] -> best_reference_error d = Ok None)
  /\ (d_chains d = [] -> best_reference_error d = Ok (Some ("Decay " ++ decay_text d s ++ " has no subsystems")%string)).
Proof. exact c107_best. Qed.
Print Assumptions C107_no_subsystems.
Example C107_warning : std_decay DecayProofs.ex_decay BuilderExamples.ex_st /\ subsystems_of DecayProofs.ex_decay [2; 3] /\ ~ In 1 [2; 3]
  /\ get_subsystem_warning DecayProofs.ex_decay 1
     = Ok (Some "Decay Lc → 1: p, 2: pi, 3: K only has subsystems 2, 3, not 1").
Proof. exact c107_example. Qed.
