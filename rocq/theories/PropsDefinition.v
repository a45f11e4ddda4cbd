(** C111, C112: which serialised model definitions are accepted *)
From Coq Require Import String ZArith QArith Qcanon List Bool Permutation.
From Verif Require Import Prelude Decay Expr CExpr Builder SpecDPD SerFormat SerDynamics SerAmplitude SpecSerial SpecPropagators SpecDefinition SerDecay
  SerComplete SerExamples SerCompleteExamples.
Import ListNotations.
Local Open Scope string_scope.
Local Open Scope Z_scope.
Local Open Scope list_scope.

(** ** C111: incomplete definitions are rejected. *)
Theorem C111_accepted (m : model_def) (d : distribution) (rest : list distribution) (cl : bool) (tl : string -> string)
  (additional : option (dict string prop_builder)) (M : model) :
  md_distributions m = d :: rest -> (forall x, In x (di_initial d :: di_final d) -> (Q2Qc 0 <= sd_spin x)%Qc) ->
  is_dict additional -> SerAmplitude.formulate m cl tl additional = Ok M ->
  forall c, In c (di_chains d) -> accepted_chain m tl additional c.
Proof. exact (fun D S => c111_accepted m d rest D S cl tl additional M). Qed.
Print Assumptions C111_accepted.

Theorem C111_missing_helicities (m : model_def) (d : distribution) (rest : list distribution) (cl : bool) (tl : string -> string)
  (additional : option (dict string prop_builder)) (c : chain_def) (v : vertex) :
  md_distributions m = d :: rest -> (forall x, In x (di_initial d :: di_final d) -> (Q2Qc 0 <= sd_spin x)%Qc) ->
  is_dict additional -> In c (di_chains d) -> In v (cd_vertices c) ->
  (v_helicities v = None \/ exists hs, v_helicities v = Some hs /\ length hs <> length (v_node v)) ->
  exists e, SerAmplitude.formulate m cl tl additional = Err e.
Proof. exact (fun D S => c111_helicities m d rest D S cl tl additional c v). Qed.
Print Assumptions C111_missing_helicities.

(** The weight of a chain *)
Theorem C111_weight (c : chain_def) (tl : string -> string) :
  ((exists w, get_weight c tl = Ok w) <->
     (forall v, In v (cd_vertices c) -> helicities_given v) /\ exists v, In v (cd_vertices c) /\ contains_pair v) /\
  (forall e, get_weight c tl = Err e -> e = ValueError).
Proof. exact (c111_weight c tl). Qed.
Print Assumptions C111_weight.

(** A definition that is accepted, and two with missing helicities *)
Example C111_example :
  (exists M, SerAmplitude.formulate sx_model false sx_tl None = Ok M) /\ is_dict None /\
  (forall x, In x (di_initial (sx_dist sx_chains) :: di_final (sx_dist sx_chains)) -> (Q2Qc 0 <= sd_spin x)%Qc) /\
  (forall c, In c [sn_short; sn_none] -> exists v, In v (cd_vertices c) /\
     (v_helicities v = None \/ exists hs, v_helicities v = Some hs /\ length hs <> length (v_node v))) /\
  (forall c, In c [sn_short; sn_none] -> exists e, SerAmplitude.formulate (sx_def [sx_A; c] sx_functions) false sx_tl None = Err e).
Proof. exact c111_example. Qed.

(** ** C112: contradictory definitions *)
(** A chain whose vertices say that the spectator is state 1 and whose topology says that it is state 3 is accepted. *)
Theorem C112_contradictory_topology_refuted : exists c M,
  find_spectator_id (cd_vertices c) = Ok 1 /\ get_spectator_id (cd_topology c) = Ok 3 /\
  describes_states (fun n => n) (sx_def [c] sx_functions) (sx_dist [c]) sx_s 1 /\
  SerAmplitude.formulate (sx_def [c] sx_functions) false sx_tl None = Ok M.
Proof. exact c112_refuted. Qed.
Print Assumptions C112_contradictory_topology_refuted.

(** Subsystems are those in the topologies. *)
Theorem C112_topology_partial (m : model_def) (d : distribution) (rest : list distribution) (cl : bool) (tl : string -> string)
  (additional : option (dict string prop_builder)) (M : model) (t : Z) :
  md_distributions m = d :: rest -> (forall x, In x (di_initial d :: di_final d) -> (Q2Qc 0 <= sd_spin x)%Qc) ->
  is_dict additional -> SerAmplitude.formulate m cl tl additional = Ok M -> In t [1; 2; 3] ->
  ((exists idx, In (amp_name t, idx) (dkeys (m_amplitudes M))) <-> exists c, In c (di_chains d) /\ In (It t) (cd_topology c)).
Proof. exact (fun D S => c112_topology m d rest D S cl tl additional M t). Qed.
Print Assumptions C112_topology_partial.
