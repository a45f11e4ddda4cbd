(** Definitions that are rejected, and one that is not although its parts contradict each other *)
From Coq Require Import String ZArith QArith Qcanon List Bool Lia Permutation.
From Verif Require Import Prelude Decay Expr CExpr Builder Dynamics SerFormat SerDynamics SerAmplitude SpecSerial SpecPropagators SpecDefinition
  SerDecay SerTotal SerComplete SerExamples.
Import ListNotations.
Local Open Scope string_scope.
Local Open Scope Z_scope.
Local Open Scope list_scope.

(** Chain C without the helicity of the spectator, and without any helicities *)
Definition sn_short : chain_def := ChainDef "K" (cd_propagators sx_C)
  [Vertex "helicity" [Sub [It 2; It 3]; It 1] None (Some [0]) None None None; nth 1 (cd_vertices sx_C) sf_vertex]
  (cd_topology sx_C) (cd_weight sx_C).
Definition sn_none : chain_def := ChainDef "K" (cd_propagators sx_C)
  [nth 0 (cd_vertices sx_C) sf_vertex; Vertex "helicity" [It 2; It 3] None None None None None]
  (cd_topology sx_C) (cd_weight sx_C).
Lemma sn_spins cs x : In x (di_initial (sx_dist cs) :: di_final (sx_dist cs)) -> (Q2Qc 0 <= sd_spin x)%Qc.
Proof. intros [<-|[<-|[<-|[<-|[]]]]]; vm_compute; discriminate. Qed.
Lemma sn_rejected (c : chain_def) : In c [sn_short; sn_none] ->
  exists e, SerAmplitude.formulate (sx_def [sx_A; c] sx_functions) false sx_tl None = Err e.
Proof.
  assert (DI : is_dict None) by (intros a E; discriminate E).
  intros [<-|[<-|[]]].
  - apply (c111_helicities (sx_def [sx_A; sn_short] sx_functions) (sx_dist [sx_A; sn_short]) [] eq_refl (sn_spins _) false sx_tl None sn_short
      (Vertex "helicity" [Sub [It 2; It 3]; It 1] None (Some [0]) None None None) DI); [cbn; auto|cbn; auto|].
    right. exists [0]. split; [reflexivity|discriminate].
  - apply (c111_helicities (sx_def [sx_A; sn_none] sx_functions) (sx_dist [sx_A; sn_none]) [] eq_refl (sn_spins _) false sx_tl None sn_none
      (Vertex "helicity" [It 2; It 3] None None None None None) DI); [cbn; auto|cbn; auto|].
    left. reflexivity.
Qed.
(** Chain C with spectator 1 in its vertices and spectator 3 in its topology *)
Definition sn_mixed : chain_def := ChainDef "K" (cd_propagators sx_C) (cd_vertices sx_C) [Sub [It 1; It 2]; It 3] (cd_weight sx_C).
Lemma sn_accepts : exists M, SerAmplitude.formulate (sx_def [sn_mixed] sx_functions) false sx_tl None = Ok M /\
  (forall k, In k (dkeys (m_amplitudes M)) -> fst k = "A^3") /\ dkeys (m_amplitudes M) <> [].
Proof.
  assert (E : exists M, SerAmplitude.formulate (sx_def [sn_mixed] sx_functions) false sx_tl None = Ok M /\
    map fst (dkeys (m_amplitudes M)) = ["A^3"; "A^3"; "A^3"; "A^3"]).
  { eexists. split; [lazy; reflexivity|lazy; reflexivity]. }
  destruct E as (M & E & K). exists M. split; [exact E|]. split.
  - intros k I. apply (in_map fst) in I. rewrite K in I. cbn in I. destruct I as [I|[I|[I|[I|[]]]]]; auto.
  - intros X. rewrite X in K. discriminate K.
Qed.
Lemma c112_refuted : exists c M,
  find_spectator_id (cd_vertices c) = Ok 1 /\ get_spectator_id (cd_topology c) = Ok 3 /\
  describes_states (fun n => n) (sx_def [c] sx_functions) (sx_dist [c]) sx_s 1 /\
  SerAmplitude.formulate (sx_def [c] sx_functions) false sx_tl None = Ok M.
Proof.
  destruct sn_accepts as (M & E & _). exists sn_mixed, M. split; [reflexivity|]. split; [reflexivity|].
  split; [apply sx_describes|exact E].
Qed.
Lemma c111_example :
  (exists M, SerAmplitude.formulate sx_model false sx_tl None = Ok M) /\ is_dict None /\
  (forall x, In x (di_initial (sx_dist sx_chains) :: di_final (sx_dist sx_chains)) -> (Q2Qc 0 <= sd_spin x)%Qc) /\
  (forall c, In c [sn_short; sn_none] -> exists v, In v (cd_vertices c) /\
     (v_helicities v = None \/ exists hs, v_helicities v = Some hs /\ length hs <> length (v_node v))) /\
  (forall c, In c [sn_short; sn_none] -> exists e, SerAmplitude.formulate (sx_def [sx_A; c] sx_functions) false sx_tl None = Err e).
Proof.
  split; [|split; [|split; [|split]]].
  - apply (serial_total _ _ _ _ _ (sx_describes sx_chains sx_functions) sx_x). intros c I.
    split; [apply sx_contents|apply sx_complete]; exact I.
  - intros a E. discriminate E.
  - apply sn_spins.
  - intros c [<-|[<-|[]]].
    + eexists. split; [left; reflexivity|]. right. exists [0]. split; [reflexivity|discriminate].
    + eexists. split; [right; left; reflexivity|]. left. reflexivity.
  - exact sn_rejected.
Qed.
