(** Properties C99, C100: from the transitions of a reaction to an amplitude model; the order of chains.
    Specification vocabulary: SpecWorkflow.v, SpecQrules.v, SpecDPD.v, SpecBuilder.v, SpecDynamics.v *)
From Coq Require Import String ZArith QArith Qcanon List Bool Reals Permutation Sorted.
From Coquelicot Require Import Complex.
From Verif Require Import DecayProofs.
From Verif Require Import Prelude Spin Decay Expr Angles Sums CExpr SpecKin Qrules SpecQrules SpecDPD Builder SpecBuilder BuilderExamples OrderExamples OrderFacts
  Dynamics SpecDynamics LineshapeFacts SpecWorkflow QrulesExamples WorkflowExamples WorkflowFacts.
Import ListNotations.
Local Open Scope string_scope.
Local Open Scope Z_scope.
Local Open Scope list_scope.

(** ** C46: the chains of the decay of a reaction are sorted and different from each other. *)
Theorem C46_sorted ts m : ready ts -> (forall t, In t ts -> initial_first t) ->
  exists d, to_three_body_decay ts m = Ok d /\ StronglySorted clt (d_chains d) /\ NoDup (d_chains d).
Proof. exact (sorted_any ts m). Qed.
Print Assumptions C46_sorted.
Example C46_sorted_example : ready qx_reaction /\ forall t, In t qx_reaction -> initial_first t.
Proof. exact qx_reaction_ready. Qed.

(** ** C99: the decay that the adapter makes of a reaction is one that models can be formulated for ... *)
Theorem C99_decay_of_reaction ts m : ready ts -> (forall t, In t ts -> initial_first t) -> proper_spins ts ->
  exists d s, to_three_body_decay ts m = Ok d /\ std_decay d s /\ two_body_resonances d /\ plain_resonances d /\
    d_chains d <> [] /\ NoDup (d_chains d) /\
    (forall t x st, In t ts -> In x (edge_ids t) -> ~ is_intermediate t x -> describes t x st -> s (rank t x) = st) /\
    (forall c, In c (d_chains d) ->
       (couplings_at ts 0 -> ch_incoming_ls c <> None) /\ (couplings_at ts 1 -> ch_outgoing_ls c <> None)).
Proof. exact (c99_decay ts m). Qed.
Print Assumptions C99_decay_of_reaction.

(** ... and with Breit-Wigner functions registered for all its chains, the model is closed, has a real non-negative
    intensity, and its amplitudes are the Dalitz-plot decomposition with these lineshapes. *)
Theorem C99_workflow ts m ls all w ph dh :
  ready ts -> (forall t, In t ts -> initial_first t) -> proper_spins ts ->
  ls = MinPair ph dh \/ ls = MinBool ph /\ dh = ph ->
  closed_phsp (bw_phsp_factor w) ->
  (ph = false \/ needs_production_ls w = true -> couplings_at ts 0) ->
  (dh = false \/ needs_decay_ls w = true -> couplings_at ts 1) ->
  exists d s b0 b, to_three_body_decay ts m = Ok d /\ std_decay d s /\
    mk_builder d ls all = Ok b0 /\ register_each b0 (d_chains d) (bw_call w) = Ok b /\
    forall ref cl uc, ref = None \/ (exists r, ref = Some r /\ In r [1; 2; 3]) ->
    exists md, formulate b ref cl uc = Ok md /\
      (forall x, occurs_in_amplitudes md (OVar x) -> (exists v, dget (KSym x) (m_params md) = Some v) \/ mandelstam x) /\
      (forall ev, Im (full_value ev md) = 0%R /\ (0 <= Re (full_value ev md))%R) /\
      forall f, phsp_value (bw_phsp_factor w) f ->
      forall ev l i j k, helicity_tuple s l -> cyclic i j k -> In k (get_subsystem_ids d) ->
      exists X, amp_value ev md k l =
        dpd_amplitude ph dh s (d_chains d)
          (fun c r => (if uc then coefficient else coupling_product) ev ph dh c r (at4 l k) (at4 l i) (at4 l j))
          X (Re (e_sym ev (theta_name i j))) (at4 l) i j k /\
        forall c r a b' k' lp ld, In c (d_chains d) -> isobar_chain c (s 0) r a b' k' lp ld ->
          X c = chain_lineshape w f (orbital lp) (orbital ld) (e_sym ev (sigma_of k') * e_sym ev (sigma_of k'))%C (e_sym ev)
                  (s 0) r a b' k'.
Proof. exact (c99_workflow ts m ls all w ph dh). Qed.
Print Assumptions C99_workflow.

Example C99_example : ready qx_reaction /\ (forall t, In t qx_reaction -> initial_first t) /\ proper_spins qx_reaction /\
  (forall n, couplings_at qx_reaction n) /\ closed_phsp phase_space_factor /\ phsp_value phase_space_factor two_body_phsp.
Proof.
  exact (conj (proj1 qx_reaction_ready) (conj (proj2 qx_reaction_ready) (conj qx_proper_spins (conj qx_couplings
    (conj phase_space_factor_closed phase_space_factor_value))))).
Qed.

(** ** C100: a decay with the same chains in another order *)
Theorem C100_order_of_chains b b' s dyn ref cl cl' uc m :
  std_decay (b_decay b) s -> std_decay (b_decay b') s -> dynamics_of b dyn -> dynamics_of b' dyn ->
  (b_prod_helicity b = false -> plain_resonances (b_decay b)) ->
  b_prod_helicity b' = b_prod_helicity b -> b_dec_helicity b' = b_dec_helicity b -> b_all_subsystems b' = b_all_subsystems b ->
  Permutation (d_chains (b_decay b)) (d_chains (b_decay b')) ->
  ref = None \/ (exists r, ref = Some r /\ In r [1; 2; 3]) ->
  formulate b ref cl uc = Ok m ->
  exists m', formulate b' ref cl' uc = Ok m' /\
    (forall x, dget x (m_variables m') = dget x (m_variables m)) /\
    (forall ev k l, In k [1; 2; 3] -> helicity_tuple s l -> amp_value ev m' k l = amp_value ev m k l) /\
    (forall ev, full_value ev m' = full_value ev m).
Proof. exact (c100_order b b' s dyn ref cl cl' uc m). Qed.
Print Assumptions C100_order_of_chains.
Example C100_example : std_decay (b_decay ex_b) ex_st /\ std_decay (b_decay or_b) ex_st /\
  dynamics_of ex_b ex_dyn /\ dynamics_of or_b ex_dyn /\ plain_resonances (b_decay ex_b) /\
  Permutation (d_chains (b_decay ex_b)) (d_chains (b_decay or_b)) /\ d_chains (b_decay ex_b) <> d_chains (b_decay or_b) /\
  exists m, formulate ex_b None false false = Ok m.
Proof.
  split; [exact ex_std|]. split; [exact or_std|]. split; [exact (ex_dynamics _ (or_introl eq_refl))|].
  split; [exact or_dynamics|]. split; [exact ex_plain|]. split; [exact or_perm|].
  split; [vm_compute; discriminate|]. exact (ex_formulate _ _ (or_introl eq_refl)).
Qed.
