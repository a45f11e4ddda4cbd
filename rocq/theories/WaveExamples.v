(** A model with LS couplings (C134) *)
From Coq Require Import ZArith Reals List.
From Verif Require Import DecayProofs.
From Verif Require Import Prelude Spin Decay Expr CExpr SpecDPD Builder BuilderExamples.
Import ListNotations.

Lemma ex_wave : std_decay (b_decay ex_b) ex_st /\ dynamics_of ex_b ex_dyn /\ plain_resonances (b_decay ex_b) /\
  b_prod_helicity ex_b = false /\ b_dec_helicity ex_b = false /\ (exists m, formulate ex_b None false true = Ok m) /\
  (exists c, In c (d_chains (b_decay ex_b)) /\ st_index (ch_spectator c) = 2%Z /\ SpecDPD.cyclic 3 1 2 /\
     ch_incoming_ls c = Some (LS 1 1) /\ ch_outgoing_ls c = Some (LS 0 1)).
Proof.
  split; [exact ex_std|]. split; [exact (ex_dynamics (MinBool false) (or_introl eq_refl))|]. split; [exact ex_plain|].
  split; [reflexivity|]. split; [reflexivity|]. split; [exact (ex_formulate (MinBool false) true (or_introl eq_refl))|].
  exists ex_chain. split; [left; reflexivity|]. split; [reflexivity|]. split; [vm_compute; auto|]. split; reflexivity.
Qed.
