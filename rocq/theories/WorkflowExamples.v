(** A reaction that meets the conditions of C99: J/psi -> gamma pi0 pi0 of QrulesExamples.v *)
From Coq Require Import String ZArith QArith Qcanon List Bool Lia.
From Verif Require Import Prelude Spin SpinFacts Decay DecayFacts DecayProofs Qrules SpecQrules QrulesConvert QrulesExamples SpecWorkflow.
Import ListNotations.
Local Open Scope string_scope.
Local Open Scope Z_scope.
Local Open Scope list_scope.

Lemma qx_spin name n parity p : 0 <= n -> converts_particle (qx_q name n parity) p -> 0 <= p_spin p.
Proof.
  intros N C. unfold qx_q, converts_particle, converts_q in C. destruct C as (_ & _ & C & _). cbn [q_spin] in C.
  rewrite <- Qc_of_Z_mult2 in C. apply Qc_of_Z_inj in C. lia.
Qed.
Lemma qx_proper_spins : proper_spins qx_reaction.
Proof.
  intros t x s I _ (o & So & Cv & _).
  assert (Q : exists name n parity, 0 <= n /\ o = qx_q name n parity).
  { unfold state_of in So. clear - I So.
    repeat (destruct I as [<-|I]; [cbn [qx_t tr_states dget] in So;
      repeat (destruct eq_dec; [injection So as <-; eexists _, _, _; split; [|reflexivity]; lia|]); discriminate So|]).
    destruct I. }
  destruct Q as (name & n & parity & N & ->). exact (qx_spin _ _ _ _ N Cv).
Qed.
Lemma qx_couplings n : couplings_at qx_reaction n.
Proof.
  intros t o I Co C.
  assert (Q : exists l S, o = qx_ls l S).
  { unfold coupling_of in Co. clear - I Co.
    repeat (destruct I as [<-|I]; [cbn [qx_t tr_interactions dget] in Co;
      repeat (destruct eq_dec; [injection Co as <-; eauto|]); discriminate Co|]).
    destruct I. }
  destruct Q as (l & S & ->). cbn in C. destruct C as (y & Y & _). discriminate Y.
Qed.
