(** Concrete decays for C138: two LS couplings of a resonance of spin 1/2, and two resonances of different spin *)
From Coq Require Import String ZArith QArith Qcanon List Bool Reals Lia Lra Permutation.
From Coquelicot Require Import Complex.
From Verif Require Import Prelude Spin Decay Expr CExpr SpecKin SpecDPD Builder SpecBuilder BuilderProofs BuilderExamples ChainExamples
  SpecObs RelabelExamples RelabelShapeExamples ObsExamples AngularExamples SpecProjection EnvelopeExamples.
Import ListNotations.
Local Open Scope string_scope.
Local Open Scope Z_scope.
Local Open Scope list_scope.

Lemma pj_allowed c : In c (d_chains dl_decay ++ d_chains ob_decay) -> allowed_chain c.
Proof.
  intros H. cbn in H. repeat destruct H as [<-|H]; try destruct H; split; eexists; (split; [reflexivity|]); vm_compute; repeat split; discriminate.
Qed.
Lemma pj_between : between_thresholds (rb_base (id_env 72 24)) 3 1 2.
Proof.
  unfold between_thresholds. change (Re (rb_base (id_env 72 24) (mass_at 3))) with 0%R.
  change (Re (rb_base (id_env 72 24) (mass_at 1))) with 0%R. change (Re (rb_base (id_env 72 24) (mass_at 2))) with 0%R.
  change (Re (rb_base (id_env 72 24) (mass_at 0))) with 12%R. change (Re (rb_base (id_env 72 24) (sigma_at 2))) with 24%R.
  assert (E : (sqrt 24 * sqrt 24 = 24)%R) by (apply sqrt_sqrt; lra). pose proof (sqrt_lt_R0 24 ltac:(lra)) as P.
  repeat split; try lra. destruct (Rlt_or_le (sqrt 24) 12) as [L|L]; [lra|nra].
Qed.
Lemma pj_couplings : exists m, std_decay dl_decay ex_st /\ dynamics_of (dl_b dl_decay [] false) (fun _ => de_unit) /\
  plain_resonances dl_decay /\ formulate (dl_b dl_decay [] false) (Some 2%Z) false true = Ok m /\
  (forall c, In c (d_chains dl_decay) -> allowed_chain c) /\ one_subsystem dl_decay 2 /\ cyclic 3 1 2 /\
  NoDup (map wave_of (d_chains dl_decay)) /\
  (forall c, In c (d_chains dl_decay) -> ~ In (sigma_at 3) (symbols_of (de_expr de_unit)) /\ ~ In (sigma_at 1) (symbols_of (de_expr de_unit))) /\
  between_thresholds (rb_base (id_env 72 24)) 3 1 2.
Proof.
  destruct en_example as (m & D & Y & P & F & _). exists m. split; [exact D|]. split; [exact Y|]. split; [exact P|]. split; [exact F|].
  split; [intros c I; apply pj_allowed, in_or_app; left; exact I|].
  split; [split; [discriminate|intros c [<-|[<-|[]]]; reflexivity]|].
  split; [cbn; tauto|]. split; [cbn; repeat constructor; cbn; intuition discriminate|].
  split; [intros c _; split; intros []|exact pj_between].
Qed.
Lemma pj_spins : std_decay (b_decay ob_b) id_st /\ dynamics_of ob_b rb_dyn /\ plain_resonances (b_decay ob_b) /\
  (exists m, formulate ob_b None false false = Ok m) /\ b_prod_helicity ob_b = false /\ b_dec_helicity ob_b = false /\
  (forall c, In c (d_chains (b_decay ob_b)) -> allowed_chain c) /\ one_subsystem (b_decay ob_b) 1 /\ cyclic 2 3 1 /\
  NoDup (map wave_of (d_chains (b_decay ob_b))) /\
  (forall c, In c (d_chains (b_decay ob_b)) ->
     ~ In (sigma_at 2) (symbols_of (de_expr (rb_dyn c))) /\ ~ In (sigma_at 3) (symbols_of (de_expr (rb_dyn c)))) /\
  between_thresholds (rb_base (id_env 72 24)) 2 3 1.
Proof.
  split; [exact ob_std|]. split; [exact ob_dynamics|]. split; [exact ob_plain|]. split; [exact ob_formulate|]. split; [reflexivity|]. split; [reflexivity|].
  split; [intros c I; apply pj_allowed, in_or_app; right; exact I|]. split; [exact ob_one|]. split; [exact ob_cyclic|].
  split; [cbn; repeat constructor; cbn; intuition discriminate|]. split; [exact ob_lines|exact ob_between].
Qed.
