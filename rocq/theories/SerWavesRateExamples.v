(** Two K resonances of a model file whose rates add (examples for C157) *)
From Coq Require Import String ZArith QArith Qcanon List Bool Reals Lra Permutation.
From Coquelicot Require Import Complex.
From Verif Require Import Prelude Spin Decay Expr SpecKin CExpr Builder AnglesProofs RefRefuted SpecDPD SpecNormal NormalProofs SpecBounded
  SerFormat SerDynamics SpecSerial SerTotal SpecWeights SerWeights SerSymbols SerPoints SerExamples SpecSerPoints SerPointExamples SpecSerFinite SerFinite SerFiniteExamples
  SpecSerBounded SerBounded SpecSerMassless SpecSerEffect SerEffectShapes SerChainExamples SpecSerWaves SerWavesExamples LcModel LcProofs PartExamples LcEffect SpecSerOpposite SerOpposite SerWavesRate.
From Verif Require SerAmplitude.
Import ListNotations.
Local Open Scope string_scope.
Local Open Scope Z_scope.
Local Open Scope list_scope.

Definition wr_base (b1 b2 : bool) (y : symbol) : C :=
  if eqb y (wv_w (wv_K "A" 0)) then (if b1 then RtoC 1 else RtoC 0) else if eqb y (wv_w (wv_K "B" 2)) then (if b2 then RtoC 1 else RtoC 0) else nx_base y.
Lemma wr_physical b1 b2 : physical (fun y => Re (wr_base b1 b2 y)) /\ nonsingular (fun y => Re (wr_base b1 b2 y)).
Proof. split; [|exact ex_nonsingular]. exists ex_p1, ex_p2, ex_p3. exact ex_momenta. Qed.
Lemma wr_barrier c : In c wv_chains -> no_production_barrier wv_model c.
Proof. intros [<-|[<-|[]]] v k pair [<-|[<-|[]]] [E|E]; try discriminate E; auto. Qed.
Lemma wr_no_channels c p f : In c wv_chains -> In p (cd_propagators c) -> function_of wv_model (pr_parametrization p) f -> f = sx_bw "K_BW" 1 2 1 0 1 3.
Proof. intros [<-|[<-|[]]] [<-|[]] Ff; (apply (function_fun wv_model _ _ _ Ff); fn (@nil func_def) (@nil func_def)). Qed.
Lemma wr_threshold b1 b2 c : In c wv_chains -> threshold_serial wv_model sx_tl wv_x (wr_base b1 b2) c.
Proof.
  intros I. split; [|split; destruct I as [<-|[<-|[]]]; cbn; lra].
  set (t := lower_limit (wr_base b1 b2) (ct_k (wv_x c))).
  assert (K : ct_k (wv_x c) = 1) by reflexivity.
  split; [exact (proj2 (wv_good c I))|]. split; [exact (wr_barrier c I)|]. split; [|split].
  - split.
    + intros y [X|[[->|(n & [->| ->])]|[[->|(n & ->)]|[->| ->]]]].
      * destruct I as [<-|[<-|[]]]; cbn in X; repeat (destruct X as [<-|X]; [reflexivity|]); destruct X.
      * destruct I as [<-|[<-|[]]]; reflexivity.
      * unfold at_sigmas, wr_base, nx_base, channel_mass_sym, SerDynamics.channel_mass_symbol. destruct I as [<-|[<-|[]]]; cbn; destruct (str_of_Z n) as [|[[] [] [] [] [] [] [] []] ?]; reflexivity.
      * unfold at_sigmas, wr_base, nx_base, channel_mass_sym, SerDynamics.channel_mass_symbol. destruct I as [<-|[<-|[]]]; cbn; destruct (str_of_Z n) as [|[[] [] [] [] [] [] [] []] ?]; reflexivity.
      * destruct I as [<-|[<-|[]]]; reflexivity.
      * destruct I as [<-|[<-|[]]]; reflexivity.
      * destruct I as [<-|[<-|[]]]; reflexivity.
      * destruct I as [<-|[<-|[]]]; reflexivity.
    + destruct I as [<-|[<-|[]]]; cbn; lra.
  - destruct I as [<-|[<-|[]]]; intros _; cbn; lra.
  - intros p f ch0 chs q ch Ip Ff Ec Eq. rewrite (wr_no_channels c p f I Ip Ff) in Ec. discriminate Ec.
Qed.
Lemma wr_rates cl M cpl b1 b2 i j k : SerAmplitude.formulate wv_model cl sx_tl None = Ok M -> cyclic i j k ->
  exists N, integrates_to (wr_base b1 b2) (intensity_at M cpl) i j k N.
Proof.
  intros F Cy. destruct (c142_serial_lineshapes wv_model _ sx_s 1 sx_tl wv_x wv_w wv_dyn cl M (wr_base b1 b2) cpl i j k wv_definition F Cy
    (proj1 (wr_physical b1 b2)) (proj2 (wr_physical b1 b2)) (wr_threshold b1 b2)) as (N & HN & _). exists N. exact HN.
Qed.
Lemma wr_example : (exists M, SerAmplitude.formulate wv_model true sx_tl None = Ok M /\ forall cpl b1 b2, exists N, integrates_to (wr_base b1 b2) (intensity_at M cpl) 2 3 1 N) /\
  weights_only wv_w wv_dyn wv_chains /\ open_phase_space (wr_base true true) /\
  (exists c, In c wv_chains /\ ct_k (wv_x c) = 1) /\
  weights_scaled wv_w wv_chains (kept wv_keep) (wr_base true true) (wr_base true false) /\
  weights_scaled wv_w wv_chains (kept (fun c => negb (wv_keep c))) (wr_base true true) (wr_base false true) /\
  (forall c, active wv_w wv_chains (wr_base true true) c -> in_subsystem wv_x wv_dyn 2 3 1 c) /\
  (forall c c', active wv_w wv_chains (wr_base true true) c -> active wv_w wv_chains (wr_base true true) c' -> wv_keep c = true -> wv_keep c' = false ->
     ct_spin (wv_x c) <> ct_spin (wv_x c') /\ same_helicities 2 (wv_x c) (wv_x c')) /\
  (forall c, In c wv_chains -> active wv_w wv_chains (wr_base true true) c).
Proof.
  assert (Cy : cyclic 2 3 1) by (cbn; auto).
  assert (O : forall b1 b2 y, ~ is_weight wv_w wv_chains y -> wr_base b1 b2 y = nx_base y).
  { intros b1 b2 y N. unfold wr_base.
    destruct (eqb y (wv_w (wv_K "A" 0))) eqn:E; [apply (proj1 (Prelude.eqb_eq _ _)) in E; destruct N; eexists; split; [left; reflexivity|exact E]|].
    destruct (eqb y (wv_w (wv_K "B" 2))) eqn:E'; [apply (proj1 (Prelude.eqb_eq _ _)) in E'; destruct N; eexists; split; [right; left; reflexivity|exact E']|reflexivity]. }
  split. { destruct wv_formulate as [M F]. exists M. split; [exact F|]. intros cpl b1 b2. exact (wr_rates true M cpl b1 b2 2 3 1 F Cy). }
  split. { exact (builtin_weights _ _ _ _ _ _ _ _ wv_definition). }
  split; [exact (open_of_physical _ (proj1 (wr_physical true true)) (proj2 (wr_physical true true)))|].
  split; [exists (wv_K "A" 0); split; [left|]; reflexivity|].
  split. { split; [intros c [<-|[<-|[]]]; unfold wr_base, kept; cbn; ring|intros y N; rewrite !O by exact N; reflexivity]. }
  split. { split; [intros c [<-|[<-|[]]]; unfold wr_base, kept; cbn; ring|intros y N; rewrite !O by exact N; reflexivity]. }
  split. { intros c [Hc _]. split; [reflexivity|]. split; [destruct Hc as [<-|[<-|[]]]; split; apply memb_In; reflexivity|].
    exact (live_no_sigma wv_x wv_dyn c 2 3 (complete_live _ _ _ _ _ _ _ _ c wv_definition Hc (proj2 (wv_good c Hc))) Cy). }
  split.
  - intros c c' [[<-|[<-|[]]] _] [[<-|[<-|[]]] _] E E'; try discriminate E; try discriminate E'. split; [discriminate|]. left. split; reflexivity.
  - intros c Hc. split; [exact Hc|]. destruct Hc as [<-|[<-|[]]]; unfold wr_base; cbn; intros E; apply (f_equal fst) in E; cbn in E; lra.
Qed.

(** ** /repo/docs/Lc2ppiK.json *)
Lemma lc_first k : In k [1; 2; 3] -> exists c0, In c0 (di_chains lc_dist) /\ ct_k (lc_x c0) = k.
Proof.
  intros Ik. assert (B : existsb (fun c => ct_k (lc_x c) =? k) lc_chains = true) by (destruct Ik as [<-|[<-|[<-|[]]]]; vm_compute; reflexivity).
  apply existsb_exists in B. destruct B as (c0 & I0 & E0). exists c0. split; [exact I0|]. apply Z.eqb_eq. exact E0.
Qed.
Theorem lc_waves_rate cl M : SerAmplitude.formulate lc_model cl lc_tl lc_builders = Ok M ->
  forall i j k h base base1 base2 cpl keep, cyclic i j k -> open_phase_space base ->
  (forall c, active lc_w lc_chains base c -> ct_k (lc_x c) = k /\ ct_r (lc_x c) = h) ->
  weights_scaled lc_w lc_chains (kept keep) base base1 -> weights_scaled lc_w lc_chains (kept (fun c => negb (keep c))) base base2 ->
  (forall c c', active lc_w lc_chains base c -> active lc_w lc_chains base c' -> keep c = true -> keep c' = false -> ct_spin (lc_x c) <> ct_spin (lc_x c')) ->
  forall N1 N2, integrates_to base1 (intensity_at M cpl) i j k N1 -> integrates_to base2 (intensity_at M cpl) i j k N2 ->
  integrates_to base (intensity_at M cpl) i j k (N1 + N2).
Proof.
  intros F i j k h base base1 base2 cpl keep Cy Op Act S1 S2 Df.
  destruct (lc_first k) as (c0 & Hc0 & K0); [destruct Cy as [E|[E|[E|[]]]]; injection E as _ _ <-; cbn; auto|].
  refine (waves_rate lc_model lc_dist lc_s 2 lc_tl lc_builders lc_x lc_w lc_dyn lc_definition cl M F lc_weights i j k c0 Hc0 K0 base base1 base2 cpl keep Op S1 S2 Cy _ _).
  - intros c A. destruct (Act c A) as (Kc & _). split; [exact Kc|]. split; [exact (proj1 (lc_possible c (proj1 A)))|].
    apply (live_no_sigma lc_x lc_dyn c i j (lc_live c (proj1 A))). rewrite Kc. exact Cy.
  - intros c c' A A' E E'. split; [exact (Df c c' A A' E E')|]. destruct (Act c A) as (K & h1). destruct (Act c' A') as (K' & h2).
    apply lc_same; [exact (proj1 A)|exact (proj1 A')|congruence|congruence].
Qed.
Theorem lc_opposite_rate cl M : SerAmplitude.formulate lc_model cl lc_tl lc_builders = Ok M ->
  forall k base base1 base2 cpl, In k [2; 3] -> open_phase_space base -> (forall c, active lc_w lc_chains base c -> ct_k (lc_x c) = k) ->
  weights_scaled lc_w lc_chains (kept (fun c => ct_fd (lc_x c) =? 1)) base base1 ->
  weights_scaled lc_w lc_chains (kept (fun c => negb (ct_fd (lc_x c) =? 1))) base base2 ->
  forall i' j' k', cyclic i' j' k' -> forall N1 N2, integrates_to base1 (intensity_at M cpl) i' j' k' N1 -> integrates_to base2 (intensity_at M cpl) i' j' k' N2 ->
  integrates_to base (intensity_at M cpl) i' j' k' (N1 + N2).
Proof.
  intros F k base base1 base2 cpl Ik Op Act S1 S2 i' j' k' Cy.
  destruct (lc_first k) as (c0 & Hc0 & K0); [destruct Ik as [<-|[<-|[]]]; cbn; auto|].
  refine (opposite_rate lc_model lc_dist lc_s 2 lc_tl lc_builders lc_x lc_w lc_dyn lc_definition cl M F lc_weights k c0 Hc0 K0 base base1 base2 cpl _ Op S1 S2 i' j' k' Cy Act _).
  intros c c' A A' E E'. apply lc_opposite; [exact (proj1 A)|exact (proj1 A')|rewrite (Act c A), (Act c' A'); reflexivity| |apply Z.eqb_eq; exact E|apply Z.eqb_neq; exact E'].
  rewrite (Act c A). destruct Ik as [<-|[<-|[]]]; discriminate.
Qed.
Lemma lw_open f : open_phase_space (lw_base f).
Proof.
  assert (Q : forall y, sassume y = ANonneg -> lw_base f y = se_base y).
  { intros y A. apply lw_other. intros N. apply (weight_none lc_model lc_dist lc_s 2 lc_tl lc_builders lc_x lc_w lc_dyn lc_definition) in N. congruence. }
  unfold open_phase_space, particle_mass. rewrite !Q by reflexivity. cbn. lra.
Qed.
