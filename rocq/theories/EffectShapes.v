(** The lineshapes of the Breit-Wigner builder are not zero (C151) *)
From Coq Require Import String ZArith List Bool Reals Lia Lra Permutation.
From Coquelicot Require Import Complex.
From Verif Require Import Prelude Decay Expr CExpr SpecKin SpecDPD SpecDynamics Dynamics FiniteShapes DynamicsProofs LineshapeFacts LineshapeProofs Builder SpecBuilder BuilderFacts BoundedProofs SpecObs
  ObsShapes BuilderExamples ChainExamples RelabelShapeExamples ProjectionExamples NarrowExamples SpecProjection EffectExamples SpecEffect EffectProofs.
Import ListNotations.
Local Open Scope R_scope.

Definition lv_base (x : symbol) : C :=
  RtoC (if String.eqb (sname x) "m0" then 12
        else if existsb (String.eqb (sname x)) ["sigma1"; "sigma2"; "sigma3"]%string then 64
        else if existsb (String.eqb (sname x)) ["m1"; "m2"; "m3"]%string then /4 else 1).
Lemma lv_mass i : In i [1; 2; 3]%Z -> lv_base (mass_at i) = RtoC (/4).
Proof. intros [<-|[<-|[<-|[]]]]; reflexivity. Qed.
Lemma lv_sigma i : In i [1; 2; 3]%Z -> lv_base (sigma_at i) = RtoC 64.
Proof. intros [<-|[<-|[<-|[]]]]; reflexivity. Qed.
Lemma lv_between i j k : cyclic i j k -> between_thresholds lv_base i j k.
Proof.
  intros Cy. assert (I : In i [1; 2; 3]%Z /\ In j [1; 2; 3]%Z /\ In k [1; 2; 3]%Z) by (destruct Cy as [E|[E|[E|[]]]]; injection E as <- <- <-; cbn; tauto).
  destruct I as (I & J & K). unfold between_thresholds. rewrite !lv_mass, lv_sigma by auto.
  change (Re (lv_base (mass_at 0))) with 12. cbn [Re RtoC fst]. replace 64 with (8 * 8) by ring. rewrite sqrt_square by lra. repeat split; lra.
Qed.

Lemma bw_simple_neq s m G : 0 < m -> 0 < G -> bw_simple (RtoC s) (RtoC m) (RtoC G) <> RtoC 0.
Proof.
  intros M0 G0 E. rewrite bw_real in E. apply (f_equal snd) in E. cbn [snd RtoC] in E.
  assert (P : 0 < m * G) by (apply Rmult_lt_0_compat; assumption).
  apply Rmult_integral in E. destruct E as [E|E]; [lra|]. revert E. apply Rinv_neq_0_compat.
  assert (Q : 0 < m * G * (m * G)) by (apply Rmult_lt_0_compat; exact P). pose proof (Rle_0_sqr (m * m - s)) as X. unfold Rsqr in X. lra.
Qed.
Lemma bw_live w c p0 r a b k i j dyn : bw_phsp_factor w = phase_space_factor -> isobar_chain c p0 r a b k i j ->
  bw_call w c = Ok (dyn c) -> forall i' j', cyclic i' j' (st_index k) ->
  (~ In (SpecObs.sigma_at i') (symbols_of (de_expr (dyn c)))) -> (~ In (SpecObs.sigma_at j') (symbols_of (de_expr (dyn c)))) -> live dyn c.
Proof.
  intros Ph Iso E i' j' Cy N1 N2. pose proof (spectator_isobar _ _ _ _ _ _ _ _ Iso) as Sp.
  exists lv_base, i', j'. rewrite Sp. split; [exact Cy|]. split; [exact (lv_between _ _ _ Cy)|]. split; [exact N1|]. split; [exact N2|].
  intros cpl. assert (Pv : phsp_value (bw_phsp_factor w) two_body_phsp) by (rewrite Ph; exact phase_space_factor_value).
  rewrite (c36_value w c p0 r a b k i j _ two_body_phsp (Env lv_base cpl) _ Pv Iso E). destruct Iso as (_ & I0 & P).
  assert (In' : forall x, In x [a; b; k] -> In (st_index x) [1; 2; 3]%Z).
  { intros x Hx. apply (Permutation_in _ P). cbn in Hx |- *. destruct Hx as [<-|[<-|[<-|[]]]]; auto. }
  assert (Om : forall x, In x [a; b; k] -> lv_base (outer_mass x) = RtoC (/4)) by (intros x Hx; exact (lv_mass _ (In' x Hx))).
  unfold chain_lineshape. cbn [e_sym]. cbv zeta.
  rewrite (Om a), (Om b), (Om k) by (cbn; auto).
  assert (E0 : lv_base (sigma_of k) = RtoC 64) by (apply (lv_sigma (st_index k)); apply In'; cbn; auto). rewrite E0.
  assert (E1 : lv_base (outer_mass p0) = RtoC 12) by (unfold outer_mass; rewrite I0; reflexivity). rewrite E1.
  change (lv_base (resonance_mass r)) with (RtoC 1). change (lv_base (resonance_width r)) with (RtoC 1).
  change (lv_base resonance_radius) with (RtoC 1). change (lv_base (parent_radius p0)) with (RtoC 1).
  rewrite <- !RtoC_mult. repeat apply Cmult_neq_0.
  - destruct (bw_energy_dependent_width w).
    + destruct (running_width_pos (orbital j) 64 1 1 (/4) (/4) 1) as (y & Y & ->); try lra.
      apply Cmult_neq_0; [apply RtoC_pos_neq; lra|]. apply bw_simple_neq; lra.
    + apply bw_simple_neq; lra.
  - destruct (bw_decay_form_factor w); [|apply RtoC_pos_neq; lra].
    destruct (form_factor_pos (orbital j) (64 * 64) (/4) (/4) 1) as (y & Y & ->); try lra. apply RtoC_pos_neq; lra.
  - destruct (bw_production_form_factor w); [|apply RtoC_pos_neq; lra].
    destruct (form_factor_pos (orbital i) (12 * 12) 1 (/4) 1) as (y & Y & ->); try lra. apply RtoC_pos_neq; lra.
Qed.
Lemma shapes_live d s dyn : std_decay d s -> two_body_resonances d ->
  (forall c, In c (d_chains d) -> dyn c = DefExpr (CNum 1) [] \/ exists w, bw_phsp_factor w = phase_space_factor /\ bw_call w c = Ok (dyn c)) ->
  forall c, In c (d_chains d) -> live dyn c.
Proof.
  intros D Tb Bw c Hc.
  assert (Bd : breit_wigner_dynamics d dyn).
  { intros c' Hc'. destruct (Bw c' Hc') as [E|(w & Ph & E)]; [left; exact E|right]. exists w. rewrite Ph. split; [exact phase_space_factor_closed|exact E]. }
  assert (Iso : exists r x y k, isobar_chain c (s 0%Z) r x y k (ch_incoming_ls c) (ch_outgoing_ls c) /\
    ch_spectator c = k /\ ch_resonance c = r /\ (forall z, In z [x; y; k] -> In (st_index z) [1; 2; 3]%Z /\ z = s (st_index z))).
  { apply (std_isobar _ _ _ D); auto.
    - intros c' Hc'. destruct (Tb c' Hc') as (r & x & y & j & ->). cbn. eauto.
    - destruct (Tb c Hc) as (r & x & y & j & ->). eauto. }
  destruct Iso as (r & x & y & k & Is & Sp & _ & St).
  destruct (St k) as [K _]; [cbn; auto|]. destruct (cyclic_ex (st_index k) K) as (i & j & Cy).
  assert (O : In i [1; 2; 3]%Z /\ In j [1; 2; 3]%Z /\ i <> st_index k /\ j <> st_index k).
  { clear -Cy. destruct Cy as [E|[E|[E|[]]]]; injection E as <- <- <-; cbn; repeat split; try tauto; discriminate. }
  destruct O as (I & J & Ni & Nj). rewrite <- Sp in Ni, Nj.
  destruct (Bw c Hc) as [E|(w & Ph & E)].
  - exists lv_base, i, j. rewrite Sp. split; [exact Cy|]. split; [exact (lv_between _ _ _ Cy)|]. rewrite E. cbn [de_expr].
    split; [intros []|]. split; [intros []|]. intros cpl V. rewrite CNum_value in V. revert V. apply RtoC_pos_neq. lra.
  - apply (bw_live w c _ _ _ _ _ _ _ dyn Ph Is E i j Cy); [exact (bw_independent d s dyn D Tb Bd c i Hc I Ni)|exact (bw_independent d s dyn D Tb Bd c j Hc J Nj)].
Qed.
Theorem ls_breit_wigner b s dyn ref cl uc m : std_decay (b_decay b) s -> dynamics_of b dyn -> two_body_resonances (b_decay b) ->
  formulate b ref cl uc = Ok m -> b_prod_helicity b = false -> b_dec_helicity b = false ->
  NoDup (map (chain_key false false) (d_chains (b_decay b))) -> (forall c, In c (d_chains (b_decay b)) -> allowed_chain c) ->
  (forall c, In c (d_chains (b_decay b)) -> dyn c = DefExpr (CNum 1) [] \/
     exists w, bw_phsp_factor w = phase_space_factor /\ bw_call w c = Ok (dyn c)) ->
  forall n v, occurs_in_amplitudes m (OIdx n v) -> has_effect m (n, v).
Proof.
  intros D Y Tb F HP HD ND Al Bw. apply (ls_all_effect b s dyn ref cl uc m D Y); auto.
  - intros c Hc. destruct (Tb c Hc) as (r & x & y & j & ->). cbn. eauto.
  - intros c Hc. split; [exact (Al c Hc)|exact (shapes_live _ _ _ D Tb Bw c Hc)].
Qed.

Lemma ls_bw_example : exists m, std_decay dl_decay ex_st /\ dynamics_of (nw_b true) (nw_dyn true) /\ two_body_resonances dl_decay /\
  formulate (nw_b true) (Some 2%Z) false true = Ok m /\ NoDup (map (chain_key false false) (d_chains dl_decay)) /\
  forall c, In c (d_chains dl_decay) -> allowed_chain c /\ bw_call (nw_w true) c = Ok (nw_dyn true c).
Proof.
  destruct (nw_formulate true) as (m & F). destruct pj_couplings as (m' & D & _ & _ & _ & Al & _). exists m.
  split; [exact D|]. split; [exact (nw_dynamics true)|]. split; [apply rb_two_body; cbn; auto|]. split; [exact F|].
  split; [cbn; repeat constructor; cbn; intuition discriminate|]. intros c Hc. split; [exact (Al c Hc)|exact (nw_call true c Hc)].
Qed.
