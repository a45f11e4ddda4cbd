(** The mass distributions of files with the lineshapes of the package and of /repo/docs/Lc2ppiK.json (C157) *)
From Coq Require Import String ZArith QArith Qcanon List Bool Reals Lia Lra Permutation.
From Coquelicot Require Import Complex Hierarchy RInt.
From Verif Require Import Prelude Spin SpinFacts Decay Expr Angles Sums CExpr SpecDPD Builder BuilderFacts SpecObs ObsProofs
  SerFormat SerDynamics SpecSerial SpecWeights SerModel SerWeights SerTotal SerSymbols SerExamples LcModel LcProofs PartExamples SpecSerMassless SpecSerEffect SerEffectProofs SerEffectShapes SerEffectExamples LcEffect
  SpecSerChain SerChain SerChainExamples SpecSerWaves SerWaves.
From Verif Require SerAmplitude.
Import ListNotations.
Local Open Scope R_scope.

Theorem complete_waves m d s r tl x w dyn : helicity_definition m d s r tl None x w dyn ->
  forall cl M, SerAmplitude.formulate m cl tl None = Ok M ->
  forall i j k base cpl lo hi, cyclic i j k -> between_thresholds base i j k -> dalitz_range base i j k lo hi ->
  (exists c, In c (di_chains d) /\ ct_k (x c) = k) ->
  (forall c, active w (di_chains d) base c -> complete_chain m c /\ ct_k (x c) = k /\ resonance_possible (x c)) ->
  forall base1 base2 keep, weights_scaled w (di_chains d) (kept keep) base base1 ->
  weights_scaled w (di_chains d) (kept (fun c => negb (keep c))) base base2 ->
  (forall c c', active w (di_chains d) base c -> active w (di_chains d) base c' -> keep c = true -> keep c' = false ->
     ct_spin (x c) <> ct_spin (x c') /\ same_helicities i (x c) (x c')) ->
  forall v1 v2,
  is_RInt (fun t => Re (full_value (at_point (m_variables M) (dalitz_line base1 i j k t) cpl) M)) lo hi v1 ->
  is_RInt (fun t => Re (full_value (at_point (m_variables M) (dalitz_line base2 i j k t) cpl) M)) lo hi v2 ->
  is_RInt (fun t => Re (full_value (at_point (m_variables M) (dalitz_line base i j k t) cpl) M)) lo hi (v1 + v2).
Proof.
  intros H cl M F i j k base cpl lo hi Cy BT Rg (c0 & Hc0 & K0) Act.
  apply (waves_incoherent m d s r tl None x w dyn H cl M F (builtin_weights _ _ _ _ _ _ _ _ H) i j k c0 Hc0 K0 Cy base cpl lo hi BT Rg).
  intros c A. destruct (Act c A) as (Cc & Kc & Rp). split; [exact Kc|]. split; [exact Rp|].
  apply (live_no_sigma x dyn c i j (complete_live m d s r tl x w dyn c H (proj1 A) Cc)). rewrite Kc. exact Cy.
Qed.

(** ** /repo/docs/Lc2ppiK.json *)
Lemma lc_same i c c' : In c lc_chains -> In c' lc_chains -> ct_k (lc_x c) = ct_k (lc_x c') -> ct_r (lc_x c) = ct_r (lc_x c') -> same_helicities i (lc_x c) (lc_x c').
Proof.
  intros Hc Hc' Ek Er. left. split; [exact Er|].
  assert (B : forallb (fun c => forallb (fun c' => negb (ct_k (lc_x c) =? ct_k (lc_x c'))%Z
    || ((ct_i (lc_x c) =? ct_i (lc_x c')) && (ct_li (lc_x c) =? ct_li (lc_x c')) && (ct_lj (lc_x c) =? ct_lj (lc_x c')))%Z) lc_chains) lc_chains = true)
    by (vm_compute; reflexivity).
  rewrite forallb_forall in B. specialize (B c Hc). rewrite forallb_forall in B. specialize (B c' Hc').
  rewrite Ek, Z.eqb_refl in B. cbn [negb orb] in B. apply andb_true_iff in B. destruct B as [B B3]. apply andb_true_iff in B. destruct B as [B1 B2].
  apply Z.eqb_eq in B1. apply Z.eqb_eq in B2. apply Z.eqb_eq in B3. unfold difference_at. rewrite B1, B2, B3. reflexivity.
Qed.
Theorem lc_waves cl M : SerAmplitude.formulate lc_model cl lc_tl lc_builders = Ok M ->
  forall i j k h base cpl lo hi, cyclic i j k -> between_thresholds base i j k -> dalitz_range base i j k lo hi ->
  (forall c, active lc_w lc_chains base c -> ct_k (lc_x c) = k /\ ct_r (lc_x c) = h) ->
  forall base1 base2 keep, weights_scaled lc_w lc_chains (kept keep) base base1 ->
  weights_scaled lc_w lc_chains (kept (fun c => negb (keep c))) base base2 ->
  (forall c c', active lc_w lc_chains base c -> active lc_w lc_chains base c' -> keep c = true -> keep c' = false -> ct_spin (lc_x c) <> ct_spin (lc_x c')) ->
  forall v1 v2,
  is_RInt (fun t => Re (full_value (at_point (m_variables M) (dalitz_line base1 i j k t) cpl) M)) lo hi v1 ->
  is_RInt (fun t => Re (full_value (at_point (m_variables M) (dalitz_line base2 i j k t) cpl) M)) lo hi v2 ->
  is_RInt (fun t => Re (full_value (at_point (m_variables M) (dalitz_line base i j k t) cpl) M)) lo hi (v1 + v2).
Proof.
  intros F i j k h base cpl lo hi Cy BT Rg Act base1 base2 keep S1 S2 Df.
  assert (Ex : exists c0, In c0 lc_chains /\ ct_k (lc_x c0) = k).
  { assert (B : existsb (fun c => ct_k (lc_x c) =? k)%Z lc_chains = true).
    { assert (Ik : In k [1; 2; 3]%Z) by (destruct Cy as [E|[E|[E|[]]]]; injection E as _ _ <-; cbn; auto).
      destruct Ik as [<-|[<-|[<-|[]]]]; vm_compute; reflexivity. }
    apply existsb_exists in B. destruct B as (c0 & I0 & E0). exists c0. split; [exact I0|]. apply Z.eqb_eq. exact E0. }
  destruct Ex as (c0 & Hc0 & K0).
  refine (waves_incoherent lc_model lc_dist lc_s 2 lc_tl lc_builders lc_x lc_w lc_dyn lc_definition cl M F lc_weights i j k c0 Hc0 K0 Cy base cpl lo hi BT Rg _ base1 base2 keep S1 S2 _).
  - intros c A. destruct (Act c A) as (Kc & _). split; [exact Kc|]. split; [exact (proj1 (lc_possible c (proj1 A)))|].
    apply (live_no_sigma lc_x lc_dyn c i j (lc_live c (proj1 A))). rewrite Kc. exact Cy.
  - intros c c' A A' E E'. split; [exact (Df c c' A A' E E')|]. destruct (Act c A) as (K & h1). destruct (Act c' A') as (K' & h2).
    apply lc_same; [exact (proj1 A)|exact (proj1 A')|congruence|congruence].
Qed.
(** All L chains with helicity 1/2, weight 1; the kept ones have spin 3/2. *)
Definition lw_active (c : chain_def) : bool := ((ct_k (lc_x c) =? 2) && (ct_r (lc_x c) =? 1))%Z.
Definition lw_keep (c : chain_def) : bool := (ct_spin (lc_x c) =? 3)%Z.
Definition lw_base (f : chain_def -> bool) (y : symbol) : C :=
  if memb y (map lc_w (filter f lc_chains)) then RtoC 1 else if memb y (map lc_w lc_chains) then RtoC 0 else se_base y.
Lemma lw_weight f c : In c lc_chains -> lw_base f (lc_w c) = if f c then RtoC 1 else RtoC 0.
Proof.
  intros Hc. unfold lw_base. destruct (f c) eqn:E.
  - rewrite (proj2 (memb_In _ _)); [reflexivity|]. apply in_map. apply filter_In. auto.
  - destruct (memb (lc_w c) (map lc_w (filter f lc_chains))) eqn:B.
    + apply memb_In in B. apply in_map_iff in B. destruct B as (c' & E1 & I'). apply filter_In in I'. destruct I' as [I' F'].
      apply (weight_inj lc_dist lc_w lc_distinct c Hc c' I') in E1. congruence.
    + rewrite (proj2 (memb_In _ _) (in_map lc_w _ _ Hc)). reflexivity.
Qed.
Lemma lw_other f y : ~ is_weight lc_w lc_chains y -> lw_base f y = se_base y.
Proof.
  intros N. unfold lw_base. destruct (memb y (map lc_w (filter f lc_chains))) eqn:B.
  - apply memb_In in B. apply in_map_iff in B. destruct B as (c & E & I). destruct N. exists c. apply filter_In in I. split; [apply I|symmetry; exact E].
  - destruct (memb y (map lc_w lc_chains)) eqn:B'; [|reflexivity].
    apply memb_In in B'. apply in_map_iff in B'. destruct B' as (c & E & I). destruct N. exists c. split; [exact I|symmetry; exact E].
Qed.
Lemma lw_scaled f g : weights_scaled lc_w lc_chains (kept g) (lw_base f) (lw_base (fun c => f c && g c)).
Proof.
  split.
  - intros c Hc. rewrite !lw_weight by exact Hc. unfold kept. destruct (f c), (g c); cbn [andb]; ring.
  - intros y N. rewrite !lw_other by exact N. reflexivity.
Qed.
Lemma lw_example : between_thresholds (lw_base lw_active) 3 1 2 /\
  (forall c, active lc_w lc_chains (lw_base lw_active) c -> ct_k (lc_x c) = 2%Z /\ ct_r (lc_x c) = 1%Z) /\
  weights_scaled lc_w lc_chains (kept lw_keep) (lw_base lw_active) (lw_base (fun c => lw_active c && lw_keep c)) /\
  weights_scaled lc_w lc_chains (kept (fun c => negb (lw_keep c))) (lw_base lw_active) (lw_base (fun c => lw_active c && negb (lw_keep c))) /\
  (forall c c', active lc_w lc_chains (lw_base lw_active) c -> active lc_w lc_chains (lw_base lw_active) c' -> lw_keep c = true -> lw_keep c' = false ->
     ct_spin (lc_x c) <> ct_spin (lc_x c')) /\
  map lw_keep (filter lw_active lc_chains) = [false; true; false; false; true; false].
Proof.
  split.
  { assert (Cy : cyclic 3 1 2) by (cbn; auto). pose proof (se_between 3 1 2 Cy) as B. unfold between_thresholds in *.
    assert (Q : forall y, sassume y = ANonneg -> lw_base lw_active y = se_base y).
    { intros y A. apply lw_other. intros N. apply (weight_none lc_model lc_dist lc_s 2 lc_tl lc_builders lc_x lc_w lc_dyn lc_definition) in N. congruence. }
    rewrite !Q by reflexivity. exact B. }
  split.
  { intros c [Hc N]. rewrite lw_weight in N by exact Hc. destruct (lw_active c) eqn:E; [|destruct N; reflexivity].
    apply andb_true_iff in E. destruct E as [E1 E2]. apply Z.eqb_eq in E1. apply Z.eqb_eq in E2. auto. }
  split; [apply lw_scaled|]. split; [apply lw_scaled|]. split; [|vm_compute; reflexivity].
  intros c c' _ _ E E' Q. unfold lw_keep in *. rewrite Q in E. congruence.
Qed.

(** ** Two K resonances with spins 0 and 1 *)
Definition wv_K (name : string) (J : Z) : chain_def := sx_chain name "K_BW" J 2 3 1 0 1 0 0 (sx_vertex "helicity" None None) (sx_vertex "helicity" None None) 1.
Definition wv_chains : list chain_def := [wv_K "A" 0; wv_K "B" 2].
Definition wv_model : model_def := sx_def wv_chains [sx_bw "K_BW" 1 2 1 0 1 3].
Definition wv_x (c : chain_def) : content := Content (if eqb (cd_name c) "A"%string then 0 else 2) 2 3 1 0 1 0 0 0 0.
Definition wv_w (c : chain_def) : symbol := weight_sym sx_tl c (wv_x c).
Definition wv_dyn : chain_def -> defexpr := dynamics_value wv_model sx_tl.
Lemma wv_good c : In c wv_chains -> has_content c (wv_x c) /\ complete_chain wv_model c.
Proof.
  intros [<-|[<-|[]]]; (split; [apply sx_content; [perm|left; auto|left; auto]|]); (split; [intros p [<-|[]]|intros v [<-|[<-|[]]]; left; reflexivity]);
    (eexists; split; [fn (@nil func_def) (@nil func_def)|left; split; [reflexivity|numbers]]).
Qed.
Lemma wv_definition : helicity_definition wv_model (sx_dist wv_chains) sx_s 1 sx_tl None wv_x wv_w wv_dyn.
Proof. exact (proj1 (complete_helicity wv_model (sx_dist wv_chains) sx_s 1 sx_tl (sx_describes _ _) wv_x wv_good)). Qed.
Lemma wv_formulate : exists M, SerAmplitude.formulate wv_model true sx_tl None = Ok M.
Proof. exact (serial_total wv_model (sx_dist wv_chains) sx_s 1 sx_tl (sx_describes _ _) wv_x true wv_good). Qed.
Definition wv_keep (c : chain_def) : bool := eqb (cd_name c) "A"%string.
Definition wv_base (b1 b2 : bool) (y : symbol) : C :=
  if eqb y (wv_w (wv_K "A" 0)) then (if b1 then RtoC 1 else RtoC 0) else if eqb y (wv_w (wv_K "B" 2)) then (if b2 then RtoC 1 else RtoC 0) else se_base y.
Lemma wv_example : between_thresholds (wv_base true true) 2 3 1 /\ (exists c, In c wv_chains /\ ct_k (wv_x c) = 1%Z) /\
  (forall c, active wv_w wv_chains (wv_base true true) c -> complete_chain wv_model c /\ ct_k (wv_x c) = 1%Z /\ resonance_possible (wv_x c)) /\
  weights_scaled wv_w wv_chains (kept wv_keep) (wv_base true true) (wv_base true false) /\
  weights_scaled wv_w wv_chains (kept (fun c => negb (wv_keep c))) (wv_base true true) (wv_base false true) /\
  (forall c c', active wv_w wv_chains (wv_base true true) c -> active wv_w wv_chains (wv_base true true) c' -> wv_keep c = true -> wv_keep c' = false ->
     ct_spin (wv_x c) <> ct_spin (wv_x c') /\ same_helicities 2 (wv_x c) (wv_x c')) /\
  (forall c, In c wv_chains -> active wv_w wv_chains (wv_base true true) c).
Proof.
  assert (Cy : cyclic 2 3 1) by (cbn; auto).
  assert (O : forall b1 b2 y, ~ is_weight wv_w wv_chains y -> wv_base b1 b2 y = se_base y).
  { intros b1 b2 y N. unfold wv_base.
    destruct (eqb y (wv_w (wv_K "A" 0))) eqn:E; [apply (proj1 (Prelude.eqb_eq _ _)) in E; destruct N; eexists; split; [left; reflexivity|exact E]|].
    destruct (eqb y (wv_w (wv_K "B" 2))) eqn:E'; [apply (proj1 (Prelude.eqb_eq _ _)) in E'; destruct N; eexists; split; [right; left; reflexivity|exact E']|reflexivity]. }
  split; [exact (se_between 2 3 1 Cy)|]. split; [exists (wv_K "A" 0); split; [left|]; reflexivity|].
  split. { intros c [Hc _]. split; [exact (proj2 (wv_good c Hc))|]. destruct Hc as [<-|[<-|[]]]; (split; [reflexivity|split; apply memb_In; reflexivity]). }
  split. { split; [intros c [<-|[<-|[]]]; unfold wv_base, kept; cbn; ring|intros y N; rewrite !O by exact N; reflexivity]. }
  split. { split; [intros c [<-|[<-|[]]]; unfold wv_base, kept; cbn; ring|intros y N; rewrite !O by exact N; reflexivity]. }
  split.
  - intros c c' [[<-|[<-|[]]] _] [[<-|[<-|[]]] _] E E'; try discriminate E; try discriminate E'. split; [discriminate|]. left. split; reflexivity.
  - intros c Hc. split; [exact Hc|]. destruct Hc as [<-|[<-|[]]]; unfold wv_base; cbn; intros E; apply (f_equal fst) in E; cbn in E; lra.
Qed.
