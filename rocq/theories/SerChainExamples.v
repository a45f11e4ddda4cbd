(** The mass distribution of a chain with the lineshapes of the package, and of /repo/docs/Lc2ppiK.json (C155) *)
From Coq Require Import String ZArith QArith Qcanon List Bool Reals Lia Lra Permutation.
From Coquelicot Require Import Complex Hierarchy RInt.
From Verif Require Import Prelude Spin SpinFacts Decay Expr Angles Sums CExpr SpecDPD Builder BuilderFacts SpecObs ObsProofs
  SerFormat SerDynamics SpecSerial SpecWeights SerModel SerWeights SerTotal SerExamples LcModel LcProofs SpecSerEffect SerEffectProofs SerEffectShapes SerEffectExamples LcEffect SpecSerChain SerChain.
From Verif Require SerAmplitude.
Import ListNotations.
Local Open Scope R_scope.

Lemma live_no_sigma x dyn c i j : live_serial x dyn c -> cyclic i j (ct_k (x c)) ->
  ~ In (sigma_at i) (symbols_of (de_expr (dyn c))) /\ ~ In (sigma_at j) (symbols_of (de_expr (dyn c))).
Proof.
  intros (base & i' & j' & Cy' & _ & N1 & N2 & _) Cy. set (k := ct_k (x c)) in *. clearbody k.
  assert (E : i = i' /\ j = j').
  { destruct Cy as [E|[E|[E|[]]]]; injection E as <- <- <-; destruct Cy' as [E|[E|[E|[]]]]; inversion E; auto. }
  destruct E as [-> ->]. auto.
Qed.
Theorem complete_projection m d s r tl x w dyn : helicity_definition m d s r tl None x w dyn ->
  forall cl M, SerAmplitude.formulate m cl tl None = Ok M -> NoDup (di_chains d) ->
  forall c, In c (di_chains d) -> complete_chain m c -> resonance_possible (x c) -> final_possible s (x c) ->
  forall i j base cpl lo hi, cyclic i j (ct_k (x c)) -> between_thresholds base i j (ct_k (x c)) -> dalitz_range base i j (ct_k (x c)) lo hi ->
  only_chain w (di_chains d) base c ->
  is_RInt (fun t => Re (full_value (at_point (m_variables M) (dalitz_line base i j (ct_k (x c)) t) cpl) M)) lo hi
    ((hi - lo) * (IZR (p_spin (s 0%Z) + 1) / IZR (ct_spin (x c) + 1)) * (production_count (x c) * decay_count (x c))
     * (Cmod (base (w c)) ^ 2 * Cmod (ceval (Env base cpl) (fun _ => 0%Z) (de_expr (dyn c))) ^ 2)).
Proof.
  intros H cl M F ND c Hc Cc Rp Fp i j base cpl lo hi Cy BT Rg On.
  destruct (live_no_sigma x dyn c i j (complete_live m d s r tl x w dyn c H Hc Cc) Cy) as [Ni Nj].
  exact (chain_projection m d s r tl None x w dyn H cl M F ND c Hc i j base cpl lo hi Cy BT Rg On Ni Nj Rp Fp).
Qed.

(** A chain of the example: *)
Definition cr_base (y : symbol) : C := if eqb y (sx_w sx_A) then RtoC 1 else if memb y (map sx_w sx_chains) then RtoC 0 else se_base y.
Lemma cr_example : NoDup sx_chains /\ In sx_A sx_chains /\ complete_chain sx_model sx_A /\ resonance_possible (sx_x sx_A) /\ final_possible sx_s (sx_x sx_A) /\
  exists i j lo hi, cyclic i j (ct_k (sx_x sx_A)) /\ between_thresholds cr_base i j (ct_k (sx_x sx_A)) /\
    (lo < hi)%R /\ dalitz_range cr_base i j (ct_k (sx_x sx_A)) lo hi /\ only_chain sx_w sx_chains cr_base sx_A.
Proof.
  assert (I : In sx_A sx_chains) by (left; reflexivity).
  destruct (proj2 sx_possible sx_A I) as (A & B & C).
  split; [exact (NoDup_map_inv _ _ (proj1 sx_possible))|]. split; [exact I|]. split; [exact A|]. split; [exact B|]. split; [exact C|].
  exists 1%Z, 2%Z. assert (Cy : cyclic 1 2 (ct_k (sx_x sx_A))) by (cbn; auto).
  assert (BT : between_thresholds cr_base 1 2 (ct_k (sx_x sx_A))).
  { exact (se_between 1 2 (ct_k (sx_x sx_A)) Cy). }
  destruct (c94_range cr_base 1 2 _ Cy BT) as (lo & hi & L & Rg). exists lo, hi.
  split; [exact Cy|]. split; [exact BT|]. split; [exact L|]. split; [exact Rg|].
  intros c' [<-|[<-|[<-|[]]]] N; [contradiction|reflexivity|reflexivity].
Qed.

(** Lc2ppiK: *)
Lemma lc_counts c : In c lc_chains -> production_count (lc_x c) = 1 /\ decay_count (lc_x c) = (if (ct_k (lc_x c) =? 1)%Z then 4 else 2).
Proof.
  assert (B : forallb (fun c => let q := lc_x c in
    (ct_fp q =? 0) && (if ct_k q =? 1 then (ct_li q =? 0) && (ct_lj q =? 0) && (ct_fd q =? 1)
      else negb ((ct_li q =? 0) && (ct_lj q =? 0)) && ((ct_fd q =? 1) || (ct_fd q =? -1))))%Z lc_chains = true) by (vm_compute; reflexivity).
  intros I. rewrite forallb_forall in B. specialize (B c I). cbv zeta in B. apply andb_true_iff in B. destruct B as [B1 B2].
  apply Z.eqb_eq in B1. unfold production_count, decay_count. rewrite B1. split.
  - destruct (ct_r (lc_x c) =? 0)%Z, (ct_lk (lc_x c) =? 0)%Z; lra.
  - destruct (ct_k (lc_x c) =? 1)%Z.
    + apply andb_true_iff in B2. destruct B2 as [-> B3]. apply Z.eqb_eq in B3. rewrite B3. lra.
    + apply andb_true_iff in B2. destruct B2 as [B2 B3]. apply negb_true_iff in B2. rewrite B2. apply orb_true_iff in B3.
      destruct B3 as [B3|B3]; apply Z.eqb_eq in B3; rewrite B3; lra.
Qed.
Theorem lc_projection cl M : SerAmplitude.formulate lc_model cl lc_tl lc_builders = Ok M -> forall c, In c lc_chains ->
  forall i j base cpl lo hi, cyclic i j (ct_k (lc_x c)) -> between_thresholds base i j (ct_k (lc_x c)) -> dalitz_range base i j (ct_k (lc_x c)) lo hi ->
  only_chain lc_w lc_chains base c ->
  is_RInt (fun t => Re (full_value (at_point (m_variables M) (dalitz_line base i j (ct_k (lc_x c)) t) cpl) M)) lo hi
    ((hi - lo) * ((if (ct_k (lc_x c) =? 1)%Z then 8 else 4) / IZR (ct_spin (lc_x c) + 1))
     * (Cmod (base (lc_w c)) ^ 2 * Cmod (ceval (Env base cpl) (fun _ => 0%Z) (de_expr (lc_dyn c))) ^ 2)).
Proof.
  intros F c Hc i j base cpl lo hi Cy BT Rg On. destruct (lc_possible c Hc) as [Rp Fp].
  destruct (live_no_sigma lc_x lc_dyn c i j (lc_live c Hc) Cy) as [Ni Nj].
  pose proof (chain_projection lc_model lc_dist lc_s 2 lc_tl lc_builders lc_x lc_w lc_dyn lc_definition cl M F (NoDup_map_inv _ _ lc_distinct) c Hc
    i j base cpl lo hi Cy BT Rg On Ni Nj Rp Fp) as I.
  destruct (lc_counts c Hc) as [E1 E2]. rewrite E1, E2 in I.
  change (IZR (p_spin (lc_s 0%Z) + 1)) with 2 in I. set (A := Cmod (base (lc_w c)) ^ 2 * _) in *.
  replace ((hi - lo) * ((if (ct_k (lc_x c) =? 1)%Z then 8 else 4) / IZR (ct_spin (lc_x c) + 1)) * A)
    with ((hi - lo) * (2 / IZR (ct_spin (lc_x c) + 1)) * (1 * (if (ct_k (lc_x c) =? 1)%Z then 4 else 2)) * A); [exact I|].
  unfold Rdiv. destruct (ct_k (lc_x c) =? 1)%Z; ring.
Qed.
Definition lc_only (c : chain_def) (y : symbol) : C :=
  if eqb y (lc_w c) then RtoC 1 else if memb y (map lc_w lc_chains) then RtoC 0 else se_base y.
Lemma lc_line c : In c lc_chains -> exists i j lo hi, cyclic i j (ct_k (lc_x c)) /\ between_thresholds (lc_only c) i j (ct_k (lc_x c)) /\
  (lo < hi)%R /\ dalitz_range (lc_only c) i j (ct_k (lc_x c)) lo hi /\ only_chain lc_w lc_chains (lc_only c) c.
Proof.
  intros Hc. pose proof (hd_k lc_model lc_dist lc_s 2 lc_tl lc_builders lc_x lc_w lc_dyn lc_definition c Hc) as K.
  destruct (cyclic_ex _ K) as (i & j & Cy).
  assert (S : forall y, sassume y = ANonneg -> lc_only c y = se_base y).
  { intros y A. unfold lc_only.
    assert (N : forall c', In c' lc_chains -> y <> lc_w c').
    { intros c' I' E. pose proof (weight_none lc_model lc_dist lc_s 2 lc_tl lc_builders lc_x lc_w lc_dyn lc_definition (lc_w c') (ex_intro _ c' (conj I' eq_refl))) as Q.
      rewrite <- E, A in Q. discriminate Q. }
    destruct (eqb y (lc_w c)) eqn:E; [apply (proj1 (Prelude.eqb_eq _ _)) in E; destruct (N c Hc E)|].
    destruct (memb y (map lc_w lc_chains)) eqn:E'; [|reflexivity]. apply memb_In in E'. apply in_map_iff in E'. destruct E' as (c' & E1 & I').
    destruct (N c' I' (eq_sym E1)). }
  assert (BT : between_thresholds (lc_only c) i j (ct_k (lc_x c))).
  { pose proof (se_between i j _ Cy) as B. unfold between_thresholds in *. rewrite !S by reflexivity. exact B. }
  destruct (c94_range (lc_only c) i j _ Cy BT) as (lo & hi & L & Rg). exists i, j, lo, hi.
  split; [exact Cy|]. split; [exact BT|]. split; [exact L|]. split; [exact Rg|].
  intros c' I' N. unfold lc_only. destruct (eqb (lc_w c') (lc_w c)) eqn:E.
  - apply (proj1 (Prelude.eqb_eq _ _)) in E. destruct N. exact (weight_inj lc_dist lc_w lc_distinct c Hc c' I' E).
  - rewrite (proj2 (memb_In _ _) (in_map lc_w _ _ I')). reflexivity.
Qed.
