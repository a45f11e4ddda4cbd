(** Rates of chains that do not interfere (proofs for C157 and C158) *)
From Coq Require Import String ZArith List Bool Reals Lia Lra Psatz Permutation Classical.
From Coquelicot Require Import Complex Hierarchy RInt.
From Verif Require Import Prelude Decay Expr CExpr SpecKin SpecDPD Builder BuilderFacts SpecObs ObsKin SpecBounded SpecNormal NormalKin NormalFacts
  SerFormat SerDynamics SpecSerial SerModel SpecWeights SerWeights SerRateWeights SerSymbols SpecSerMassless SpecSerEffect SerEffectProofs SerEffectShapes
  SerChainExamples SpecSerWaves SerWaves SpecSerOpposite SerOpposite.
From Verif Require SerAmplitude.
Import ListNotations.
Local Open Scope R_scope.

Section Lines.
  Variables (base base1 : symbol -> C) (i j k : Z).
  Hypothesis E : forall y, sassume y = ANonneg -> base y = base1 y.
  Lemma agree_limits : lower_limit base k = lower_limit base1 k /\ upper_limit base k = upper_limit base1 k.
  Proof. unfold lower_limit, upper_limit, particle_mass. rewrite !E by reflexivity. auto. Qed.
  Lemma agree_range s a b : dalitz_range (with_sigma base1 k s) i j k a b -> dalitz_range (with_sigma base k s) i j k a b.
  Proof.
    intros Rg t. unfold dalitz_range in Rg. rewrite <- (Rg t).
    assert (A : forall y, sassume y = ANonneg -> dalitz_line (with_sigma base k s) i j k t y = dalitz_line (with_sigma base1 k s) i j k t y).
    { assert (S : forall y, sassume y = ANonneg -> with_sigma base k s y = with_sigma base1 k s y).
      { intros y Hy. unfold with_sigma. destruct (eqb y (sigma_at k)); [reflexivity|]. apply E. exact Hy. }
      intros y Hy. unfold dalitz_line. destruct (eqb y (sigma_at j)); [reflexivity|].
      destruct (eqb y (sigma_at i)); [|apply S; exact Hy]. unfold square_at. rewrite !S by reflexivity. reflexivity. }
    split; apply physical_ext; intros y Hy; rewrite A by exact Hy; reflexivity.
  Qed.
End Lines.
Lemma rate_additive base base1 base2 (I : (symbol -> C) -> R) i j k N1 N2 : cyclic i j k -> open_phase_space base ->
  (forall y, sassume y = ANonneg -> base y = base1 y) -> (forall y, sassume y = ANonneg -> base y = base2 y) ->
  (forall s a b v1 v2, lower_limit base k < s < upper_limit base k -> dalitz_range (with_sigma base k s) i j k a b ->
     is_RInt (fun t => I (dalitz_line (with_sigma base1 k s) i j k t)) a b v1 ->
     is_RInt (fun t => I (dalitz_line (with_sigma base2 k s) i j k t)) a b v2 ->
     is_RInt (fun t => I (dalitz_line (with_sigma base k s) i j k t)) a b (v1 + v2)) ->
  integrates_to base1 I i j k N1 -> integrates_to base2 I i j k N2 -> integrates_to base I i j k (N1 + N2).
Proof.
  intros Cy Op E1 E2 A (P1 & H1 & J1) (P2 & H2 & J2).
  destruct (agree_limits base base1 k E1) as [L1 U1]. destruct (agree_limits base base2 k E2) as [L2 U2].
  exists (fun s => P1 s + P2 s). split.
  - intros s Hs. destruct (H1 s) as (a & b & Lab & Rg & Q1); [rewrite <- L1, <- U1; exact Hs|].
    destruct (H2 s) as (a' & b' & _ & Rg' & Q2); [rewrite <- L2, <- U2; exact Hs|].
    apply (agree_range base base1 i j k E1) in Rg. apply (agree_range base base2 i j k E2) in Rg'.
    destruct (line_range_unique _ i j k Cy (line_between base i j k Cy Op s Hs) a b Rg) as [Ea Eb].
    destruct (line_range_unique _ i j k Cy (line_between base i j k Cy Op s Hs) a' b' Rg') as [Ea' Eb'].
    rewrite Ea', <- Ea, Eb', <- Eb in Q2.
    exists a, b. split; [exact Lab|]. split; [exact Rg|]. exact (A s a b _ _ Hs Rg Q1 Q2).
  - rewrite <- L1, <- U1 in J1. rewrite <- L2, <- U2 in J2. exact (is_RInt_plus (V := R_NormedModule) _ _ _ _ _ _ J1 J2).
Qed.

Section Model.
  Variables (m : model_def) (d : distribution) (s : Z -> state) (r : Z)
    (tl : string -> string) (additional : option (dict string prop_builder))
    (x : chain_def -> content) (w : chain_def -> symbol) (dyn : chain_def -> defexpr).
  Hypothesis H : helicity_definition m d s r tl additional x w dyn.
  Variables (cl : bool) (M : model).
  Hypothesis F : SerAmplitude.formulate m cl tl additional = Ok M.
  Hypothesis W : weights_only w dyn (di_chains d).

  Lemma scaled_agree f base base' : weights_scaled w (di_chains d) f base base' -> forall y, sassume y = ANonneg -> base y = base' y.
  Proof. intros [_ S2] y A. apply S2. intros N. apply (weight_none m d s r tl additional x w dyn H) in N. congruence. Qed.
  Lemma weight_sigma c k : In c (di_chains d) -> eqb (w c) (sigma_at k) = false.
  Proof.
    intros I. pose proof (weight_none m d s r tl additional x w dyn H (w c) (ex_intro _ c (conj I eq_refl))) as A.
    destruct (eqb (w c) (sigma_at k)) eqn:E; [|reflexivity]. apply (proj1 (Prelude.eqb_eq _ _)) in E. rewrite E in A. discriminate A.
  Qed.
  Lemma scaled_sigma f base base' k t : weights_scaled w (di_chains d) f base base' -> weights_scaled w (di_chains d) f (with_sigma base k t) (with_sigma base' k t).
  Proof.
    intros [S1 S2]. split.
    - intros c I. unfold with_sigma. rewrite (weight_sigma c k I). apply S1. exact I.
    - intros y N. unfold with_sigma. destruct (eqb y (sigma_at k)); [reflexivity|]. apply S2. exact N.
  Qed.
  Lemma active_sigma base k t c : active w (di_chains d) (with_sigma base k t) c -> active w (di_chains d) base c.
  Proof. intros [I N]. split; [exact I|]. unfold with_sigma in N. rewrite (weight_sigma c k I) in N. exact N. Qed.

  Variables (i j k : Z) (c0 : chain_def).
  Hypothesis Hc0 : In c0 (di_chains d).
  Hypothesis K0 : ct_k (x c0) = k.
  Variables (base base1 base2 : symbol -> C) (cpl : string -> list ival -> C) (keep : chain_def -> bool).
  Hypothesis Op : open_phase_space base.
  Hypothesis S1 : weights_scaled w (di_chains d) (kept keep) base base1.
  Hypothesis S2 : weights_scaled w (di_chains d) (kept (fun c => negb (keep c))) base base2.

  Theorem waves_rate : cyclic i j k -> (forall c, active w (di_chains d) base c -> in_subsystem x dyn i j k c) ->
    (forall c c', active w (di_chains d) base c -> active w (di_chains d) base c' -> keep c = true -> keep c' = false ->
       ct_spin (x c) <> ct_spin (x c') /\ same_helicities i (x c) (x c')) ->
    forall N1 N2, integrates_to base1 (intensity_at M cpl) i j k N1 -> integrates_to base2 (intensity_at M cpl) i j k N2 ->
    integrates_to base (intensity_at M cpl) i j k (N1 + N2).
  Proof.
    intros Cy Act Df N1 N2. apply rate_additive; [exact Cy|exact Op|exact (scaled_agree _ _ _ S1)|exact (scaled_agree _ _ _ S2)|].
    intros t a b v1 v2 Ht Rg. unfold intensity_at.
    apply (waves_incoherent m d s r tl additional x w dyn H cl M F W i j k c0 Hc0 K0 Cy (with_sigma base k t) cpl a b
      (line_between base i j k Cy Op t Ht) Rg) with (keep := keep).
    - intros c A. apply Act. exact (active_sigma base k t c A).
    - apply scaled_sigma. exact S1.
    - apply scaled_sigma. exact S2.
    - intros c c' A A'. apply Df; apply (active_sigma base k t); assumption.
  Qed.
  (** for any axis of the Dalitz plot *)
  Theorem opposite_rate i' j' k' : cyclic i' j' k' -> (forall c, active w (di_chains d) base c -> ct_k (x c) = k) ->
    (forall c c', active w (di_chains d) base c -> active w (di_chains d) base c' -> keep c = true -> keep c' = false -> opposite_parity (x c) (x c')) ->
    forall N1 N2, integrates_to base1 (intensity_at M cpl) i' j' k' N1 -> integrates_to base2 (intensity_at M cpl) i' j' k' N2 ->
    integrates_to base (intensity_at M cpl) i' j' k' (N1 + N2).
  Proof.
    intros Cy Act Df N1 N2. apply rate_additive; [exact Cy|exact Op|exact (scaled_agree _ _ _ S1)|exact (scaled_agree _ _ _ S2)|].
    intros t a b v1 v2 _ _ I1 I2. pose proof (is_RInt_plus (V := R_NormedModule) _ _ _ _ _ _ I1 I2) as I.
    eapply is_RInt_ext; [|exact I]. intros z _. cbv beta. unfold intensity_at.
    assert (L : forall f b b', weights_scaled w (di_chains d) f b b' -> weights_scaled w (di_chains d) f (dalitz_line b i' j' k' z) (dalitz_line b' i' j' k' z))
      by (intros f b0 b0' Sc; exact (scaled_line m d s r tl additional x w dyn H i' j' k' b0 b0' f z Sc)).
    rewrite (opposite_incoherent m d s r tl additional x w dyn H cl M F W k c0 Hc0 K0 (dalitz_line (with_sigma base k' t) i' j' k' z) cpl)
      with (base1 := dalitz_line (with_sigma base1 k' t) i' j' k' z) (base2 := dalitz_line (with_sigma base2 k' t) i' j' k' z) (keep := keep).
    - reflexivity.
    - intros c [I' N]. apply Act. split; [exact I'|]. unfold dalitz_line in N. rewrite !weight_sigma in N by exact I'.
      unfold with_sigma in N. rewrite weight_sigma in N by exact I'. exact N.
    - apply L. apply scaled_sigma. exact S1.
    - apply L. apply scaled_sigma. exact S2.
    - assert (Ac : forall c, active w (di_chains d) (dalitz_line (with_sigma base k' t) i' j' k' z) c -> active w (di_chains d) base c).
      { intros c [I' N]. split; [exact I'|]. unfold dalitz_line in N. rewrite !weight_sigma in N by exact I'.
        unfold with_sigma in N. rewrite weight_sigma in N by exact I'. exact N. }
      intros c c' A A'. apply Df; apply Ac; assumption.
  Qed.
End Model.
