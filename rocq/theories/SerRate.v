(** Rates of serialised models (proofs for C146) *)
From Coq Require Import String ZArith List Bool Reals Lra Lia Psatz Permutation FunctionalExtensionality.
From Coquelicot Require Import Coquelicot.
From Verif Require Import Prelude Spin Decay Expr Sums Wigner CExpr Angles SpecKin SpecDPD Builder DecayFacts CExprFacts ModelFacts AnglesProofs RefFacts
  SpecFractions FractionProofs SpecContinuity SpecObs SpecBounded SpecNormal NormalFacts NormalKin NormalProofs RateFacts RateProofs RateForm
  SerFormat SerDynamics SpecSerial SerModel SerProofs SerDyn SerFormal SerTotal SpecWeights SerWeights SerPoints SpecParts SerParts SerFinite SerSmooth.
From Verif Require SerAmplitude.
Import ListNotations.
Local Open Scope R_scope.

Lemma zeta_symbols_ok i k r y e : formulate_zeta_angle i k r = Ok (y, e) -> nonneg_symbols e = true.
Proof.
  intros E. destruct (ok_zeta_ids i k r y e E) as [Z| ->]; [|reflexivity].
  assert (Q : match formulate_zeta_angle i k r with Ok (_, e) => nonneg_symbols e = true | Err _ => True end); [|rewrite E in Q; exact Q]. clear E.
  assert (I3 : forall n, (1 <= n <= 3)%Z -> n = 1%Z \/ n = 2%Z \/ n = 3%Z) by lia. assert (I4 : forall n, (0 <= n <= 3)%Z -> n = 0%Z \/ n = 1%Z \/ n = 2%Z \/ n = 3%Z) by lia.
  destruct Z as [(-> & Hk & Hr)|(Hi & Hk & Hr)].
  - destruct (I3 _ Hk) as [->|[->| ->]], (I3 _ Hr) as [->|[->| ->]]; vm_compute; auto.
  - destruct (I3 _ Hi) as [->|[->| ->]], (I3 _ Hk) as [->|[->| ->]], (I4 _ Hr) as [->|[->|[->| ->]]]; vm_compute; auto.
Qed.
Lemma theta_symbols_ok i j y e : formulate_scattering_angle i j = Ok (y, e) -> nonneg_symbols e = true.
Proof.
  intros E. destruct (ok_scattering_ids i j y e E) as (Hi & Hj & _).
  assert (Q : match formulate_scattering_angle i j with Ok (_, e) => nonneg_symbols e = true | Err _ => True end); [|rewrite E in Q; exact Q]. clear E.
  assert (I3 : forall n, (1 <= n <= 3)%Z -> n = 1%Z \/ n = 2%Z \/ n = 3%Z) by lia.
  destruct (I3 _ Hi) as [->|[->| ->]], (I3 _ Hj) as [->|[->| ->]]; vm_compute; auto.
Qed.

(** ** A part of a model at a point *)
Section Part.
  Variables (m : model_def) (d : distribution) (s : Z -> state) (r : Z)
    (tl : string -> string) (additional : option (dict string prop_builder))
    (x : chain_def -> content) (w : chain_def -> symbol) (dyn : chain_def -> defexpr).
  Hypothesis H : helicity_definition m d s r tl additional x w dyn.
  Variables (cl : bool) (M : model).
  Hypothesis F : SerAmplitude.formulate m cl tl additional = Ok M.
  Hypothesis FO : chains_unused additional.
  Variables (cs : list chain_def) (cl1 : bool) (M1 : model).
  Hypothesis Sub : incl cs (di_chains d).
  Hypothesis F1 : SerAmplitude.formulate (with_chains m cs) cl1 tl additional = Ok M1.
  Lemma serial_part_at_point base cpl : full_value (at_point (m_variables M1) base cpl) M1 = full_value (at_point (m_variables M) base cpl) M1.
  Proof.
    pose proof (part_definition m d s r tl additional x w dyn H FO cs Sub) as H1.
    destruct (serial_intensity_value _ _ s r tl additional x w dyn H1 cl1 M1 F1) as (ks & N & So & K & V).
    rewrite !V. f_equal.
    rewrite (intensity_zeta_ext s ks _ _ (fun i k => Re (e_sym (at_point (m_variables M) base cpl) (zeta_symbol i k r)))).
    - apply (intensity_amp_ext s). intros k l Hk Hl. pose proof (subsystem_range _ _ s r tl additional x w dyn H1 ks K k Hk) as Rk.
      rewrite !(serial_amplitude_value _ _ s r tl additional x w dyn H1 cl1 M1 F1 _ k l Hl Rk). apply Csum_ext. intros c Hc. apply in_chains_in in Hc. destruct Hc as [Hc _].
      rewrite (contribution_at _ _ s r tl additional x w dyn H1 cl1 M1 F1 base cpl l c Hc).
      symmetry. exact (contribution_at m d s r tl additional x w dyn H cl M F base cpl l c (Sub c Hc)).
    - intros n k Hn Hk Sp. apply K in Hk. destruct Hk as (c & Hc & <-).
      rewrite (zeta_point s tl additional x w dyn _ _ r cl1 M1 H1 F1 base cpl n c Hn Hc Sp). symmetry.
      exact (zeta_point s tl additional x w dyn m d r cl M H F base cpl n c Hn (Sub c Hc) Sp).
  Qed.
End Part.

Theorem c146_parts m d s r tl additional x w dyn cl M (ps : list (list chain_def * model)) base cpl i j k N0 N :
  helicity_definition m d s r tl additional x w dyn -> SerAmplitude.formulate m cl tl additional = Ok M -> chains_unused additional ->
  Permutation (di_chains d) (flat_map fst ps) ->
  (forall p, In p ps -> exists cl', SerAmplitude.formulate (with_chains m (fst p)) cl' tl additional = Ok (snd p)) ->
  cyclic i j k -> open_phase_space base ->
  integrates_to base (intensity_at M cpl) i j k N0 ->
  (forall p, In p ps -> integrates_to base (intensity_at (snd p) cpl) i j k (N p)) ->
  Rabs (N0 - Rsum ps N) <= Rsum (pairs ps) (fun pq => 2 * sqrt (N (fst pq) * N (snd pq))) /\
  N0 <= INR (length ps) * Rsum ps N.
Proof.
  intros H F FO Pm Ps Cy Op H0 HN.
  assert (Ip : forall p pt, In p ps -> intensity_at (snd p) cpl pt = Re (full_value (at_point (m_variables M) pt cpl) (snd p))).
  { intros p pt Hp. unfold intensity_at. f_equal. destruct (Ps p Hp) as (cl1 & F1).
    exact (serial_part_at_point m d s r tl additional x w dyn H cl M F FO (fst p) cl1 (snd p) (part_incl d ps Pm p Hp) F1 pt cpl). }
  apply (rate_interference base i j k Cy Op ps (intensity_at M cpl) (fun p => intensity_at (snd p) cpl)); auto.
  - intros p pt Hp. destruct (Ps p Hp) as (cl1 & F1). unfold intensity_at.
    rewrite (serial_all _ _ s r tl additional x w dyn (part_definition m d s r tl additional x w dyn H FO (fst p) (part_incl d ps Pm p Hp)) cl1 (snd p) F1).
    cbn [RtoC Re fst]. unfold intensity_value. apply Rsum_nonneg. intros l _. apply pow2_ge_0.
  - intros pt. destruct (c124_parts m d s r tl additional x w dyn H cl M F FO ps Pm Ps (at_point (m_variables M) pt cpl)) as (G & _ & _ & Gb & E & _).
    exists (fun p q => Re (G p q)). split.
    + intros p q Hp Hq. rewrite (Ip p pt Hp), (Ip q pt Hq). eapply Rle_trans; [apply re_cmod|exact (Gb p q Hp Hq)].
    + unfold intensity_at at 1. rewrite E, Csum_RtoC. cbn [Cplus Re fst RtoC]. f_equal.
      change (Re (Csum ps (fun p => full_value (at_point (m_variables M) pt cpl) (snd p))) = Rsum ps (fun p => intensity_at (snd p) cpl pt)).
      rewrite Re_Csum. apply Rsum_ext. intros p Hp. symmetry. exact (Ip p pt Hp).
  - intros pt. destruct (c124_parts m d s r tl additional x w dyn H cl M F FO ps Pm Ps (at_point (m_variables M) pt cpl)) as (G & _ & _ & _ & _ & L).
    eapply Rle_trans; [exact L|]. right. f_equal. apply Rsum_ext. intros p Hp. symmetry. exact (Ip p pt Hp).
Qed.
