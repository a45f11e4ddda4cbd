(** Projections and total rate of models (proofs for C142) *)
From Coq Require Import String ZArith List Bool Reals Lra Lia.
From Coquelicot Require Import Coquelicot.
From Verif Require Import Prelude Decay Expr Sums CExpr SpecKin SpecDPD Builder SpecBuilder SpecDynamics DecayFacts ModelFacts BuilderProofs SpecFinite SpecContinuity
  ContinuityFacts ContinuityProofs SpecObs SpecBounded SpecSmooth BoundedFacts BoundedProofs FiniteShapes SpecNormal NormalFacts
  SerFormat SpecSerial SpecSerFinite SpecSerBounded SerFinite SerModel SerProofs SerBounded.
From Verif Require SerAmplitude.
Import ListNotations.
Local Open Scope R_scope.

Section Moving.
  Variables (base : symbol -> C) (cpl : string -> list ival -> C) (p : R * R) (f1 f2 f3 : R * R -> R).
  Hypothesis (C1 : continuous f1 p) (C2 : continuous f2 p) (C3 : continuous f3 p) (On : on_dalitz_plot base (f1 p) (f2 p) (f3 p)).
  Lemma moving_symbols x : tends (locally p) (fun t => at_sigmas base (f1 t) (f2 t) (f3 t) x) (at_sigmas base (f1 p) (f2 p) (f3 p) x).
  Proof.
    unfold at_sigmas. destruct (eqb x (Sym "sigma1" ANonneg)); [apply (t_real (locally p)); exact C1|].
    destruct (eqb x (Sym "sigma2" ANonneg)); [apply (t_real (locally p)); exact C2|].
    destruct (eqb x (Sym "sigma3" ANonneg)); [apply (t_real (locally p)); exact C3|]. apply (t_const (locally p)).
  Qed.
  Lemma moving_sigma k : filterlim (fun t => sigma_value (f1 t) (f2 t) (f3 t) k) (locally p) (locally (sigma_value (f1 p) (f2 p) (f3 p) k)).
  Proof. unfold sigma_value. destruct (k =? 1)%Z; [exact C1|]. destruct (k =? 2)%Z; [exact C2|exact C3]. Qed.
  Lemma moving_shape k e : In k [1; 2; 3]%Z -> own_sigma_only base cpl k e -> continuous_on_range base cpl k e ->
    tends (locally p) (fun t => ceval (Env (at_sigmas base (f1 t) (f2 t) (f3 t)) cpl) (fun _ => 0%Z) e)
      (ceval (Env (at_sigmas base (f1 p) (f2 p) (f3 p)) cpl) (fun _ => 0%Z) e).
  Proof.
    intros Hk O Ct. destruct On as [Ph _]. destruct (Ct _ (sigma_limits base _ _ _ k Ph Hk)) as [A B].
    refine (t_ext (locally p) _ _ _ _ (fun t => eq_sym (O (f1 t) (f2 t) (f3 t))) (eq_sym (O (f1 p) (f2 p) (f3 p))) _). cbv zeta. split.
    - exact (filterlim_comp _ _ _ _ _ _ _ _ (moving_sigma k) A).
    - exact (filterlim_comp _ _ _ _ _ _ _ _ (moving_sigma k) B).
  Qed.
End Moving.

(** A distribution on the Dalitz plot that is bounded, not negative and continuous *)
Definition plot_distribution (base : symbol -> C) (I : (symbol -> C) -> R) : Prop :=
  (exists B, forall s1 s2 s3, on_dalitz_plot base s1 s2 s3 -> 0 <= I (at_sigmas base s1 s2 s3) <= B) /\
  forall (p : R * R) (f1 f2 f3 : R * R -> R), continuous f1 p -> continuous f2 p -> continuous f3 p ->
    on_dalitz_plot base (f1 p) (f2 p) (f3 p) -> continuous (fun t => I (at_sigmas base (f1 t) (f2 t) (f3 t))) p.
Definition model_shapes base cpl (b : builder) (dyn : chain -> defexpr) : Prop :=
  forall c, In c (d_chains (b_decay b)) -> own_sigma_only base cpl (st_index (ch_spectator c)) (de_expr (dyn c)) /\
    continuous_on_range base cpl (st_index (ch_spectator c)) (de_expr (dyn c)).
Theorem model_distribution b s dyn ref cl uc m base cpl : std_decay (b_decay b) s -> dynamics_of b dyn ->
  (b_prod_helicity b = false -> plain_resonances (b_decay b)) -> Builder.formulate b ref cl uc = Ok m ->
  model_shapes base cpl b dyn -> plot_distribution base (intensity_at m cpl).
Proof.
  intros D Dyn PR F Sh.
  destruct (c141_general b s dyn ref cl uc m D Dyn PR F base cpl (fun c Hc => proj1 (Sh c Hc)) (fun c Hc => proj2 (Sh c Hc))) as [B HB].
  destruct (c26 b s ref cl uc m D F) as (r & ks & _ & _ & V).
  split; [exists B|].
  - intros s1 s2 s3 On. split; [apply V|exact (HB s1 s2 s3 On)].
  - intros p f1 f2 f3 C1 C2 C3 On. unfold intensity_at.
    refine (proj1 (c113 (locally p) b s dyn ref cl uc m (fun t => at_sigmas base (f1 t) (f2 t) (f3 t)) (at_sigmas base (f1 p) (f2 p) (f3 p))
      (fun _ => cpl) cpl D Dyn PR F (proj1 On) (proj2 On) (moving_symbols base p f1 f2 f3 C1 C2 C3) (fun n i => t_const (locally p) (cpl n i)) _)).
    intros c Hc. destruct (Sh c Hc) as [O Ct]. refine (moving_shape base cpl p f1 f2 f3 C1 C2 C3 On _ _ _ O Ct).
    apply (ids_range b s D). apply get_subsystem_ids_In. eauto.
Qed.
Theorem c142 b s dyn ref cl uc m base cpl i j k : std_decay (b_decay b) s -> dynamics_of b dyn ->
  (b_prod_helicity b = false -> plain_resonances (b_decay b)) -> Builder.formulate b ref cl uc = Ok m ->
  cyclic i j k -> open_phase_space base -> model_shapes base cpl b dyn ->
  exists N, integrates_to base (intensity_at m cpl) i j k N /\ 0 <= N /\
    ((exists s1 s2 s3, inside (fun x => Re (at_sigmas base s1 s2 s3 x)) /\ 0 < intensity_at m cpl (at_sigmas base s1 s2 s3)) -> 0 < N).
Proof.
  intros D Dyn PR F Cy Op Sh. destruct (model_distribution b s dyn ref cl uc m base cpl D Dyn PR F Sh) as [[B HB] HC].
  exact (rate_exists base i j k (intensity_at m cpl) B Cy Op HB HC).
Qed.

Lemma open_of_physical base : physical (fun x => Re (base x)) -> nonsingular (fun x => Re (base x)) -> open_phase_space base.
Proof.
  intros Ph Ns. destruct (thresholds _ Ph Ns) as (N0 & N1 & N2 & N3 & T1 & T2 & T3).
  destruct Ph as (p1 & p2 & p3 & O1 & O2 & O3 & O0 & S1 & S2 & S3).
  pose proof (pair_limits _ _ _ _ _ _ _ O1 O2 O3 O0) as L1. rewrite <- S1 in L1.
  rewrite add4_rot in O0. pose proof (pair_limits _ _ _ _ _ _ _ O2 O3 O1 O0) as L2. rewrite <- S2 in L2.
  change (at_m0 (fun x => Re (base x))) with (particle_mass base 0) in *. change (at_m1 (fun x => Re (base x))) with (particle_mass base 1) in *.
  change (at_m2 (fun x => Re (base x))) with (particle_mass base 2) in *. change (at_m3 (fun x => Re (base x))) with (particle_mass base 3) in *.
  unfold open_phase_space.
  set (m0 := particle_mass base 0) in *. set (m1 := particle_mass base 1) in *. set (m2 := particle_mass base 2) in *. set (m3 := particle_mass base 3) in *.
  set (s1 := at_s1 _) in *. set (s2 := at_s2 _) in *. clearbody m0 m1 m2 m3 s1 s2. clear - N0 N1 N2 N3 T1 T2 L1 L2.
  assert (A : (m2 + m3) * (m2 + m3) < (m0 - m1) * (m0 - m1)) by nra.
  assert (B : (m3 + m1) * (m3 + m1) < (m0 - m2) * (m0 - m2)) by nra. clear T1 T2 L1 L2.
  repeat split; try assumption.
  destruct (Rle_or_lt m1 m0) as [H|H].
  - assert (m2 + m3 < m0 - m1) by nra. lra.
  - exfalso. assert (m2 + m3 < m1 - m0) by nra. assert (m3 + m1 < m0 + m2) by nra. lra.
Qed.
Theorem c142_bw b s dyn ref cl uc m base cpl i j k : std_decay (b_decay b) s -> dynamics_of b dyn ->
  (b_prod_helicity b = false -> plain_resonances (b_decay b)) -> Builder.formulate b ref cl uc = Ok m ->
  cyclic i j k -> physical (fun x => Re (base x)) -> nonsingular (fun x => Re (base x)) ->
  regular_dynamics (b_decay b) dyn base -> threshold_regular (b_decay b) dyn base ->
  exists N, integrates_to base (intensity_at m cpl) i j k N /\ 0 <= N /\
    ((exists s1 s2 s3, inside (fun x => Re (at_sigmas base s1 s2 s3 x)) /\ 0 < intensity_at m cpl (at_sigmas base s1 s2 s3)) -> 0 < N).
Proof.
  intros D Dyn PR F Cy Ph Ns Rg Tr.
  exact (c142 b s dyn ref cl uc m base cpl i j k D Dyn PR F Cy (open_of_physical base Ph Ns) (bw_shapes b dyn base cpl Dyn Ph Ns Rg Tr)).
Qed.

(** ** Serialised models *)
Theorem serial_distribution m d s r tl additional x w dyn cl M base cpl : helicity_definition m d s r tl additional x w dyn ->
  SerAmplitude.formulate m cl tl additional = Ok M ->
  (forall c, In c (di_chains d) -> own_sigma_only base cpl (ct_k (x c)) (de_expr (dyn c))) ->
  (forall c, In c (di_chains d) -> continuous_on_range base cpl (ct_k (x c)) (de_expr (dyn c))) ->
  plot_distribution base (intensity_at M cpl).
Proof.
  intros H F O Ct.
  destruct (c141_serial_general m d s r tl additional x w dyn H cl M F base cpl O Ct) as [B HB].
  destruct (serial_intensity_value m d s r tl additional x w dyn H cl M F) as (ks & _ & _ & _ & V).
  split; [exists B|].
  - intros s1 s2 s3 On. split; [|exact (HB s1 s2 s3 On)]. unfold intensity_at. rewrite V. cbn [RtoC Re fst]. unfold intensity_value.
    apply sum_nonneg. intros l. apply pow2_ge_0.
  - intros p f1 f2 f3 C1 C2 C3 On. unfold intensity_at.
    refine (proj1 (serial_continuous (locally p) m d s r tl additional x w dyn H cl M F (fun t => at_sigmas base (f1 t) (f2 t) (f3 t))
      (at_sigmas base (f1 p) (f2 p) (f3 p)) (fun _ => cpl) cpl (proj1 On) (proj2 On) (moving_symbols base p f1 f2 f3 C1 C2 C3) _)).
    intros c Hc. refine (moving_shape base cpl p f1 f2 f3 C1 C2 C3 On _ _ _ (O c Hc) (Ct c Hc)).
    apply (Permutation.Permutation_in _ (hd_perm m d s r tl additional x w dyn H c Hc)). cbn; auto.
Qed.
Theorem c142_serial m d s r tl additional x w dyn cl M base cpl i j k : helicity_definition m d s r tl additional x w dyn ->
  SerAmplitude.formulate m cl tl additional = Ok M -> cyclic i j k -> open_phase_space base ->
  (forall c, In c (di_chains d) -> own_sigma_only base cpl (ct_k (x c)) (de_expr (dyn c))) ->
  (forall c, In c (di_chains d) -> continuous_on_range base cpl (ct_k (x c)) (de_expr (dyn c))) ->
  exists N, integrates_to base (intensity_at M cpl) i j k N /\ 0 <= N /\
    ((exists s1 s2 s3, inside (fun x => Re (at_sigmas base s1 s2 s3 x)) /\ 0 < intensity_at M cpl (at_sigmas base s1 s2 s3)) -> 0 < N).
Proof.
  intros H F Cy Op O Ct. destruct (serial_distribution m d s r tl additional x w dyn cl M base cpl H F O Ct) as [[B HB] HC].
  exact (rate_exists base i j k (intensity_at M cpl) B Cy Op HB HC).
Qed.
Theorem c142_serial_lineshapes m d s r tl x w dyn cl M base cpl i j k : helicity_definition m d s r tl None x w dyn ->
  SerAmplitude.formulate m cl tl None = Ok M -> cyclic i j k ->
  physical (fun y => Re (base y)) -> nonsingular (fun y => Re (base y)) ->
  (forall c, In c (di_chains d) -> threshold_serial m tl x base c) ->
  exists N, integrates_to base (intensity_at M cpl) i j k N /\ 0 <= N /\
    ((exists s1 s2 s3, inside (fun x => Re (at_sigmas base s1 s2 s3 x)) /\ 0 < intensity_at M cpl (at_sigmas base s1 s2 s3)) -> 0 < N).
Proof.
  intros H F Cy Ph Ns Rg. destruct (serial_shapes m d s r tl x w dyn base cpl H Ph Ns Rg) as [O Ct].
  exact (c142_serial m d s r tl None x w dyn cl M base cpl i j k H F Cy (open_of_physical base Ph Ns) O Ct).
Qed.
