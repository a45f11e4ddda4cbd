(** Rates of models and of their parts (proofs for C144) *)
From Coq Require Import String ZArith List Bool Reals Lra Lia Psatz Permutation.
From Coquelicot Require Import Coquelicot.
From Verif Require Import Prelude Spin Decay Expr Sums Wigner CExpr Angles SpecKin SpecDPD Builder SpecBuilder DecayFacts CExprFacts ModelFacts BuilderFacts BuilderProofs
  WignerFacts RefFacts ContinuityProofs SpecForm FormProofs ChainProofs SpecFractions FractionProofs SpecObs SpecBounded SpecNormal NormalFacts NormalProofs RateFacts.
Import ListNotations.
Local Open Scope R_scope.

(** ** A part of a model at a point *)
Lemma alignment_ext (s : Z -> state) (z z' : Z -> R) l l' : helicity_tuple s l -> helicity_tuple s l' ->
  (forall n, In n [0; 1; 2; 3]%Z -> p_spin (s n) <> 0%Z -> z n = z' n) -> alignment s z l l' = alignment s z' l l'.
Proof.
  intros Hl Hl' E. unfold alignment.
  assert (Q : forall n a b, In n [0; 1; 2; 3]%Z -> In (at4 l n) (helicities (p_spin (s n))) -> In (at4 l' n) (helicities (p_spin (s n))) ->
    (a = at4 l n \/ a = at4 l' n) -> (b = at4 l n \/ b = at4 l' n) -> wigner_d (p_spin (s n)) a b (z n) = wigner_d (p_spin (s n)) a b (z' n)).
  { intros n a b Hn H1 H2 Ha Hb. destruct (Z.eq_dec (p_spin (s n)) 0) as [Z|Z]; [|rewrite (E n Hn Z); reflexivity]. rewrite Z in *.
    assert (Z0 : forall x, In x (helicities 0) -> x = 0%Z) by (intros x [<-|[]]; reflexivity). apply Z0 in H1. apply Z0 in H2.
    replace a with 0%Z by (destruct Ha; congruence). replace b with 0%Z by (destruct Hb; congruence). rewrite !wigner_d_spin0. reflexivity. }
  destruct l as [[[l0 l1] l2] l3], l' as [[[l0' l1'] l2'] l3']. cbn [at4] in *. destruct Hl as (A0 & A1 & A2 & A3), Hl' as (B0 & B1 & B2 & B3).
  f_equal; [f_equal; [f_equal|]|]; apply Q; cbn; auto.
Qed.
Lemma intensity_zeta_ext (s : Z -> state) ks A (z z' : Z -> Z -> R) : (forall n k, In n [0; 1; 2; 3]%Z -> In k ks -> p_spin (s n) <> 0%Z -> z n k = z' n k) ->
  intensity_value s ks A z = intensity_value s ks A z'.
Proof.
  intros E. unfold intensity_value, aligned_amplitude. apply Rsum_ext. intros l Hl. f_equal. f_equal. apply Csum_ext. intros l' Hl'. apply Csum_ext. intros k Hk.
  apply tuples_In in Hl. apply tuples_In in Hl'. rewrite (alignment_ext s (fun i => z i k) (fun i => z' i k) l l'); auto.
Qed.
Section Part.
  Variables (b b1 : builder) (s : Z -> state) (dyn : chain -> defexpr) (ref ref1 : option Z) (cl cl1 uc : bool) (m m1 : model) (r : Z).
  Hypothesis (D : std_decay (b_decay b) s) (D1 : std_decay (b_decay b1) s) (Y : dynamics_of b dyn) (Y1 : dynamics_of b1 dyn).
  Hypothesis (PR : b_prod_helicity b = false -> plain_resonances (b_decay b)) (PR1 : b_prod_helicity b1 = false -> plain_resonances (b_decay b1)).
  Hypothesis (F : formulate b ref cl uc = Ok m) (F1 : formulate b1 ref1 cl1 uc = Ok m1).
  Hypothesis (R : resolve_reference (b_decay b) ref = Ok r) (R1 : resolve_reference (b_decay b1) ref1 = Ok r).
  Hypothesis Sub : incl (d_chains (b_decay b1)) (d_chains (b_decay b)).
  Lemma part_ids k : In k (get_subsystem_ids (b_decay b1)) -> In k (get_subsystem_ids (b_decay b)).
  Proof. intros H. apply get_subsystem_ids_In in H. destruct H as (c & Hc & E). apply get_subsystem_ids_In. exists c. auto. Qed.
  Lemma part_at_point base cpl : full_value (at_point (m_variables m1) base cpl) m1 = full_value (at_point (m_variables m) base cpl) m1.
  Proof.
    destruct (c26 b1 s ref1 cl1 uc m1 D1 F1) as (r' & ks & R' & Pk & V). assert (r' = r) by congruence. subst r'.
    rewrite (proj1 (V (at_point (m_variables m1) base cpl))), (proj1 (V (at_point (m_variables m) base cpl))). f_equal.
    rewrite (intensity_zeta_ext s ks _ _ (fun i k => Re (e_sym (at_point (m_variables m) base cpl) (zeta_symbol i k r)))).
    - apply (intensity_amp_ext s). intros k l Hk Hl. apply (Permutation_in _ Pk) in Hk.
      destruct (cyclic_ex k (ids_range b1 s D1 k Hk)) as (i & j & Cy).
      destruct (amplitude_formula b s D dyn _ _ _ _ Y PR F l i j k Hl Cy (or_intror (part_ids k Hk))) as (_ & (t & T & G) & _).
      destruct (amplitude_formula b1 s D1 dyn _ _ _ _ Y1 PR1 F1 l i j k Hl Cy (or_intror Hk)) as (_ & (t1 & T1 & G1) & A1).
      rewrite !A1. assert (t1 = t) by congruence. subst t1.
      assert (TH : e_sym (at_point (m_variables m1) base cpl) (theta_name i j) = e_sym (at_point (m_variables m) base cpl) (theta_name i j)).
      { unfold at_point. cbn [e_sym]. rewrite G, G1. reflexivity. }
      rewrite TH. unfold dpd_amplitude. apply Csum_ext. intros c Hc. apply Csum_ext. intros x Hx.
      destruct (subsystem_chains _ _ D1 k c Hc) as (Hc' & _ & _).
      rewrite (lineshape_env b1 s dyn ref1 cl1 uc m1 D1 Y1 F1 c Hc'), (lineshape_env b s dyn ref cl uc m D Y F c (Sub c Hc')). destruct uc; reflexivity.
    - intros n k Hn Hk Sp. apply (Permutation_in _ Pk) in Hk.
      rewrite (proj2 (zeta_at_point b1 s D1 ref1 cl1 uc m1 r base cpl F1 R1 n k Hn Hk Sp)).
      rewrite (proj2 (zeta_at_point b s D ref cl uc m r base cpl F R n k Hn (part_ids k Hk) Sp)). reflexivity.
  Qed.
End Part.

Lemma re_cmod z : Re z ^ 2 <= Cmod z ^ 2.
Proof.
  destruct z as [x y]. unfold Cmod. cbn [Re fst snd]. pose proof (pow2_ge_0 x). pose proof (pow2_ge_0 y). rewrite <- (Rsqr_pow2 (sqrt _)), Rsqr_sqrt; lra.
Qed.
Theorem c144_parts b s dyn ref cl uc m r ps base cpl i j k N0 N : std_decay (b_decay b) s -> dynamics_of b dyn ->
  (b_prod_helicity b = false -> plain_resonances (b_decay b)) -> formulate b ref cl uc = Ok m ->
  resolve_reference (b_decay b) ref = Ok r ->
  Permutation (d_chains (b_decay b)) (flat_map (fun p => d_chains (b_decay (pt_builder p))) ps) ->
  (forall p, In p ps -> is_part b s dyn uc r p) -> cyclic i j k -> open_phase_space base ->
  integrates_to base (intensity_at m cpl) i j k N0 ->
  (forall p, In p ps -> integrates_to base (intensity_at (pt_model p) cpl) i j k (N p)) ->
  Rabs (N0 - Rsum ps N) <= Rsum (pairs ps) (fun pq => 2 * sqrt (N (fst pq) * N (snd pq))) /\
  N0 <= INR (length ps) * Rsum ps N.
Proof.
  intros D Y PR F Rf Pm Ps Cy Op H0 H.
  set (I0 := intensity_at m cpl) in *. set (I := fun p => intensity_at (pt_model p) cpl) in *.
  assert (Ip : forall p pt, In p ps -> I p pt = Re (full_value (at_point (m_variables m) pt cpl) (pt_model p))).
  { intros p pt Hp. unfold I, intensity_at. f_equal. destruct (Ps p Hp) as [D1 Y1 E1 E2 F1 R1].
    exact (part_at_point b (pt_builder p) s dyn ref (pt_reference p) cl (pt_cleanup p) uc m (pt_model p) r D D1 Y Y1 PR
      (sub_plain b (pt_builder p) PR E1 (in_part ps p b Pm Hp)) F F1 Rf R1 (in_part ps p b Pm Hp) pt cpl). }
  assert (Inn : forall p pt, In p ps -> 0 <= I p pt).
  { intros p pt Hp. destruct (Ps p Hp) as [D1 Y1 E1 E2 F1 R1]. destruct (c26 _ s _ _ uc _ D1 F1) as (r' & ks & _ & _ & V). apply V. }
  assert (Nn : forall p, In p ps -> 0 <= N p).
  { intros p Hp. apply (rate_nonneg base i j k Cy Op (I p)); [intros pt; apply Inn, Hp|exact (H p Hp)]. }
  assert (Pin : forall (l : list part) pq, In pq (pairs l) -> In (fst pq) l /\ In (snd pq) l).
  { induction l as [|x l IH]; intros pq Hq; cbn [pairs] in Hq; [destruct Hq|]. apply in_app_or in Hq. destruct Hq as [Hq|Hq].
    - apply in_map_iff in Hq. destruct Hq as (y & <- & Hy). cbn [fst snd]. split; [left; reflexivity|right; exact Hy].
    - destruct (IH pq Hq). split; right; assumption. }
  pose proof (rate_sum base i j k Cy Op ps I N H) as HS.
  (* the interference at every point *)
  assert (B : forall (t : part * part -> R), (forall x, 0 < t x) -> forall pt,
    Rabs (I0 pt - Rsum ps (fun p => I p pt)) <= Rsum (pairs ps) (fun pq => t pq * I (fst pq) pt + I (snd pq) pt / t pq)).
  { intros t T pt. destruct (c122_parts b s dyn ref cl uc m r ps D Y PR F Rf Pm Ps (at_point (m_variables m) pt cpl)) as (G & _ & _ & Gb & E & _).
    assert (E' : I0 pt = Rsum ps (fun p => I p pt) + Rsum (pairs ps) (fun pq => 2 * Re (G (fst pq) (snd pq)))).
    { unfold I0, intensity_at. rewrite E. rewrite Csum_RtoC. cbn [Cplus Re fst RtoC]. f_equal.
      transitivity (Rsum ps (fun p => Re (full_value (at_point (m_variables m) pt cpl) (pt_model p)))); [|apply Rsum_ext; intros p Hp; symmetry; exact (Ip p pt Hp)].
      clear. induction ps as [|p l IH]; cbn [Csum Rsum]; [reflexivity|]. rewrite <- IH. reflexivity. }
    rewrite E'. replace (Rsum ps (fun p => I p pt) + Rsum (pairs ps) (fun pq => 2 * Re (G (fst pq) (snd pq))) - Rsum ps (fun p => I p pt))
      with (Rsum (pairs ps) (fun pq => 2 * Re (G (fst pq) (snd pq)))) by ring.
    assert (Q : forall l, (forall pq, In pq l -> In (fst pq) ps /\ In (snd pq) ps) ->
      Rabs (Rsum l (fun pq => 2 * Re (G (fst pq) (snd pq)))) <= Rsum l (fun pq => t pq * I (fst pq) pt + I (snd pq) pt / t pq)).
    { induction l as [|pq l IH]; intros Hl; cbn [Rsum]; [rewrite Rabs_R0; lra|]. eapply Rle_trans; [apply Rabs_triang|].
      destruct (Hl pq (or_introl eq_refl)) as [Hp Hq]. apply Rplus_le_compat; [|apply IH; intros; apply Hl; right; assumption].
      rewrite Rabs_mult, (Rabs_pos_eq 2) by lra. apply bound_mean; [apply Inn, Hp|apply Inn, Hq|apply T|].
      rewrite (Ip _ pt Hp), (Ip _ pt Hq). eapply Rle_trans; [|exact (Gb _ _ Hp Hq)].
      apply re_cmod. }
    apply Q. apply Pin. }
  split.
  - apply (mean_bound_list (pairs ps) (fun pq => N (fst pq)) (fun pq => N (snd pq))).
    { intros pq Hq. destruct (Pin ps pq Hq). auto. }
    intros t T.
    assert (HB : integrates_to base (fun pt => Rsum (pairs ps) (fun pq => t pq * I (fst pq) pt + I (snd pq) pt / t pq)) i j k
      (Rsum (pairs ps) (fun pq => t pq * N (fst pq) + N (snd pq) / t pq))).
    { apply (rate_sum base i j k Cy Op (pairs ps) (fun pq pt => t pq * I (fst pq) pt + I (snd pq) pt / t pq)). intros pq Hq. destruct (Pin ps pq Hq) as [Hp Hq'].
      apply (rate_plus base i j k Cy Op (fun pt => t pq * I (fst pq) pt) (fun pt => I (snd pq) pt / t pq)).
      - exact (rate_scal base i j k Cy Op (t pq) _ _ (H _ Hp)).
      - unfold Rdiv. rewrite (Rmult_comm (N (snd pq))). pose proof (rate_scal base i j k Cy Op (/ t pq) _ _ (H _ Hq')) as X.
        refine (rate_same base i j k _ _ _ _ X). intros pt. apply Rmult_comm. }
    apply Rabs_le. split.
    + assert (Rsum ps N <= N0 + Rsum (pairs ps) (fun pq => t pq * N (fst pq) + N (snd pq) / t pq)); [|lra].
      refine (rate_le base i j k Cy Op _ _ _ _ _ HS (rate_plus base i j k Cy Op _ _ _ _ H0 HB)).
      intros pt. cbn beta. pose proof (B t T pt) as Q. apply Rabs_le_between in Q. lra.
    + assert (N0 <= Rsum ps N + Rsum (pairs ps) (fun pq => t pq * N (fst pq) + N (snd pq) / t pq)); [|lra].
      refine (rate_le base i j k Cy Op _ _ _ _ _ H0 (rate_plus base i j k Cy Op _ _ _ _ HS HB)).
      intros pt. cbn beta. pose proof (B t T pt) as Q. apply Rabs_le_between in Q. lra.
  - refine (rate_le base i j k Cy Op _ _ _ _ _ H0 (rate_scal base i j k Cy Op (INR (length ps)) _ _ HS)).
    intros pt. cbn beta. destruct (c122_parts b s dyn ref cl uc m r ps D Y PR F Rf Pm Ps (at_point (m_variables m) pt cpl)) as (G & _ & _ & _ & _ & L).
    eapply Rle_trans; [exact L|]. right. f_equal. apply Rsum_ext. intros p Hp. symmetry. exact (Ip p pt Hp).
Qed.

(** ** The rate as a function of the couplings *)
Lemma shapes_any base cpl cpl' b dyn : dynamics_of b dyn -> model_shapes base cpl b dyn -> model_shapes base cpl' b dyn.
Proof.
  intros Y H c Hc. destruct (H c Hc) as [O Ct]. destruct (Y c Hc) as [_ LS].
  assert (E : forall bs, ceval (Env bs cpl') (fun _ => 0%Z) (de_expr (dyn c)) = ceval (Env bs cpl) (fun _ => 0%Z) (de_expr (dyn c))).
  { intros bs. apply lineshape_eval; auto. }
  split.
  - intros s1 s2 s3. cbv zeta. rewrite !E. exact (O s1 s2 s3).
  - intros t0 Ht. destruct (Ct t0 Ht) as [A B]. rewrite !E.
    split; [refine (filterlim_ext _ _ _ A)|refine (filterlim_ext _ _ _ B)]; intros t; cbn beta; rewrite E; reflexivity.
Qed.
Lemma combined_exists b uc names x y cpl1 cpl2 : one_factor b uc names -> (forall n ix, ~ names n -> cpl1 n ix = cpl2 n ix) ->
  exists cpl, combined names x y cpl1 cpl2 cpl.
Proof.
  intros One Ag.
  assert (Dec : (forall n, names n) \/ exists n0, forall n, names n <-> n = n0).
  { unfold one_factor in One. destruct uc; [left; exact One|right]. destruct One as [One|One]; eexists; exact One. }
  destruct Dec as [All|(n0 & E)].
  - exists (fun n ix => (x * cpl1 n ix + y * cpl2 n ix)%C). intros n ix. split; [reflexivity|intros Z; destruct (Z (All n))].
  - exists (fun n ix => if string_dec n n0 then (x * cpl1 n ix + y * cpl2 n ix)%C else cpl1 n ix). intros n ix.
    destruct (string_dec n n0) as [->|Z]; (split; [intros Q|intros Q]); try reflexivity.
    + destruct (Q (proj2 (E n0) eq_refl)).
    + destruct (Z (proj1 (E n) Q)).
    + split; [reflexivity|symmetry; exact (Ag n ix Q)].
Qed.
(** A Hermitian form that is not negative is bounded by its diagonal. *)
Lemma hermitian_bound N1 N2 (H : C) : 0 <= N1 -> 0 <= N2 ->
  (forall x y : C, 0 <= Cmod x ^ 2 * N1 + Cmod y ^ 2 * N2 + 2 * Re (x * Cconj y * H)%C) -> Cmod H ^ 2 <= N1 * N2.
Proof.
  intros A1 A2 Q. destruct H as [u v].
  assert (M : forall a b, Cmod (a, b) ^ 2 = a * a + b * b).
  { intros a b. unfold Cmod. cbn [fst snd]. rewrite <- (Rsqr_pow2 (sqrt _)), Rsqr_sqrt; [ring|]. pose proof (pow2_ge_0 a). pose proof (pow2_ge_0 b). lra. }
  rewrite M. destruct A2 as [A2|<-].
  - specialize (Q (N2, 0) (- u, - v)). rewrite !M in Q. unfold Cmult, Cconj, Re in Q. cbn [fst snd] in Q.
    assert (E : 0 <= N2 * (N1 * N2 - (u * u + v * v))) by lra.
    destruct (Rle_or_lt (u * u + v * v) (N1 * N2)) as [L|L]; [exact L|]. exfalso. nra.
  - rewrite Rmult_0_r. destruct (Rle_or_lt (u * u + v * v) 0) as [L|L]; [exact L|]. exfalso.
    set (w := u * u + v * v) in *. set (t := (N1 + 1) / w).
    specialize (Q (1, 0) (- t * u, - t * v)). rewrite !M in Q. unfold Cmult, Cconj, Re in Q. cbn [fst snd] in Q.
    assert (E : t * w = N1 + 1) by (unfold t; field; lra). unfold w in E. clearbody t. nra.
Qed.
Theorem c144_couplings b s dyn ref cl uc m names base cpl1 cpl2 i j k N1 N2 : std_decay (b_decay b) s -> dynamics_of b dyn ->
  (b_prod_helicity b = false -> plain_resonances (b_decay b)) -> formulate b ref cl uc = Ok m ->
  one_factor b uc names -> cyclic i j k -> open_phase_space base -> model_shapes base cpl1 b dyn ->
  (forall n ix, ~ names n -> cpl1 n ix = cpl2 n ix) ->
  integrates_to base (intensity_at m cpl1) i j k N1 -> integrates_to base (intensity_at m cpl2) i j k N2 ->
  exists H : C, Cmod H ^ 2 <= N1 * N2 /\
    forall x y cpl N, combined names x y cpl1 cpl2 cpl -> integrates_to base (intensity_at m cpl) i j k N ->
      N = Cmod x ^ 2 * N1 + Cmod y ^ 2 * N2 + 2 * Re (x * Cconj y * H)%C.
Proof.
  intros D Y PR F One Cy Op Sh Ag H1 H2.
  assert (Rate : forall cpl, exists N, integrates_to base (intensity_at m cpl) i j k N).
  { intros cpl. destruct (c142 b s dyn ref cl uc m base cpl i j k D Y PR F Cy Op (shapes_any base cpl1 cpl b dyn Y Sh)) as (N & HN & _). exists N. exact HN. }
  assert (Nn : forall cpl N, integrates_to base (intensity_at m cpl) i j k N -> 0 <= N).
  { intros cpl N. apply (rate_nonneg base i j k Cy Op). intros pt. destruct (c26 b s ref cl uc m D F) as (r' & ks & _ & _ & V). apply V. }
  destruct (combined_exists b uc names (RtoC 1) (RtoC 1) cpl1 cpl2 One Ag) as (cp & Cp).
  destruct (combined_exists b uc names (RtoC 1) Ci cpl1 cpl2 One Ag) as (ci & Cq).
  destruct (Rate cp) as (Np & Hp). destruct (Rate ci) as (Ni & Hi).
  set (H := ((Np - N1 - N2) / 2, (Ni - N1 - N2) / 2) : C).
  assert (Form : forall x y cpl N, combined names x y cpl1 cpl2 cpl -> integrates_to base (intensity_at m cpl) i j k N ->
      N = Cmod x ^ 2 * N1 + Cmod y ^ 2 * N2 + 2 * Re (x * Cconj y * H)%C).
  { intros x y cpl N Co HN. set (u := Re (x * Cconj y)%C). set (v := Im (x * Cconj y)%C).
    transitivity ((Cmod x ^ 2 - u + v) * N1 + (Cmod y ^ 2 - u + v) * N2 + u * Np + - v * Ni).
    2:{ unfold u, v, H. generalize (Cmod x ^ 2), (Cmod y ^ 2). intros a c. destruct (x * Cconj y)%C as [p q]. unfold Re, Im, Cmult. cbn [fst snd]. field. }
    pose proof (rate_plus base i j k Cy Op _ _ _ _ (rate_plus base i j k Cy Op _ _ _ _ (rate_plus base i j k Cy Op _ _ _ _
      (rate_scal base i j k Cy Op (Cmod x ^ 2 - u + v) _ _ H1) (rate_scal base i j k Cy Op (Cmod y ^ 2 - u + v) _ _ H2))
      (rate_scal base i j k Cy Op u _ _ Hp)) (rate_scal base i j k Cy Op (- v) _ _ Hi)) as X.
    refine (rate_ext base i j k Cy Op _ _ _ _ _ HN X). intros pt. cbn beta. unfold intensity_at, at_point.
    destruct (c95_interference b s dyn ref cl uc m D Y PR F names One (fun y0 => match dget y0 (m_variables m) with Some e => RtoC (reval (fun z => Re (pt z)) e) | None => pt y0 end)
      cpl1 cpl2) as (G & _ & Q).
    rewrite (Q x y cpl Co), (Q _ _ cp Cp), (Q _ _ ci Cq). cbn [RtoC Re fst]. rewrite Cmod_1.
    replace (Cmod Ci) with 1 by (unfold Cmod, Ci; cbn [fst snd]; replace (0 ^ 2 + 1 ^ 2) with 1 by ring; symmetry; apply sqrt_1).
    unfold u, v. generalize (Re (full_value (Env (fun y0 => match dget y0 (m_variables m) with Some e => RtoC (reval (fun z => Re (pt z)) e) | None => pt y0 end) cpl1) m)).
    generalize (Re (full_value (Env (fun y0 => match dget y0 (m_variables m) with Some e => RtoC (reval (fun z => Re (pt z)) e) | None => pt y0 end) cpl2) m)).
    intros r2 r1. generalize (Cmod x ^ 2), (Cmod y ^ 2). intros a c. destruct (x * Cconj y)%C as [p q]. destruct G as [g h]. unfold Re, Im, Cmult, Cconj, Ci, RtoC. cbn [fst snd]. ring. }
  exists H. split; [|exact Form]. apply hermitian_bound; [exact (Nn _ _ H1)|exact (Nn _ _ H2)|]. intros x y.
  destruct (combined_exists b uc names x y cpl1 cpl2 One Ag) as (cpl & Co). destruct (Rate cpl) as (N & HN). rewrite <- (Form x y cpl N Co HN). exact (Nn _ _ HN).
Qed.
