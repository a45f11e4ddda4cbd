(** Narrow resonances: the rate of a model with one resonance (proofs for C148) *)
From Coq Require Import String ZArith QArith Qcanon List Bool Reals Lra Lia Psatz Permutation.
From Coquelicot Require Import Coquelicot.
From Verif Require Import BoundedProofs Prelude Spin Decay Expr Sums CExpr SpecKin SpecDPD Builder SpecBuilder Dynamics SpecDynamics CExprFacts LineshapeFacts LineshapeProofs
  SpecFinite FiniteShapes SpecHankel HankelFacts SpecUnitary UnitaryProofs PhaseProofs
  SpecObs SpecBounded SpecNormal ObsKin NormalKin NormalFacts NormalProofs SpecProjection ProjectionFacts RateFacts SpecNarrow NarrowFacts.
From Verif Require DynamicsProofs.
Import ListNotations.
Local Open Scope R_scope.

(** ** Another width *)
Lemma width_mass base r G n : with_width base r G (Sym ("m" ++ str_of_Z n) ANonneg) = base (Sym ("m" ++ str_of_Z n) ANonneg).
Proof. reflexivity. Qed.
Lemma width_open base r G : open_phase_space base -> open_phase_space (with_width base r G).
Proof. intros H. exact H. Qed.
Lemma width_lower base r G k : lower_limit (with_width base r G) k = lower_limit base k. Proof. reflexivity. Qed.
Lemma width_upper base r G k : upper_limit (with_width base r G) k = upper_limit base k. Proof. reflexivity. Qed.
Lemma width_half base r G i j k s : line_half (with_width base r G) i j k s = line_half base i j k s. Proof. reflexivity. Qed.

(** ** Sums of limits *)
Lemma sum_limit {A} (F : (R -> Prop) -> Prop) {FF : Filter F} (l : list A) (f : A -> R -> R) (v : A -> R) :
  (forall c, In c l -> filterlim (f c) F (locally (v c))) -> filterlim (fun x => Rsum l (fun c => f c x)) F (locally (Rsum l v)).
Proof.
  induction l as [|c l IH]; intros H; cbn [Rsum]; [apply filterlim_const|].
  apply (filterlim_comp_2 (F := F) (f c) (fun x => Rsum l (fun c => f c x)) Rplus (H c (or_introl eq_refl)) (IH (fun c' I => H c' (or_intror I)))).
  apply (filterlim_plus (V := R_NormedModule) (v c) (Rsum l v)).
Qed.
Lemma sum_RInt {A} (l : list A) (f : A -> R -> R) (v : A -> R) a b :
  (forall c, In c l -> is_RInt (f c) a b (v c)) -> is_RInt (fun x => Rsum l (fun c => f c x)) a b (Rsum l v).
Proof.
  induction l as [|c l IH]; intros H; cbn [Rsum].
  - pose proof (is_RInt_const a b 0) as Q. change (is_RInt (fun _ : R => 0) a b ((b - a) * 0)) in Q. rewrite Rmult_0_r in Q. exact Q.
  - exact (is_RInt_plus _ _ _ _ _ _ (H c (or_introl eq_refl)) (IH (fun c' I => H c' (or_intror I)))).
Qed.

(** ** The rate, for lineshapes with a peak of the form M G / ((s - M^2)^2 + (M G g(s))^2) *)
Section Rate.
  Context (b : builder) (st : Z -> state) (dyn : chain -> defexpr) (ref : option Z) (cl uc : bool) (m : model) (base : symbol -> C)
    (cpl : string -> list ival -> C) (i j k : Z) (r : particle) (M lo hi : R) (scale : R -> R) (Z0 : chain -> C) (g : chain -> R -> R).
  Context (D : std_decay (b_decay b) st) (Y : dynamics_of b dyn) (PR : plain_resonances (b_decay b)) (F : formulate b ref cl uc = Ok m)
    (HP : b_prod_helicity b = false) (HD : b_dec_helicity b = false) (Al : forall c, In c (d_chains (b_decay b)) -> allowed_chain c)
    (One : one_subsystem (b_decay b) k) (Cy : cyclic i j k) (ND : NoDup (map wave_of (d_chains (b_decay b))))
    (Sy : forall c, In c (d_chains (b_decay b)) ->
       ~ In (SpecObs.sigma_at i) (symbols_of (de_expr (dyn c))) /\ ~ In (SpecObs.sigma_at j) (symbols_of (de_expr (dyn c))))
    (Op : open_phase_space base) (M0 : 0 < M) (Rg : lower_limit base k < M * M < upper_limit base k)
    (Dr : dalitz_range (with_sigma base k (M * M)) i j k lo hi) (Sp : forall G, 0 < G -> 0 < scale G)
    (Gc : forall c s, In c (d_chains (b_decay b)) -> lower_limit base k < s < upper_limit base k -> continuous (g c) s /\ 0 < g c s)
    (Gm : forall c, In c (d_chains (b_decay b)) -> g c (M * M) = 1)
    (Sh : forall c G s, In c (d_chains (b_decay b)) -> 0 < G -> lower_limit base k < s < upper_limit base k ->
       scale G * Cmod (ceval (Env (with_sigma (with_width base r G) k s) cpl) (fun _ => 0%Z) (de_expr (dyn c))) ^ 2 =
       M * G * Cmod (Z0 c) ^ 2 / ((s - M * M) * (s - M * M) + M * G * (M * G) * (g c s * g c s))).
  Let scal (c : chain) : C := (if uc then coefficient else coupling_product) (Env base cpl) false false c 0%Z 0%Z 0%Z 0%Z.
  Let str (c : chain) : R := Cmod (Z0 c * scal c)%C ^ 2 / IZR (p_spin (ch_resonance c) + 1).
  Let f (c : chain) (s : R) : R := 2 * line_half base i j k s * str c.
  Let pk (c : chain) (e s : R) : R := peak (M * M) (f c) (g c) e s.

  Lemma narrow_continuous c s : lower_limit base k < s < upper_limit base k -> continuous (f c) s.
  Proof.
    intros H. unfold f. apply (continuous_mult (fun s => 2 * line_half base i j k s) (fun _ => str c)); [|apply continuous_const].
    apply (continuous_mult (fun _ => 2) (line_half base i j k)); [apply continuous_const|exact (half_continuous base i j k (fun _ => 0) 0 Cy Op s H)].
  Qed.
  Lemma narrow_bounded c s : lower_limit base k < s < upper_limit base k -> Rabs (f c s) <= 2 * (upper_limit base j - lower_limit base j) * Rabs (str c).
  Proof.
    intros H. unfold f. rewrite Rabs_mult. apply Rmult_le_compat_r; [apply Rabs_pos|].
    pose proof (line_half_pos base i j k Cy Op s H). pose proof (line_half_bound base i j k Cy Op s H). rewrite Rabs_pos_eq; lra.
  Qed.
  Lemma narrow_integrable c G : In c (d_chains (b_decay b)) -> 0 < G -> ex_RInt (pk c (M * G)) (lower_limit base k) (upper_limit base k).
  Proof.
    intros I HG. apply (peak_integrable _ _ (M * M) _ (f c) (g c) Rg (narrow_bounded c) (fun s H => narrow_continuous c s H) (fun s H => proj1 (Gc c s I H)) (Gm c I) (fun s H => proj2 (Gc c s I H))).
    apply Rmult_lt_0_compat; assumption.
  Qed.
  Lemma narrow_slice G s : 0 < G -> lower_limit base k < s < upper_limit base k ->
    exists a1 b1, a1 < b1 /\ dalitz_range (with_sigma (with_width base r G) k s) i j k a1 b1 /\
      is_RInt (fun x => intensity_at m cpl (dalitz_line (with_sigma (with_width base r G) k s) i j k x)) a1 b1
        (/ scale G * Rsum (d_chains (b_decay b)) (fun c => pk c (M * G) s)).
  Proof.
    intros HG Hs. pose proof (width_open base r G Op) as Op'. set (bw := with_width base r G) in *.
    assert (Hs' : lower_limit bw k < s < upper_limit bw k) by exact Hs.
    destruct (line_ends_at bw i j k Cy Op' s Hs') as [E Rg']. pose proof (line_between bw i j k Cy Op' s Hs') as Bt.
    exists (line_at bw i j k s (-1)), (line_at bw i j k s 1). split; [exact E|]. split; [exact Rg'|].
    pose proof (c138_different b st dyn ref cl uc m i j k (with_sigma bw k s) cpl _ _ D Y PR F HP HD Al One Cy ND Sy Bt Rg') as Q.
    match type of Q with is_RInt _ _ _ ?v => replace (/ scale G * Rsum (d_chains (b_decay b)) (fun c => pk c (M * G) s)) with v; [exact Q|] end.
    replace (line_at bw i j k s 1 - line_at bw i j k s (-1)) with (2 * line_half base i j k s) by (unfold line_at; change (line_half bw i j k s) with (line_half base i j k s); ring).
    rewrite <- !Rsum_scal_l. apply Rsum_ext. intros c I.
    assert (Es : (if uc then coefficient else coupling_product) (Env (with_sigma bw k s) cpl) false false c 0%Z 0%Z 0%Z 0%Z = scal c) by (unfold scal; destruct uc; reflexivity).
    rewrite Es. pose proof (Sh c G s I HG Hs) as S1. fold bw in S1. pose proof (Sp G HG) as S0.
    unfold pk, peak, f, str. rewrite !Cmod_mult, !Rpow_mult_distr. set (X := Cmod (ceval _ _ _) ^ 2) in *.
    assert (EX : X = / scale G * (M * G * Cmod (Z0 c) ^ 2 / ((s - M * M) * (s - M * M) + M * G * (M * G) * (g c s * g c s)))) by (rewrite <- S1; field; lra).
    rewrite EX. unfold Rdiv. ring.
  Qed.
  Theorem narrow_rate : exists N,
    (forall G, 0 < G -> integrates_to (with_width base r G) (intensity_at m cpl) i j k (N G)) /\
    filterlim (fun G => scale G * N G) (at_right 0) (locally (PI * (hi - lo) * Rsum (d_chains (b_decay b)) str)).
  Proof.
    exists (fun G => / scale G * Rsum (d_chains (b_decay b)) (fun c => RInt (pk c (M * G)) (lower_limit base k) (upper_limit base k))). split.
    - intros G HG. exists (fun s => / scale G * Rsum (d_chains (b_decay b)) (fun c => pk c (M * G) s)). split; [intros s Hs; exact (narrow_slice G s HG Hs)|].
      apply (is_RInt_scal (V := R_NormedModule)). change (is_RInt (fun s => Rsum (d_chains (b_decay b)) (fun c => pk c (M * G) s)) (lower_limit base k) (upper_limit base k)
        (Rsum (d_chains (b_decay b)) (fun c => RInt (pk c (M * G)) (lower_limit base k) (upper_limit base k)))).
      apply (sum_RInt (d_chains (b_decay b)) (fun c => pk c (M * G))). intros c I. exact (RInt_correct _ _ _ (narrow_integrable c G I HG)).
    - apply (filterlim_ext_loc (fun G => Rsum (d_chains (b_decay b)) (fun c => RInt (pk c (M * G)) (lower_limit base k) (upper_limit base k)))).
      { exists (mkposreal 1 Rlt_0_1). intros G _ HG. pose proof (Sp G HG). match goal with |- @eq _ ?l ?r => change (@eq R l r) end. field. lra. }
      replace (PI * (hi - lo) * Rsum (d_chains (b_decay b)) str) with (Rsum (d_chains (b_decay b)) (fun c => PI * f c (M * M))).
      2:{ rewrite <- Rsum_scal_l. apply Rsum_ext. intros c _. unfold f.
          destruct (line_range_unique _ i j k Cy (line_between base i j k Cy Op (M * M) Rg) lo hi Dr) as [-> ->].
          rewrite !(line_end_at base i j k Cy (M * M)) by exact Rg. unfold line_at. ring. }
      apply (sum_limit (at_right 0) (d_chains (b_decay b)) (fun c G => RInt (pk c (M * G)) (lower_limit base k) (upper_limit base k)) (fun c => PI * f c (M * M))).
      intros c I. apply (filterlim_comp _ _ _ (fun G => M * G) (fun e => RInt (pk c e) (lower_limit base k) (upper_limit base k)) (at_right 0) (at_right 0)).
      + intros P [d HP']. assert (d0 : 0 < d / M) by (apply Rdiv_lt_0_compat; [apply cond_pos|exact M0]). exists (mkposreal _ d0). intros G BG HG. apply HP'.
        * change (Rabs (M * G - 0) < d). change (Rabs (G - 0) < d / M) in BG. rewrite Rminus_0_r, Rabs_pos_eq in BG by lra.
          rewrite Rminus_0_r, Rabs_pos_eq by (apply Rmult_le_pos; lra). apply (Rmult_lt_compat_l M) in BG; [|exact M0]. replace (M * (d / M)) with (pos d) in BG by (field; lra). exact BG.
        * apply Rmult_lt_0_compat; assumption.
      + exact (narrow_limit _ _ (M * M) _ (f c) (g c) Rg (narrow_bounded c) (fun s H => narrow_continuous c s H) (fun s H => proj1 (Gc c s I H)) (Gm c I) (fun s H => proj2 (Gc c s I H))).
  Qed.
End Rate.

(** ** The lineshapes *)
Lemma isobar_parts c p0 r a b k i j : isobar_chain c p0 r a b k i j ->
  ch_parent c = p0 /\ ch_resonance c = r /\ ch_spectator c = k /\ ch_incoming_ls c = i /\ ch_outgoing_ls c = j.
Proof. intros ([-> | ->] & _ & _); repeat split; reflexivity. Qed.
Lemma mod_peak s m G : 0 < m * G -> Cmod (bw_simple (RtoC s) (RtoC m) (RtoC G)) ^ 2 = / ((s - m * m) * (s - m * m) + m * G * (m * G)).
Proof.
  intros H. rewrite bw_real. assert (P : 0 < m * G * (m * G)) by (apply Rmult_lt_0_compat; exact H). pose proof (Rle_0_sqr (s - m * m)) as Q. unfold Rsqr in Q.
  unfold Cmod. cbn [fst snd]. rewrite <- Rsqr_pow2, Rsqr_sqrt.
  - field. nra.
  - apply Rplus_le_le_0_compat; apply pow2_ge_0.
Qed.
Lemma width_scale L M G a b r s : width_at L M G a b r s = G * width_at L M 1 a b r s.
Proof. unfold width_at. ring. Qed.
Lemma width_at_mass L M a b r : 0 <= a -> 0 <= b -> 0 < a + b -> 0 < r -> a + b < M -> width_at L M 1 a b r (M * M) = 1.
Proof.
  intros Ha Hb Hab Hr Hm. unfold width_at. assert (T : (a + b) * (a + b) < M * M) by nra.
  pose proof (ff2_pos L a b r Ha Hb Hab Hr (M * M) T) as P. pose proof (rho_pos a b Ha Hb Hab (M * M) T) as Q.
  match goal with |- 1 * (?x / ?x) * (?y / ?y) = 1 => set (u := x) in *; set (v := y) in * end. field. split; lra.
Qed.
Lemma width_continuous L M a b r s : 0 <= a -> 0 <= b -> 0 < a + b -> 0 < r -> a + b < M -> (a + b) * (a + b) < s -> continuous (width_at L M 1 a b r) s.
Proof.
  intros Ha Hb Hab Hr Hm Hs. assert (T : 0 < (a + b) * (a + b)) by (apply Rmult_lt_0_compat; exact Hab). assert (S0 : 0 < s) by lra.
  pose proof (proj2 (rbreakup_sign s a b Ha Hb S0) Hs) as Q.
  assert (Qc : continuous (fun s => rbreakup s a b) s) by (apply (ex_derive_continuous (fun s => rbreakup s a b)); unfold rbreakup; auto_derive; lra).
  unfold width_at. apply (continuous_mult (fun s => 1 * (ff2 L s a b r / ff2 L (M * M) a b r)) (fun s => 2 * sqrt (rbreakup s a b) / sqrt s / (2 * sqrt (rbreakup (M * M) a b) / sqrt (M * M)))).
  - apply (continuous_mult (fun _ => 1) (fun s => ff2 L s a b r / ff2 L (M * M) a b r)); [apply continuous_const|].
    apply (continuous_mult (fun s => ff2 L s a b r) (fun _ => / ff2 L (M * M) a b r)); [|apply continuous_const].
    apply (continuous_ext (fun s => bsq (Z.to_nat L) (rbreakup s a b * (r * r)))); [intros t; symmetry; apply ff2_bsq|]. unfold bsq.
    assert (Zc : continuous (fun s => rbreakup s a b * (r * r)) s) by (apply (continuous_mult (fun s => rbreakup s a b) (fun _ => r * r)); [exact Qc|apply continuous_const]).
    set (n := Z.to_nat L). unfold Rdiv. apply (continuous_mult (fun s => (rbreakup s a b * (r * r)) ^ n * pa 1 n (S n)) (fun s => / pa (rbreakup s a b * (r * r)) n (S n))).
    + apply (continuous_mult (fun s => (rbreakup s a b * (r * r)) ^ n) (fun _ => pa 1 n (S n))); [|apply continuous_const].
      apply (continuous_comp (fun s => rbreakup s a b * (r * r)) (fun y => y ^ n)); [exact Zc|]. apply (ex_derive_continuous (fun y => y ^ n)). auto_derive. trivial.
    + apply (continuous_comp (fun s => pa (rbreakup s a b * (r * r)) n (S n)) Rinv).
      * apply (continuous_comp (fun s => rbreakup s a b * (r * r)) (fun y => pa y n (S n))); [exact Zc|apply pa_continuous].
      * apply continuous_Rinv. apply Rgt_not_eq. apply pa_pos. apply Rmult_le_pos; [lra|apply Rle_0_sqr].
  - apply (continuous_mult (fun s => 2 * sqrt (rbreakup s a b) / sqrt s) (fun _ => / (2 * sqrt (rbreakup (M * M) a b) / sqrt (M * M)))); [|apply continuous_const].
    apply (continuous_mult (fun s => 2 * sqrt (rbreakup s a b)) (fun s => / sqrt s)).
    + apply (continuous_mult (fun _ => 2) (fun s => sqrt (rbreakup s a b))); [apply continuous_const|].
      apply (continuous_comp (fun s => rbreakup s a b) sqrt); [exact Qc|apply continuous_sqrt].
    + apply (ex_derive_continuous (fun s => / sqrt s)). auto_derive. split; [exact S0|]. split; [|trivial]. apply Rgt_not_eq, sqrt_lt_R0; exact S0.
Qed.

Lemma cyclic_values i j k : cyclic i j k -> (i = 1 /\ j = 2 /\ k = 3)%Z \/ (i = 2 /\ j = 3 /\ k = 1)%Z \/ (i = 3 /\ j = 1 /\ k = 2)%Z.
Proof. intros [E|[E|[E|[]]]]; injection E as <- <- <-; auto. Qed.

Section Models.
  Context (b : builder) (st : Z -> state) (dyn : chain -> defexpr) (ref : option Z) (cl uc : bool) (m : model) (base : symbol -> C)
    (cpl : string -> list ival -> C) (i j k : Z) (w : bw_builder) (r : particle) (M lo hi : R).
  Context (D : std_decay (b_decay b) st) (Y : dynamics_of b dyn) (PR : plain_resonances (b_decay b)) (F : formulate b ref cl uc = Ok m)
    (HP : b_prod_helicity b = false) (HD : b_dec_helicity b = false) (Al : forall c, In c (d_chains (b_decay b)) -> allowed_chain c)
    (One : one_subsystem (b_decay b) k) (Cy : cyclic i j k) (ND : NoDup (map wave_of (d_chains (b_decay b))))
    (W : one_breit_wigner (b_decay b) w r dyn) (Op : open_phase_space base) (Bm : base (resonance_mass r) = RtoC M) (M0 : 0 < M)
    (Rg : lower_limit base k < M * M < upper_limit base k) (Dr : dalitz_range (with_sigma base k (M * M)) i j k lo hi).

  Let own c p0 a' b' k' i' j' : In c (d_chains (b_decay b)) -> isobar_chain c p0 r a' b' k' i' j' -> st_index k' = k.
  Proof. intros I Iso. rewrite <- (proj2 One c I). rewrite (spectator_isobar c p0 r a' b' k' i' j' Iso). reflexivity. Qed.
  Let Sy : forall c, In c (d_chains (b_decay b)) ->
       ~ In (SpecObs.sigma_at i) (symbols_of (de_expr (dyn c))) /\ ~ In (SpecObs.sigma_at j) (symbols_of (de_expr (dyn c))).
  Proof.
    intros c I. destruct W as (Wp & _ & Wc). destruct (Wc c I) as [(p0 & a' & b' & k' & i' & j' & Iso) E].
    pose proof (own c p0 a' b' k' i' j' I Iso) as K.
    assert (Q : forall n, In n [1; 2; 3]%Z -> n <> k -> ~ In (SpecObs.sigma_at n) (symbols_of (de_expr (dyn c)))).
    { intros n Hn Nk H. apply (bw_symbols w c p0 r a' b' k' i' j' (dyn c) Wp Iso E) in H. unfold sigma_of in H. rewrite K in H. destruct H as [H|H].
      - apply Nk. destruct (cyclic_values i j k Cy) as [(-> & -> & ->)|[(-> & -> & ->)|(-> & -> & ->)]]; repeat destruct Hn as [<-|Hn]; try destruct Hn; try reflexivity; discriminate H.
      - repeat (destruct H as [H|H]; [discriminate H|]). destruct H. }
    destruct (cyclic_values i j k Cy) as [(-> & -> & ->)|[(-> & -> & ->)|(-> & -> & ->)]]; split; apply Q; cbn; auto; discriminate.
  Qed.
  Let sym c p0 a' b' k' i' j' G s : In c (d_chains (b_decay b)) -> isobar_chain c p0 r a' b' k' i' j' ->
    let v := with_sigma (with_width base r G) k s in
    v (sigma_of k') = RtoC s /\ v (resonance_mass r) = RtoC M /\ v (resonance_width r) = RtoC G /\
    v (outer_mass a') = base (outer_mass a') /\ v (outer_mass b') = base (outer_mass b') /\ v resonance_radius = base resonance_radius /\
    v (outer_mass p0) = base (outer_mass p0) /\ v (outer_mass k') = base (outer_mass k') /\ v (parent_radius p0) = base (parent_radius p0).
  Proof.
    intros I Iso v. pose proof (own c p0 a' b' k' i' j' I Iso) as K. unfold v, with_sigma, with_width.
    split; [unfold sigma_of; rewrite K; change (Sym ("sigma" ++ str_of_Z k) ANonneg) with (SpecObs.sigma_at k); rewrite (proj2 (eqb_eq _ _) eq_refl); reflexivity|].
    split; [exact Bm|]. split.
    { assert (E : eqb (resonance_width r) (SpecObs.sigma_at k) = false) by reflexivity. rewrite E, (proj2 (eqb_eq _ _) eq_refl). reflexivity. }
    repeat split; reflexivity.
  Qed.
  Let shape c G s : In c (d_chains (b_decay b)) -> exists p0 a' b' k' i' j', isobar_chain c p0 r a' b' k' i' j' /\
    ceval (Env (with_sigma (with_width base r G) k s) cpl) (fun _ => 0%Z) (de_expr (dyn c)) =
    ((if bw_energy_dependent_width w then RtoC M * RtoC G * bw_simple (RtoC s) (RtoC M)
        (running_width two_body_phsp (orbital (ch_outgoing_ls c)) (RtoC s) (RtoC M) (RtoC G) (base (outer_mass a')) (base (outer_mass b')) (base resonance_radius))
      else bw_simple (RtoC s) (RtoC M) (RtoC G)) * production_factor w base c)%C.
  Proof.
    intros I. destruct W as (Wp & Wd & Wc). destruct (Wc c I) as [(p0 & a' & b' & k' & i' & j' & Iso) E].
    exists p0, a', b', k', i', j'. split; [exact Iso|].
    destruct (isobar_parts c p0 r a' b' k' i' j' Iso) as (Ip & Ir & Ik & Ii & Ij).
    assert (Ph : phsp_value (bw_phsp_factor w) two_body_phsp) by (rewrite Wp; exact phase_space_factor_value).
    rewrite (c36_value w c p0 r a' b' k' i' j' (dyn c) two_body_phsp _ _ Ph Iso E). unfold chain_lineshape. cbv zeta. cbn [e_sym].
    destruct (sym c p0 a' b' k' i' j' G s I Iso) as (-> & -> & -> & -> & -> & -> & -> & -> & ->).
    rewrite Wd. unfold production_factor. rewrite Ip, Ir, Ik, Ii, Ij, Bm.
    destruct (bw_energy_dependent_width w), (bw_production_form_factor w); ring.
  Qed.

  Theorem c148_constant : bw_energy_dependent_width w = false -> exists N,
    (forall G, 0 < G -> integrates_to (with_width base r G) (intensity_at m cpl) i j k (N G)) /\
    filterlim (fun G => M * G * N G) (at_right 0) (locally (PI * (hi - lo) * Rsum (d_chains (b_decay b)) (strength w base cpl uc))).
  Proof.
    intros We.
    apply (narrow_rate b st dyn ref cl uc m base cpl i j k r M lo hi (fun G => M * G) (production_factor w base) (fun _ _ => 1) D Y PR F HP HD Al One Cy ND Sy Op M0 Rg Dr).
    - intros G HG. apply Rmult_lt_0_compat; assumption.
    - intros c s _ _. split; [apply continuous_const|lra].
    - reflexivity.
    - intros c G s I HG Hs. destruct (shape c G s I) as (p0 & a' & b' & k' & i' & j' & Iso & ->). rewrite We, Cmod_mult, Rpow_mult_distr.
      rewrite mod_peak by (apply Rmult_lt_0_compat; assumption). rewrite !Rmult_1_r. unfold Rdiv. ring.
  Qed.

  Theorem c148_running : bw_energy_dependent_width w = true -> real_at base (mass_at i) -> real_at base (mass_at j) -> real_at base resonance_radius ->
    0 < Re (base resonance_radius) -> 0 < lower_limit base k -> exists N,
    (forall G, 0 < G -> integrates_to (with_width base r G) (intensity_at m cpl) i j k (N G)) /\
    filterlim (fun G => N G / (M * G)) (at_right 0) (locally (PI * (hi - lo) * Rsum (d_chains (b_decay b)) (strength w base cpl uc))).
  Proof.
    intros We Ri Rj Rr R0 L0. set (R' := Re (base resonance_radius)) in *.
    set (mi := Re (base (mass_at i))). set (mj := Re (base (mass_at j))).
    assert (Lk : lower_limit base k = (mi + mj) * (mi + mj) /\ 0 <= mi /\ 0 <= mj).
    { destruct Op as (O1 & O2 & O3 & _). unfold lower_limit, particle_mass in *. unfold mi, mj, SpecObs.mass_at.
      destruct (cyclic_values i j k Cy) as [(-> & -> & ->)|[(-> & -> & ->)|(-> & -> & ->)]]; unfold next_label; cbn [Z.eqb Pos.eqb Z.add Pos.add Pos.succ]; repeat split; try assumption; ring. }
    destruct Lk as (Lk & Hi & Hj). rewrite Lk in *.
    assert (Hij : 0 < mi + mj) by (destruct (Req_dec (mi + mj) 0) as [Z|]; [rewrite Z in L0; lra|lra]).
    assert (Hm : mi + mj < M) by nra.
    assert (Sw : forall L G s, 0 < G -> (mi + mj) * (mi + mj) < s -> forall a' b', (a' = mi /\ b' = mj) \/ (a' = mj /\ b' = mi) ->
      running_width two_body_phsp L (RtoC s) (RtoC M) (RtoC G) (RtoC a') (RtoC b') (RtoC R') = RtoC (G * width_at L M 1 mi mj R' s)).
    { intros L G s HG Hs a' b' H. rewrite <- width_scale. destruct H as [[-> ->]|[-> ->]].
      - apply width_value; try assumption; lra.
      - rewrite (width_value L M G mj mi R') by (try assumption; lra). f_equal. unfold width_at.
        assert (E : forall x, rbreakup x mj mi = rbreakup x mi mj) by (intros x; unfold rbreakup; f_equal; ring).
        assert (E2 : forall x, ff2 L x mj mi R' = ff2 L x mi mj R') by (intros x; unfold ff2; rewrite E; reflexivity). rewrite !E2, !E. reflexivity. }
    destruct (narrow_rate b st dyn ref cl uc m base cpl i j k r M lo hi (fun G => / (M * G)) (production_factor w base)
      (fun c => width_at (orbital (ch_outgoing_ls c)) M 1 mi mj R') D Y PR F HP HD Al One Cy ND Sy Op M0) as (N & H1 & H2).
    - rewrite Lk. exact Rg.
    - exact Dr.
    - intros G HG. apply Rinv_0_lt_compat. apply Rmult_lt_0_compat; assumption.
    - intros c s _ Hs. rewrite Lk in Hs. split; [apply width_continuous; lra|].
      apply (width_pos (orbital (ch_outgoing_ls c)) M 1 mi mj R'); lra.
    - intros c _. apply width_at_mass; lra.
    - intros c G s I HG Hs. rewrite Lk in Hs. destruct (shape c G s I) as (p0 & a' & b' & k' & i' & j' & Iso & ->). rewrite We.
      set (L := orbital (ch_outgoing_ls c)).
      assert (E : running_width two_body_phsp L (RtoC s) (RtoC M) (RtoC G) (base (outer_mass a')) (base (outer_mass b')) (base resonance_radius) = RtoC (G * width_at L M 1 mi mj R' s)).
      { assert (P : (outer_mass a' = mass_at i /\ outer_mass b' = mass_at j) \/ (outer_mass a' = mass_at j /\ outer_mass b' = mass_at i)).
        { pose proof (own c p0 a' b' k' i' j' I Iso) as K. destruct Iso as (_ & _ & P). unfold outer_mass, SpecObs.mass_at.
          destruct (DynamicsProofs.index_cases a' b' k' P) as [(E1 & E2 & E3)|[(E1 & E2 & E3)|[(E1 & E2 & E3)|[(E1 & E2 & E3)|[(E1 & E2 & E3)|(E1 & E2 & E3)]]]]];
          rewrite E1, E2; rewrite E3 in K; destruct (cyclic_values i j k Cy) as [(-> & -> & Ck)|[(-> & -> & Ck)|(-> & -> & Ck)]]; try (exfalso; lia); auto. }
        rewrite Rr. destruct P as [[-> ->]|[-> ->]]; rewrite Ri, Rj; fold mi mj R'; apply Sw; try lra; auto. }
      rewrite E. assert (Wp : 0 < width_at L M 1 mi mj R' s) by (apply (width_pos L M 1 mi mj R'); lra).
      generalize dependent (width_at L M 1 mi mj R' s). intros x _ Wp.
      assert (MG : 0 < M * G) by (apply Rmult_lt_0_compat; assumption).
      rewrite !Cmod_mult, !Rpow_mult_distr, mod_peak by (rewrite <- Rmult_assoc; apply Rmult_lt_0_compat; assumption). rewrite !Cmod_R, !(Rabs_pos_eq) by lra.
      assert (0 < M * G * (M * G) * (x * x)) by (apply Rmult_lt_0_compat; apply Rmult_lt_0_compat; assumption).
      pose proof (Rle_0_sqr (s - M * M)) as Q. unfold Rsqr in Q. field.
      repeat split; try lra; nra.
    - exists N. split; [exact H1|]. refine (filterlim_ext _ _ _ H2). intros G. match goal with |- @eq _ ?l ?r => change (@eq R l r) end. unfold Rdiv. ring.
  Qed.
End Models.
