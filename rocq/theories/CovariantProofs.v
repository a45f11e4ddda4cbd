(** Amplitudes in one frame (C132) *)
From Coq Require Import String ZArith QArith Qcanon Qreals List Bool Reals Lia Lra Permutation.
From Coquelicot Require Import Complex.
From Verif Require Import Prelude Spin Decay Expr Angles Sums Wigner CG CExpr SpecKin SpecDPD Builder
  SpinFacts DecayFacts AnglesFacts AnglesProofs WignerFacts CExprFacts BuilderFacts ModelFacts RefFacts SpecWigner WignerFrames WignerProofs
  SpecCovariant CovariantRep FractionProofs.
Import ListNotations.
Local Open Scope R_scope.

Lemma tuple_projections s l : In l (tuples s) -> forall i, (0 <= i <= 3)%Z -> is_projection (p_spin (s i)) (at4 l i) = true.
Proof.
  rewrite tuples_product. destruct l as [[[l0 l1] l2] l3]. intros H. apply product4_In in H. destruct H as (H0 & H1 & H2 & H3).
  intros i Hi. apply is_projection_In. assert (E : i = 0%Z \/ i = 1%Z \/ i = 2%Z \/ i = 3%Z) by lia.
  destruct E as [-> | [-> | [-> | ->]]]; assumption.
Qed.

Section Spin.
  Variable (s : Z -> state).
  Notation j i := (p_spin (s i)).

  Lemma spin_matrices_ext F G t l : (forall i, (0 <= i <= 3)%Z -> F i = G i) -> spin_matrices s F t l = spin_matrices s G t l.
  Proof. intros E. unfold spin_matrices. rewrite !E by lia. reflexivity. Qed.
  Lemma spin_matrices_mul F G l l' : In l (tuples s) -> In l' (tuples s) ->
    Rsum (tuples s) (fun t => spin_matrices s F l t * spin_matrices s G t l') = spin_matrices s (fun i => mul2 (F i) (G i)) l l'.
  Proof.
    intros Hl Hl'. pose proof (tuple_projections s l Hl) as P. pose proof (tuple_projections s l' Hl') as P'. clear Hl Hl'.
    rewrite tuples_product. unfold spin_matrices.
    set (X := fun i x => spin_matrix (j i) (F i) (at4 l i) x * spin_matrix (j i) (G i) x (at4 l' i)).
    rewrite (Rsum_ext _ _ (fun t => X 0%Z (at4 t 0) * X 1%Z (at4 t 1) * X 2%Z (at4 t 2) * X 3%Z (at4 t 3)))
      by (intros t _; unfold X; ring).
    rewrite product4_Rsum. unfold X. rewrite !spin_matrix_mul by (first [apply P|apply P']; lia). reflexivity.
  Qed.
  Lemma spin_matrices_scale c F l l' : In l (tuples s) -> In l' (tuples s) ->
    spin_matrices s (fun i => scale2 (c i) (F i)) l l'
    = c 0%Z ^ Z.to_nat (j 0%Z) * (c 1%Z ^ Z.to_nat (j 1%Z) * c 2%Z ^ Z.to_nat (j 2%Z) * c 3%Z ^ Z.to_nat (j 3%Z)) * spin_matrices s F l l'.
  Proof.
    intros Hl Hl'. pose proof (tuple_projections s l Hl) as P. pose proof (tuple_projections s l' Hl') as P'. clear Hl Hl'.
    unfold spin_matrices. rewrite !spin_matrix_scale by (first [apply P|apply P']; lia). ring.
  Qed.
  Lemma spin_matrices_transpose F l l' : In l (tuples s) -> In l' (tuples s) ->
    spin_matrices s (fun i => transpose2 (F i)) l l' = spin_matrices s F l' l.
  Proof.
    intros Hl Hl'. pose proof (tuple_projections s l Hl) as P. pose proof (tuple_projections s l' Hl') as P'. clear Hl Hl'.
    unfold spin_matrices. rewrite !spin_matrix_transpose by (first [apply P|apply P']; lia). reflexivity.
  Qed.
  Lemma spin_matrices_one l l' : In l (tuples s) -> In l' (tuples s) ->
    spin_matrices s (fun _ => one2) l l' = if eq_dec l l' then 1 else 0.
  Proof.
    intros Hl Hl'. pose proof (tuple_projections s l Hl) as P. pose proof (tuple_projections s l' Hl') as P'. clear Hl Hl'.
    unfold spin_matrices. rewrite !spin_matrix_one by (first [apply P|apply P']; lia).
    destruct l as [[[a0 a1] a2] a3], l' as [[[b0 b1] b2] b3]. cbn [at4].
    destruct (eq_dec (a0, a1, a2, a3) (b0, b1, b2, b3)) as [E|N].
    - inversion E; subst. rewrite !Z.eqb_refl. ring.
    - destruct (Z.eqb_spec a0 b0), (Z.eqb_spec a1 b1), (Z.eqb_spec a2 b2), (Z.eqb_spec a3 b3); try ring.
      exfalso. apply N. congruence.
  Qed.

  Lemma in_frames_ext F G T U l : (forall i, (0 <= i <= 3)%Z -> F i = G i) -> (forall t, In t (tuples s) -> T t = U t) ->
    in_frames s F T l = in_frames s G U l.
  Proof. intros E H. unfold in_frames. apply Csum_ext. intros t Ht. rewrite (spin_matrices_ext F G t l E), H by exact Ht. reflexivity. Qed.
  Lemma in_frames_mul F G T l : In l (tuples s) -> in_frames s G (in_frames s F T) l = in_frames s (fun i => mul2 (F i) (G i)) T l.
  Proof.
    intros Hl. unfold in_frames.
    rewrite (Csum_ext _ _ (fun t => Csum (tuples s) (fun t' => T t' * RtoC (spin_matrices s F t' t * spin_matrices s G t l))%C)).
    2:{ intros t _. rewrite <- Csum_scal_r. apply Csum_ext. intros t' _. rewrite RtoC_mult. ring. }
    rewrite Csum_swap. apply Csum_ext. intros t' Ht'. rewrite Csum_scal_l, Csum_RtoC, spin_matrices_mul by assumption. reflexivity.
  Qed.
  Lemma in_frames_one T l : In l (tuples s) -> in_frames s (fun _ => one2) T l = T l.
  Proof.
    intros Hl. unfold in_frames. rewrite (Csum_single _ l).
    - rewrite spin_matrices_one by assumption. destruct (eq_dec l l); [ring|congruence].
    - apply tuples_NoDup.
    - exact Hl.
    - intros t Ht N. rewrite spin_matrices_one by assumption. destruct (eq_dec t l); [contradiction|ring].
  Qed.
  Lemma in_frames_scale c F T l : In l (tuples s) -> c 0%Z = 1 ->
    in_frames s (fun i => scale2 (c i) (F i)) T l
    = (RtoC (c 1%Z ^ Z.to_nat (j 1%Z) * c 2%Z ^ Z.to_nat (j 2%Z) * c 3%Z ^ Z.to_nat (j 3%Z)) * in_frames s F T l)%C.
  Proof.
    intros Hl C0. unfold in_frames. rewrite <- Csum_scal_l. apply Csum_ext. intros t Ht.
    rewrite spin_matrices_scale, C0, pow1, Rmult_1_l, RtoC_mult by assumption. ring.
  Qed.
  Lemma in_frames_sum {A} (ks : list A) F (T : A -> Z * Z * Z * Z -> C) l :
    Csum ks (fun k => in_frames s F (T k) l) = in_frames s F (fun t => Csum ks (fun k => T k t)) l.
  Proof.
    unfold in_frames. rewrite Csum_swap. apply Csum_ext. intros t _. apply Csum_scal_r.
  Qed.
  Lemma in_frames_scal F z T l : in_frames s F (fun t => z * T t)%C l = (z * in_frames s F T l)%C.
  Proof. unfold in_frames. rewrite <- Csum_scal_l. apply Csum_ext. intros t _. ring. Qed.
  Lemma alignment_frames z l l' : In l (tuples s) -> In l' (tuples s) ->
    alignment s z l l' = spin_matrices s (fun i => spinor_rot (if Z.eqb i 0 then - z i else z i)) l' l.
  Proof.
    intros Hl Hl'. pose proof (tuple_projections s l Hl) as P. pose proof (tuple_projections s l' Hl') as P'. clear Hl Hl'.
    unfold alignment, spin_matrices. rewrite !spin_matrix_rot by (first [apply P|apply P']; lia). cbn [Z.eqb].
    rewrite (wigner_d_transpose (j 0%Z) (at4 l' 0) (at4 l 0)). reflexivity.
  Qed.

  (** ** The sum over spin states *)
  Lemma spin_sum F T :
    RtoC (Rsum (tuples s) (fun l => Cmod (in_frames s F T l) ^ 2))
    = Csum (tuples s) (fun t => Csum (tuples s) (fun t' =>
        T t * Cconj (T t') * RtoC (spin_matrices s (fun i => mul2 (F i) (transpose2 (F i))) t t')))%C.
  Proof.
    rewrite <- Csum_RtoC.
    rewrite (Csum_ext _ _ (fun l => Csum (tuples s) (fun t => Csum (tuples s) (fun t' =>
      T t * Cconj (T t') * RtoC (spin_matrices s F t l * spin_matrices s F t' l))%C))).
    - rewrite Csum_swap. apply Csum_ext. intros t Ht. rewrite Csum_swap. apply Csum_ext. intros t' Ht'.
      rewrite Csum_scal_l, Csum_RtoC. f_equal. f_equal. rewrite <- spin_matrices_mul by assumption. apply Rsum_ext. intros l Hl.
      rewrite spin_matrices_transpose by assumption. reflexivity.
    - intros l _. rewrite Cmod_conj. unfold in_frames at 1. rewrite <- Csum_scal_r. apply Csum_ext. intros t _.
      unfold in_frames. rewrite Csum_conj, <- Csum_scal_l. apply Csum_ext. intros t' _.
      rewrite Cconj_mult, RtoC_mult.
      replace (Cconj (RtoC (spin_matrices s F t' l))) with (RtoC (spin_matrices s F t' l))
        by (apply injective_projections; cbn [fst snd RtoC Cconj]; ring). ring.
  Qed.
End Spin.

Lemma frame_momentum m l : 0 < m -> mul2 l (transpose2 l) = momentum_matrix m (transform l (at_rest m)).
Proof.
  intros M. destruct l as [a b c d]. unfold momentum_matrix, transform, at_rest, mul2, transpose2, zero3.
  cbn [m11 m12 m21 m22 vE vp vx vy vz]. f_equal; field; lra.
Qed.
Lemma mul2_assoc a b c : mul2 (mul2 a b) c = mul2 a (mul2 b c).
Proof. unfold mul2; cbn [m11 m12 m21 m22]. f_equal; ring. Qed.
Lemma mul2_one_l a : mul2 one2 a = a.
Proof. destruct a as [pa qa ra ua]. unfold mul2, one2; cbn [m11 m12 m21 m22]. f_equal; ring. Qed.
Lemma mul2_one_r a : mul2 a one2 = a.
Proof. destruct a as [pa qa ra ua]. unfold mul2, one2; cbn [m11 m12 m21 m22]. f_equal; ring. Qed.
Lemma rot_inverse a : mul2 (spinor_rot (- a)) (spinor_rot a) = one2.
Proof.
  unfold mul2, spinor_rot, one2; cbn [m11 m12 m21 m22]. replace (- a / 2) with (- (a / 2)) by field. rewrite cos_neg, sin_neg.
  pose proof (sin2_cos2 (a / 2)) as E. unfold Rsqr in E. f_equal; lra.
Qed.
Lemma scale2_mul_r t a b : mul2 a (scale2 t b) = scale2 t (mul2 a b).
Proof. unfold mul2, scale2; cbn [m11 m12 m21 m22]. f_equal; ring. Qed.
Lemma scale2_scale t u a : scale2 t (scale2 u a) = scale2 (t * u) a.
Proof. unfold scale2; cbn [m11 m12 m21 m22]. f_equal; ring. Qed.
Lemma scale2_one a : scale2 1 a = a.
Proof. destruct a as [pa qa ra ua]. unfold scale2; cbn [m11 m12 m21 m22]. f_equal; ring. Qed.
Lemma frame_sign_sq i k r : frame_sign i k r * frame_sign i k r = 1.
Proof. unfold frame_sign. destruct (Z.eqb i k), (Z.eqb i r), (Z.eqb k r); ring. Qed.
Definition adjugate (a : mat2) : mat2 := M2 (m22 a) (- m12 a) (- m21 a) (m11 a).
Lemma adjugate_l a : det2 a = 1 -> mul2 (adjugate a) a = one2.
Proof. unfold det2, mul2, adjugate, one2; cbn [m11 m12 m21 m22]. intros E. f_equal; lra. Qed.
Lemma adjugate_r a : det2 a = 1 -> mul2 a (adjugate a) = one2.
Proof. unfold det2, mul2, adjugate, one2; cbn [m11 m12 m21 m22]. intros E. f_equal; lra. Qed.
Lemma det_boost m p : 0 < m -> det2 (spinor_boost m p) = 1.
Proof.
  intros M. unfold det2, spinor_boost; cbn [m11 m12 m21 m22].
  assert (Q : p * p < energy m p * energy m p).
  { unfold energy. rewrite sqrt_sqrt by nra. nra. }
  assert (E0 : 0 <= energy m p) by (unfold energy; apply sqrt_pos).
  assert (B : Rabs p < energy m p).
  { apply Rsqr_lt_abs_0 in Q. rewrite (Rabs_pos_eq (energy m p)) in Q; assumption. }
  apply Rabs_def2 in B. rewrite <- sqrt_mult_alt; [|apply Rlt_le, Rdiv_lt_0_compat; lra].
  replace ((energy m p + p) / m * ((energy m p - p) / m)) with 1; [rewrite sqrt_1; ring|].
  assert (X : energy m p * energy m p = m * m + p * p) by (unfold energy; apply sqrt_sqrt; nra).
  replace ((energy m p + p) / m * ((energy m p - p) / m)) with ((energy m p * energy m p - p * p) / (m * m)) by (field; lra).
  rewrite X. field. lra.
Qed.

Section Chains.
  Variables (env : symbol -> R).
  Hypotheses (PH : physical env) (NS : nonsingular env) (MP : forall i, (1 <= i <= 3)%Z -> 0 < mass_at env i).

  Lemma chain_mass k : (1 <= k <= 3)%Z -> 0 < sigma_val env k.
  Proof.
    intros Hk. assert (E : exists i, (1 <= i <= 3)%Z /\ i <> k).
    { destruct (Z.eq_dec k 1) as [->|N]; [exists 2%Z; lia|exists 1%Z; lia]. }
    destruct E as (i & Hi & N). destruct (sigma_pos env i k PH Hi Hk (MP i Hi)); [contradiction|assumption].
  Qed.
  Lemma chain_det k theta i : (1 <= k <= 3)%Z -> (0 <= i <= 3)%Z -> det2 (chain_frames env k theta i) = 1.
  Proof.
    intros Hk Hi. unfold chain_frames. destruct (Z.eqb_spec i 0) as [->|N].
    - unfold det2, one2; cbn [m11 m12 m21 m22]. ring.
    - pose proof (MP i ltac:(lia)) as M. pose proof (sqrt_lt_R0 _ (chain_mass k Hk)) as S. pose proof (MP k Hk) as Mk.
      unfold spinor_frame. destruct (Z.eqb i k); [rewrite det2_mul, det_rot, det_boost by assumption; ring|].
      destruct (Z.eqb i (next_label k)); rewrite !det2_mul, ?det_rot, !det_boost by assumption; ring.
  Qed.
  Lemma chain_momentum k theta i : (1 <= k <= 3)%Z -> (0 <= i <= 3)%Z ->
    mul2 (chain_frames env k theta i) (transpose2 (chain_frames env k theta i))
    = momentum_matrices env (fun i => helicity_frame env k theta i (at_rest (mass_at env i))) i.
  Proof.
    intros Hk Hi. unfold chain_frames, momentum_matrices. destruct (Z.eqb_spec i 0) as [->|N].
    - unfold mul2, transpose2, one2; cbn [m11 m12 m21 m22]. f_equal; ring.
    - rewrite (frame_momentum (mass_at env i)) by (apply MP; lia). rewrite transform_frame; [reflexivity|apply MP; lia|].
      right. apply chain_mass; exact Hk.
  Qed.
  (** frames of two chains *)
  Lemma chain_turn (z : Z -> R) k r tk tr hat i : (1 <= k <= 3)%Z -> (1 <= r <= 3)%Z -> (0 <= i <= 3)%Z ->
    scattering_angle env k tk -> scattering_angle env r tr ->
    (exists x e, formulate_theta_hat_angle k r = Ok (x, e) /\ hat = reval env e) ->
    (forall i, (0 <= i <= 3)%Z -> exists y f, formulate_zeta_angle i k r = Ok (y, f) /\ z i = reval env f) ->
    mul2 (chain_frames env k tk i) (spinor_rot (if Z.eqb i 0 then - z i else z i))
    = scale2 (if Z.eqb i 0 then 1 else frame_sign i k r) (mul2 (spinor_rot (- hat)) (chain_frames env r tr i)).
  Proof.
    intros Hk Hr Hi Tk Tr (x & e & He & ->) Hz. destruct (Hz i Hi) as (y & f & Hf & Ez). rewrite Ez. clear Hz Ez z.
    unfold chain_frames. destruct (Z.eqb_spec i 0) as [->|N].
    - rewrite scale2_one, mul2_one_l, mul2_one_r. f_equal. f_equal.
      rewrite (rv_of env _ _ _ He), (rv_of env _ _ _ Hf). apply zeta_rot0; lia.
    - rewrite (c131_spinor env i k r tk tr x e y f PH NS) by (auto; try lia; apply MP; lia).
      rewrite scale2_mul_r, scale2_scale, frame_sign_sq, scale2_one, <- mul2_assoc, rot_inverse, mul2_one_l. reflexivity.
  Qed.

  Theorem aligned_covariant (s : Z -> state) ks r (z : Z -> Z -> R) th (hat : Z -> R) A T l : In l (tuples s) -> (forall k, In k ks -> (1 <= k <= 3)%Z) -> (1 <= r <= 3)%Z ->
    (forall k, (1 <= k <= 3)%Z -> scattering_angle env k (th k)) ->
    (forall k, (1 <= k <= 3)%Z -> exists x e, formulate_theta_hat_angle k r = Ok (x, e) /\ hat k = reval env e) ->
    (forall i k, (0 <= i <= 3)%Z -> (1 <= k <= 3)%Z -> exists y f, formulate_zeta_angle i k r = Ok (y, f) /\ z i k = reval env f) ->
    (forall k l, In k ks -> In l (tuples s) -> A k l = in_frames s (chain_frames env k (th k)) (T k) l) ->
    aligned_amplitude s ks A z l
    = in_frames s (chain_frames env r (th r)) (fun t => Csum ks (fun k => RtoC (chain_sign s k r) * turned_amplitude s (hat k) (T k) t)%C) l.
  Proof.
    intros Hl Hks Hr Hth Hhat Hz HA. rewrite <- in_frames_sum. unfold aligned_amplitude. rewrite Csum_swap. apply Csum_ext. intros k Hk.
    rewrite in_frames_scal. unfold turned_amplitude. rewrite in_frames_mul by exact Hl.
    transitivity (in_frames s (fun i => spinor_rot (if Z.eqb i 0 then - z i k else z i k)) (A k) l).
    - unfold in_frames. apply Csum_ext. intros t Ht. rewrite alignment_frames by assumption. reflexivity.
    - rewrite (in_frames_ext s _ (fun i => spinor_rot (if Z.eqb i 0 then - z i k else z i k)) (A k)
        (in_frames s (chain_frames env k (th k)) (T k))) by (auto; intros t Ht; apply HA; assumption).
      rewrite in_frames_mul by exact Hl.
      rewrite (in_frames_ext s _ (fun i => scale2 (if Z.eqb i 0 then 1 else frame_sign i k r)
        (mul2 (spinor_rot (- hat k)) (chain_frames env r (th r) i))) (T k) (T k)).
      + rewrite (in_frames_scale s (fun i => if Z.eqb i 0 then 1 else frame_sign i k r)) by (auto). reflexivity.
      + intros i Hi. apply (chain_turn (fun i => z i k) k r (th k) (th r) (hat k) i); auto.
      + reflexivity.
  Qed.
End Chains.

Lemma zeta_defined i k r : (0 <= i <= 3)%Z -> (1 <= k <= 3)%Z -> (1 <= r <= 3)%Z -> exists y f, formulate_zeta_angle i k r = Ok (y, f).
Proof.
  intros Hi Hk Hr. assert (E : i = 0%Z \/ (1 <= i <= 3)%Z) by lia.
  destruct E as [-> | E]; [|destruct (in123 i E) as [-> | [-> | ->]]];
    destruct (in123 k Hk) as [-> | [-> | ->]], (in123 r Hr) as [-> | [-> | ->]]; vm_compute; eexists; eexists; reflexivity.
Qed.

(** ** C132 *)
Lemma c132_coherent b s ref cl uc m r base cpl th hat T :
  std_decay (b_decay b) s -> formulate b ref cl uc = Ok m -> resolve_reference (b_decay b) ref = Ok r -> (1 <= r <= 3)%Z ->
  let env x := Re (base x) in let ev := at_point (m_variables m) base cpl in
  physical env -> nonsingular env -> (forall i, (1 <= i <= 3)%Z -> 0 < mass_at env i) ->
  (forall k, (1 <= k <= 3)%Z -> scattering_angle env k (th k)) ->
  (forall k, (1 <= k <= 3)%Z -> exists x e, formulate_theta_hat_angle k r = Ok (x, e) /\ hat k = reval env e) ->
  (forall k l, In k (get_subsystem_ids (b_decay b)) -> helicity_tuple s l ->
     amp_value ev m k l = in_frames s (chain_frames env k (th k)) (T k) l) ->
  full_value ev m = RtoC (Rsum (tuples s) (fun l => Cmod (in_frames s (chain_frames env r (th r))
    (fun t => Csum (get_subsystem_ids (b_decay b)) (fun k => RtoC (chain_sign s k r) * turned_amplitude s (hat k) (T k) t)%C) l) ^ 2)).
Proof.
  intros D H Hr R13 env ev PH NS MP Hth Hhat HA.
  destruct (intensity_formula b s D _ _ _ _ H) as (r' & ks & Hr' & Hks & V). assert (r' = r) by congruence. subst r'.
  assert (Kin : forall k, In k ks -> In k (get_subsystem_ids (b_decay b))) by (intros k Hk; apply (ids_123 b ks); auto).
  assert (K : forall k, In k ks -> (1 <= k <= 3)%Z).
  { intros k Hk. pose proof (ids_range b s D k (Kin k Hk)) as I. simpl in I. lia. }
  rewrite V. clear V. f_equal. unfold intensity_value. apply Rsum_ext. intros l Hl. f_equal. f_equal.
  transitivity (aligned_amplitude s ks (amp_value ev m) (fun i k => rv env (formulate_zeta_angle i k r)) l).
  - unfold aligned_amplitude. apply Csum_ext. intros l' Hl'. apply Csum_ext. intros k Hk. f_equal. f_equal. unfold alignment.
    assert (Z : forall i, (0 <= i <= 3)%Z -> forall a c, wigner_d (p_spin (s i)) a c (Re (e_sym ev (zeta_symbol i k r)))
      = wigner_d (p_spin (s i)) a c (rv env (formulate_zeta_angle i k r))).
    { intros i Hi a c. destruct (Z.eq_dec (p_spin (s i)) 0) as [E|N]; [apply spin0_any; exact E|].
      destruct (zeta_at_point b s D _ _ _ _ r base cpl H Hr i k ltac:(simpl; lia) (Kin k Hk) N) as (_ & X). f_equal. exact X. }
    rewrite !Z by lia. reflexivity.
  - rewrite (aligned_covariant env PH NS MP s ks r _ th hat (amp_value ev m) T l Hl K R13 Hth Hhat).
    + apply in_frames_ext; [reflexivity|]. intros t Ht. apply Csum_perm. symmetry. apply sorted_perm; exact Hks.
    + intros i k Hi Hk. destruct (zeta_defined i k r Hi Hk R13) as (y & f & E). exists y, f. split; [exact E|]. symmetry. apply (rv_of env _ _ _ E).
    + intros k t Hk Ht. apply HA; [apply Kin; exact Hk|apply tuples_In; exact Ht].
Qed.
Lemma c132_spin_sum env s k theta T : physical env -> (forall i, (1 <= i <= 3)%Z -> 0 < mass_at env i) -> (1 <= k <= 3)%Z ->
  RtoC (Rsum (tuples s) (fun l => Cmod (in_frames s (chain_frames env k theta) T l) ^ 2))
  = Csum (tuples s) (fun t => Csum (tuples s) (fun t' => T t * Cconj (T t')
      * RtoC (spin_matrices s (momentum_matrices env (fun i => helicity_frame env k theta i (at_rest (mass_at env i)))) t t')))%C.
Proof.
  intros PH MP Hk. rewrite spin_sum. apply Csum_ext. intros t _. apply Csum_ext. intros t' _. f_equal. f_equal.
  apply spin_matrices_ext. intros i Hi. apply chain_momentum; assumption.
Qed.
Lemma c132_exists env s th A : physical env -> (forall i, (1 <= i <= 3)%Z -> 0 < mass_at env i) ->
  (exists T, forall k l, (1 <= k <= 3)%Z -> helicity_tuple s l -> A k l = in_frames s (chain_frames env k (th k)) (T k) l) /\
  (forall k T T', (1 <= k <= 3)%Z ->
     (forall l, helicity_tuple s l -> in_frames s (chain_frames env k (th k)) T l = in_frames s (chain_frames env k (th k)) T' l) ->
     forall t, helicity_tuple s t -> T t = T' t).
Proof.
  intros PH MP. assert (DF : forall k i, (1 <= k <= 3)%Z -> (0 <= i <= 3)%Z -> det2 (chain_frames env k (th k) i) = 1)
    by (intros k i Hk Hi; apply chain_det; assumption).
  split.
  - exists (fun k => in_frames s (fun i => adjugate (chain_frames env k (th k) i)) (A k)). intros k l Hk Hl. apply tuples_In in Hl.
    rewrite in_frames_mul by exact Hl.
    rewrite (in_frames_ext s _ (fun _ => one2) (A k) (A k)); [symmetry; apply in_frames_one; exact Hl| |reflexivity].
    intros i Hi. apply adjugate_l, DF; assumption.
  - intros k T T' Hk E t Ht. apply tuples_In in Ht.
    assert (X : forall T, in_frames s (fun i => adjugate (chain_frames env k (th k) i)) (in_frames s (chain_frames env k (th k)) T) t = T t).
    { intros U. rewrite in_frames_mul by exact Ht.
      rewrite (in_frames_ext s _ (fun _ => one2) U U); [apply in_frames_one; exact Ht| |reflexivity].
      intros i Hi. apply adjugate_r, DF; assumption. }
    rewrite <- (X T), <- (X T'). apply in_frames_ext; [reflexivity|]. intros l Hl. apply E, tuples_In, Hl.
Qed.
Lemma c132_sign s k r : (1 <= k <= 3)%Z -> (1 <= r <= 3)%Z ->
  chain_sign s k r = if Z.eqb k r then 1 else (-1) ^ Z.to_nat (p_spin (s (6 - k - r)%Z)).
Proof.
  intros Hk Hr. unfold chain_sign, frame_sign.
  destruct (in123 k Hk) as [-> | [-> | ->]], (in123 r Hr) as [-> | [-> | ->]]; cbn [Z.eqb Pos.eqb Z.sub Z.opp Z.add Z.pos_sub Pos.pred_double];
    rewrite ?pow1; try ring; cbn; ring.
Qed.
Lemma c132_rep j l l' m m' : In m (helicities j) -> In m' (helicities j) ->
  Rsum (helicities j) (fun k => spin_matrix j l m k * spin_matrix j l' k m') = spin_matrix j (mul2 l l') m m' /\
  (forall a, spin_matrix j (spinor_rot a) m m' = wigner_d j m m' a) /\
  (forall x y, spin_state j m' (m11 l * x + m21 l * y) (m12 l * x + m22 l * y)
     = Rsum (helicities j) (fun m => spin_matrix j l m m' * spin_state j m x y)) /\
  (forall f, (forall x y, spin_state j m' (m11 l * x + m21 l * y) (m12 l * x + m22 l * y)
     = Rsum (helicities j) (fun m => f m * spin_state j m x y)) -> f m = spin_matrix j l m m').
Proof.
  rewrite helicities_range, <- !is_projection_In. intros P P'.
  split; [apply spin_matrix_mul; assumption|]. split; [intros a; apply spin_matrix_rot; assumption|].
  split; [intros x y; apply spin_state_mul; exact P'|]. intros f E.
  apply (spin_state_unique j f (fun m => spin_matrix j l m m')); [|exact P]. intros x y. rewrite <- E. apply spin_state_mul; exact P'.
Qed.
Lemma c132_intensity b s ref cl uc m r base cpl th hat T :
  std_decay (b_decay b) s -> formulate b ref cl uc = Ok m -> resolve_reference (b_decay b) ref = Ok r -> (1 <= r <= 3)%Z ->
  let env x := Re (base x) in let ev := at_point (m_variables m) base cpl in
  physical env -> nonsingular env -> (forall i, (1 <= i <= 3)%Z -> 0 < mass_at env i) ->
  (forall k, (1 <= k <= 3)%Z -> scattering_angle env k (th k)) ->
  (forall k, (1 <= k <= 3)%Z -> exists x e, formulate_theta_hat_angle k r = Ok (x, e) /\ hat k = reval env e) ->
  (forall k l, In k (get_subsystem_ids (b_decay b)) -> helicity_tuple s l ->
     amp_value ev m k l = in_frames s (chain_frames env k (th k)) (T k) l) ->
  let total t := Csum (get_subsystem_ids (b_decay b)) (fun k => RtoC (chain_sign s k r) * turned_amplitude s (hat k) (T k) t)%C in
  let p i := helicity_frame env r (th r) i (at_rest (mass_at env i)) in
  full_value ev m = Csum (tuples s) (fun t => Csum (tuples s) (fun t' =>
    total t * Cconj (total t') * RtoC (spin_matrices s (momentum_matrices env p) t t')))%C.
Proof.
  intros D H Hr R13 env ev PH NS MP Hth Hhat HA total p.
  pose proof (c132_coherent b s ref cl uc m r base cpl th hat T D H Hr R13 PH NS MP Hth Hhat HA) as V. cbv zeta in V. fold env ev in V.
  rewrite V. apply c132_spin_sum; assumption.
Qed.
