(** The amplitude of a chain as the product of the partial waves of its nodes (C134) *)
From Coq Require Import String ZArith QArith Qcanon List Bool Reals Lia Lra Permutation.
From Coquelicot Require Import Complex.
From Verif Require Import Prelude Spin Decay Expr Angles Sums Wigner CG CExpr SpecKin SpecDPD Builder
  SpinFacts DecayFacts AnglesFacts AnglesProofs WignerFacts CExprFacts BuilderFacts ModelFacts RefFacts LSBasis ChainProofs SpecWigner WignerFrames WignerProofs
  SpecCovariant CovariantRep CovariantProofs CGRotation SpecWave WaveFacts.
From Verif Require BuilderProofs.
Import ListNotations.
Local Open Scope R_scope.

Lemma d_zero j m m' : is_projection j m = true -> is_projection j m' = true -> wigner_d j m m' 0 = if Z.eqb m m' then 1 else 0.
Proof. intros P P'. rewrite <- spin_matrix_rot by assumption. rewrite <- one_rot. apply spin_matrix_one; assumption. Qed.

Lemma production_wave J c j1 j2 M l1 l2 : is_projection J M = true -> is_projection j1 l1 = true -> is_projection j2 l2 = true ->
  Rsum (helicities j2) (fun s2 => wave J c j1 j2 0 M l1 s2 * wigner_d j2 s2 l2 PI)
  = parity_sign (j2 - l2) * (if Z.eqb M (l1 - l2) then ls_factor J c j1 l1 j2 l2 else 0).
Proof.
  intros P0 P1 P2. pose proof (vertex_wave J c j1 j2 0 M l1 l2 P2) as V. rewrite Rplus_0_l in V.
  rewrite (Rsum_single (helicities j1) l1) in V.
  - transitivity (parity_sign (j2 - l2) * wigner_d J M (l1 - l2) 0 * ls_factor J c j1 l1 j2 l2).
    + rewrite <- V. apply Rsum_ext. intros s2 _. rewrite (d_zero j1), Z.eqb_refl by assumption. ring.
    + destruct (is_projection J (l1 - l2)) eqn:Q.
      * rewrite d_zero by assumption. destruct (Z.eqb M (l1 - l2)); ring.
      * rewrite (wigner_d_transpose J (l1 - l2)), wigner_d_out_l by exact Q.
        destruct (Z.eqb_spec M (l1 - l2)); [congruence|ring].
  - rewrite helicities_range. apply range2_NoDup.
  - rewrite helicities_range. apply is_projection_In. exact P1.
  - intros x I N. rewrite helicities_range in I. apply is_projection_In in I. apply Rsum_zero. intros s2 _.
    rewrite (d_zero j1) by assumption. destruct (Z.eqb_spec x l1); [contradiction|ring].
Qed.

Section Tuples.
  Variables (s : Z -> state) (i j k : Z).
  Hypothesis Cy : cyclic i j k.
  Lemma tuples_cyclic (f : Z -> Z -> Z -> Z -> R) :
    Rsum (tuples s) (fun t => f (at4 t 0) (at4 t i) (at4 t j) (at4 t k))
    = Rsum (helicities (p_spin (s 0%Z))) (fun t0 => Rsum (helicities (p_spin (s i))) (fun ti =>
        Rsum (helicities (p_spin (s j))) (fun tj => Rsum (helicities (p_spin (s k))) (fun tk => f t0 ti tj tk)))).
  Proof.
    assert (E : forall g, Rsum (tuples s) g = Rsum (helicities (p_spin (s 0%Z))) (fun t0 => Rsum (helicities (p_spin (s 1%Z))) (fun t1 =>
      Rsum (helicities (p_spin (s 2%Z))) (fun t2 => Rsum (helicities (p_spin (s 3%Z))) (fun t3 => g (t0, t1, t2, t3)))))).
    { intros g. unfold tuples. rewrite Rsum_flat_map. apply Rsum_ext. intros t0 _. rewrite Rsum_flat_map. apply Rsum_ext. intros t1 _.
      rewrite Rsum_flat_map. apply Rsum_ext. intros t2 _. rewrite Rsum_map. reflexivity. }
    rewrite E. apply Rsum_ext. intros t0 _.
    destruct Cy as [X|[X|[X|[]]]]; inversion X; subst i j k; cbn [at4].
    - reflexivity.
    - rewrite Rsum_swap. apply Rsum_ext. intros t2 _. apply Rsum_swap.
    - transitivity (Rsum (helicities (p_spin (s 1%Z))) (fun t1 => Rsum (helicities (p_spin (s 3%Z))) (fun t3 => Rsum (helicities (p_spin (s 2%Z))) (fun t2 => f t0 t3 t1 t2)))).
      + apply Rsum_ext. intros t1 _. apply Rsum_swap.
      + apply Rsum_swap.
  Qed.
  Lemma spin_matrices_cyclic F t l : spin_matrices s F t l
    = spin_matrix (p_spin (s 0%Z)) (F 0%Z) (at4 t 0) (at4 l 0) * spin_matrix (p_spin (s i)) (F i) (at4 t i) (at4 l i)
      * spin_matrix (p_spin (s j)) (F j) (at4 t j) (at4 l j) * spin_matrix (p_spin (s k)) (F k) (at4 t k) (at4 l k).
  Proof. unfold spin_matrices. destruct Cy as [X|[X|[X|[]]]]; inversion X; subst i j k; ring. Qed.
  Lemma turns_cyclic theta : turns k theta 0 = one2 /\ turns k theta i = spinor_rot theta /\ turns k theta j = spinor_rot (theta + PI) /\
    turns k theta k = spinor_rot PI.
  Proof. destruct Cy as [X|[X|[X|[]]]]; inversion X; subst i j k; repeat split; reflexivity. Qed.

  Lemma waves_sum J0 JR p q theta l : In l (tuples s) -> J0 = p_spin (s 0%Z) ->
    Rsum (tuples s) (fun t => Rsum (helicities JR) (fun mu =>
        wave J0 p JR (p_spin (s k)) 0 (at4 t 0) mu (at4 t k) * wave JR q (p_spin (s i)) (p_spin (s j)) theta mu (at4 t i) (at4 t j))
      * spin_matrices s (turns k theta) t l)
    = Rsum (helicities JR) (fun r => if Z.eqb (at4 l 0) (r - at4 l k) then
        parity_sign (p_spin (s k) - at4 l k) * parity_sign (p_spin (s j) - at4 l j) * wigner_d JR r (at4 l i - at4 l j) theta
        * (ls_factor J0 p JR r (p_spin (s k)) (at4 l k) * ls_factor JR q (p_spin (s i)) (at4 l i) (p_spin (s j)) (at4 l j)) else 0).
  Proof.
    intros Hl ->. pose proof (tuple_projections s l Hl) as P.
    assert (Rg : (0 <= i <= 3 /\ 0 <= j <= 3 /\ 0 <= k <= 3)%Z) by (destruct Cy as [X|[X|[X|[]]]]; inversion X; subst i j k; lia).
    destruct (turns_cyclic theta) as (T0 & Ti & Tj & Tk).
    rewrite (Rsum_ext _ _ (fun t => (fun t0 ti tj tk => Rsum (helicities JR) (fun mu =>
        wave (p_spin (s 0%Z)) p JR (p_spin (s k)) 0 t0 mu tk * wave JR q (p_spin (s i)) (p_spin (s j)) theta mu ti tj)
      * (spin_matrix (p_spin (s 0%Z)) one2 t0 (at4 l 0) * spin_matrix (p_spin (s i)) (spinor_rot theta) ti (at4 l i)
      * spin_matrix (p_spin (s j)) (spinor_rot (theta + PI)) tj (at4 l j) * spin_matrix (p_spin (s k)) (spinor_rot PI) tk (at4 l k)))
      (at4 t 0) (at4 t i) (at4 t j) (at4 t k))).
    2:{ intros t _. cbv beta. rewrite spin_matrices_cyclic, T0, Ti, Tj, Tk. reflexivity. }
    rewrite (tuples_cyclic (fun t0 ti tj tk => Rsum (helicities JR) (fun mu =>
        wave (p_spin (s 0%Z)) p JR (p_spin (s k)) 0 t0 mu tk * wave JR q (p_spin (s i)) (p_spin (s j)) theta mu ti tj)
      * (spin_matrix (p_spin (s 0%Z)) one2 t0 (at4 l 0) * spin_matrix (p_spin (s i)) (spinor_rot theta) ti (at4 l i)
      * spin_matrix (p_spin (s j)) (spinor_rot (theta + PI)) tj (at4 l j) * spin_matrix (p_spin (s k)) (spinor_rot PI) tk (at4 l k)))).
    rewrite (Rsum_single _ (at4 l 0)).
    2:{ rewrite helicities_range. apply range2_NoDup. }
    2:{ rewrite helicities_range. apply is_projection_In. apply P. lia. }
    2:{ intros t0 I N. rewrite helicities_range in I. apply is_projection_In in I. apply Rsum_zero. intros ti _. apply Rsum_zero. intros tj _.
        apply Rsum_zero. intros tk _. rewrite spin_matrix_one by (auto; apply P; lia). destruct (Z.eqb_spec t0 (at4 l 0)); [contradiction|ring]. }
    (* one sum for each helicity of the resonance *)
    transitivity (Rsum (helicities JR) (fun mu =>
      Rsum (helicities (p_spin (s k))) (fun tk => wave (p_spin (s 0%Z)) p JR (p_spin (s k)) 0 (at4 l 0) mu tk * wigner_d (p_spin (s k)) tk (at4 l k) PI)
      * Rsum (helicities (p_spin (s i))) (fun ti => Rsum (helicities (p_spin (s j))) (fun tj =>
          wave JR q (p_spin (s i)) (p_spin (s j)) theta mu ti tj * wigner_d (p_spin (s i)) ti (at4 l i) theta * wigner_d (p_spin (s j)) tj (at4 l j) (theta + PI))))).
    - rewrite (Rsum_ext (helicities JR) _ (fun mu => Rsum (helicities (p_spin (s i))) (fun ti => Rsum (helicities (p_spin (s j))) (fun tj => Rsum (helicities (p_spin (s k))) (fun tk =>
        wave (p_spin (s 0%Z)) p JR (p_spin (s k)) 0 (at4 l 0) mu tk * wigner_d (p_spin (s k)) tk (at4 l k) PI *
        (wave JR q (p_spin (s i)) (p_spin (s j)) theta mu ti tj * wigner_d (p_spin (s i)) ti (at4 l i) theta * wigner_d (p_spin (s j)) tj (at4 l j) (theta + PI))))))).
      2:{ intros mu _. rewrite <- Rsum_scal_l. apply Rsum_ext. intros ti _. rewrite <- Rsum_scal_l. apply Rsum_ext. intros tj _. rewrite Rsum_scal_r. reflexivity. }
      rewrite (Rsum_swap (helicities JR)). apply Rsum_ext. intros ti Ii. rewrite (Rsum_swap (helicities JR)). apply Rsum_ext. intros tj Ij.
      rewrite (Rsum_swap (helicities JR)). apply Rsum_ext. intros tk Ik. rewrite helicities_range in Ii, Ij, Ik. apply is_projection_In in Ii, Ij, Ik.
      rewrite spin_matrix_one, Z.eqb_refl, !spin_matrix_rot by (auto; apply P; lia). rewrite <- Rsum_scal_r. apply Rsum_ext. intros mu _. ring.
    - apply Rsum_ext. intros r Ir. rewrite helicities_range in Ir. apply is_projection_In in Ir.
      rewrite production_wave, vertex_wave by (auto; apply P; lia). destruct (Z.eqb (at4 l 0) (r - at4 l k)); ring.
  Qed.
End Tuples.

(** ** The model *)
Section Model.
  Variables (b : builder) (s : Z -> state) (dyn : chain -> defexpr).
  Hypothesis D : std_decay (b_decay b) s.
  Hypothesis Dyn : dynamics_of b dyn.
  Hypothesis PR : plain_resonances (b_decay b).
  Hypothesis Ph : b_prod_helicity b = false.
  Hypothesis Dh : b_dec_helicity b = false.

  Lemma order_factor c i j k lam : cyclic i j k -> In c (d_chains (b_decay b)) -> ch_spectator c = s k -> forall p q, ch_incoming_ls c = Some p -> ch_outgoing_ls c = Some q ->
    forall r, prod_factor false c r (lam k) * dec_factor false c lam
    = node_sign (resonance_first c) (p_spin (s 0%Z)) p * node_sign (Z.eqb (st_index (fst (ch_decay_products c))) i) (p_spin (ch_resonance c)) q
      * (ls_factor (p_spin (s 0%Z)) p (p_spin (ch_resonance c)) r (p_spin (s k)) (lam k)
         * ls_factor (p_spin (ch_resonance c)) q (p_spin (s i)) (lam i) (p_spin (s j)) (lam j)).
  Proof.
    intros Cy Hc Ek p q Ep Eq r. unfold prod_factor, dec_factor. rewrite Ep, Eq, Ek, (std_parent _ s D c Hc).
    assert (I : st_index (s i) = i /\ st_index (s j) = j /\ i <> j).
    { destruct Cy as [X|[X|[X|[]]]]; inversion X; subst i j k; repeat split; try discriminate; apply (sd_index _ _ D); simpl; auto. }
    destruct I as (Ii & Ij & N).
    assert (A : forall f : bool, (if f then ls_factor (p_spin (s 0%Z)) p (p_spin (ch_resonance c)) r (p_spin (s k)) (lam k)
      else ls_factor (p_spin (s 0%Z)) p (p_spin (s k)) (lam k) (p_spin (ch_resonance c)) r)
      = node_sign f (p_spin (s 0%Z)) p * ls_factor (p_spin (s 0%Z)) p (p_spin (ch_resonance c)) r (p_spin (s k)) (lam k)).
    { intros [|]; unfold node_sign; [ring|]. apply BuilderProofs.ls_factor_swap. }
    rewrite A. destruct (std_products _ s D k i j c Hc Ek Cy) as [E|E]; rewrite E; cbn [fst].
    - rewrite Ii, Ij, Z.eqb_refl. unfold node_sign at 3. ring.
    - rewrite Ii, Ij. destruct (Z.eqb_spec j i) as [Y|_]; [congruence|]. unfold node_sign at 3.
      rewrite (BuilderProofs.ls_factor_swap (p_spin (ch_resonance c)) q (p_spin (s i)) (lam i) (p_spin (s j)) (lam j)). ring.
  Qed.

  Lemma c134_model ref cl uc m ev i j k l : formulate b ref cl uc = Ok m -> cyclic i j k -> helicity_tuple s l ->
    amp_value ev m k l
    = in_frames s (turns k (Re (e_sym ev (theta_name i j)))) (fun t =>
        Csum (filter (fun c => Z.eqb (st_index (ch_spectator c)) k) (d_chains (b_decay b))) (fun c =>
          (if uc then coefficient else coupling_product) ev false false c 0%Z 0%Z 0%Z 0%Z
          * ceval ev (fun _ => 0%Z) (de_expr (dyn c)) * RtoC (chain_wave s c i j k (Re (e_sym ev (theta_name i j))) t))%C) l.
  Proof.
    intros F Cy Hl. rewrite (amplitude_total b s dyn ref cl uc m D Dyn (fun _ => PR) F l i j k ev Hl Cy). rewrite Ph, Dh.
    set (theta := Re (e_sym ev (theta_name i j))). rewrite <- in_frames_sum. unfold dpd_amplitude. apply Csum_ext. intros c Ic.
    destruct (subsystem_chains _ s D k c Ic) as (Hc & Ek & _). apply tuples_In in Hl. rewrite in_frames_scal. unfold in_frames.
    rewrite (Csum_ext (tuples s) _ (fun t => RtoC (chain_wave s c i j k theta t * spin_matrices s (turns k theta) t l)))
      by (intros; rewrite RtoC_mult; reflexivity).
    rewrite Csum_RtoC.
    destruct (ch_incoming_ls c) as [p|] eqn:Ep.
    2:{ rewrite (Rsum_zero (tuples s)) by (intros; unfold chain_wave; rewrite Ep; ring). rewrite Cmult_0_r. apply Csum_zero. intros r _.
        unfold prod_factor. rewrite Ep. destruct (Z.eqb _ _); [|reflexivity]. rewrite Rmult_0_l. ring. }
    destruct (ch_outgoing_ls c) as [q|] eqn:Eq.
    2:{ rewrite (Rsum_zero (tuples s)) by (intros; unfold chain_wave; rewrite Ep, Eq; ring). rewrite Cmult_0_r. apply Csum_zero. intros r _.
        unfold dec_factor. rewrite Eq. destruct (Z.eqb _ _); [|reflexivity]. rewrite Rmult_0_r. ring. }
    set (ns := node_sign (resonance_first c) (p_spin (s 0%Z)) p * node_sign (Z.eqb (st_index (fst (ch_decay_products c))) i) (p_spin (ch_resonance c)) q).
    rewrite (Rsum_ext (tuples s) _ (fun t => ns * (Rsum (helicities (p_spin (ch_resonance c))) (fun mu =>
        wave (p_spin (s 0%Z)) p (p_spin (ch_resonance c)) (p_spin (s k)) 0 (at4 t 0) mu (at4 t k)
        * wave (p_spin (ch_resonance c)) q (p_spin (s i)) (p_spin (s j)) theta mu (at4 t i) (at4 t j)) * spin_matrices s (turns k theta) t l))).
    2:{ intros t _. unfold chain_wave. rewrite Ep, Eq. fold ns. ring. }
    rewrite Rsum_scal_l, waves_sum by auto. rewrite <- Rsum_scal_l, <- Csum_RtoC, <- Csum_scal_l. apply Csum_ext. intros r _.
    assert (SC : (if uc then coefficient else coupling_product) ev false false c r (at4 l k) (at4 l i) (at4 l j)
      = (if uc then coefficient else coupling_product) ev false false c 0%Z 0%Z 0%Z 0%Z).
    { destruct uc; reflexivity. }
    rewrite SC. destruct (Z.eqb (at4 l 0) (r - at4 l k)); [|rewrite Rmult_0_r; ring].
    rewrite (order_factor c i j k (at4 l) Cy Hc Ek p q Ep Eq r). fold ns. rewrite <- !RtoC_mult || idtac.
    rewrite !RtoC_mult. ring.
  Qed.
End Model.

(** ** Turns of a partial wave *)
Lemma orbital_turn L m theta a : Rsum (helicities (2 * L)) (fun n => wigner_d (2 * L) m n a * orbital L n theta) = orbital L m (theta + a).
Proof. unfold orbital. rewrite helicities_range, wigner_d_group. f_equal. ring. Qed.

Lemma cg_turn_back j1 j2 j3 a n1 n2 m3 :
  Rsum (helicities j3) (fun n3 => wigner_d j3 m3 n3 a * cg j1 n1 j2 n2 j3 n3)
  = Rsum (helicities j1) (fun m1 => Rsum (helicities j2) (fun m2 => wigner_d j1 m1 n1 a * wigner_d j2 m2 n2 a * cg j1 m1 j2 m2 j3 m3)).
Proof.
  rewrite cg_rotation, helicities_range, <- (cg_sum3 j1 n1 j2 n2 j3 (fun n3 => wigner_d j3 m3 n3 a)). apply Rsum_ext. intros. ring.
Qed.
Lemma cg_turn j1 j2 j3 a n1 n2 m3 :
  Rsum (helicities j1) (fun m1 => Rsum (helicities j2) (fun m2 => wigner_d j1 n1 m1 a * wigner_d j2 n2 m2 a * cg j1 m1 j2 m2 j3 m3))
  = cg j1 n1 j2 n2 j3 (n1 + n2) * wigner_d j3 (n1 + n2) m3 a.
Proof.
  rewrite (wigner_d_transpose j3 m3), <- cg_rotation. apply Rsum_ext. intros m1 _. apply Rsum_ext. intros m2 _.
  rewrite (wigner_d_transpose j1 m1 n1), (wigner_d_transpose j2 m2 n2). reflexivity.
Qed.

Lemma wave_turn J c j1 j2 theta a M s1 s2 :
  wave J c j1 j2 (theta + a) M s1 s2
  = Rsum (helicities J) (fun M' => Rsum (helicities j1) (fun t1 => Rsum (helicities j2) (fun t2 =>
      wigner_d J M M' a * wigner_d j1 s1 t1 a * wigner_d j2 s2 t2 a * wave J c j1 j2 theta M' t1 t2))).
Proof.
  unfold wave. set (N := sqrt _). set (L2 := (2 * ls_L c)%Z). set (S2 := ls_S c).
  (* the sums over the spins of the products and over M' *)
  transitivity (N * Rsum (helicities L2) (fun nL => Rsum (helicities S2) (fun nS => orbital (ls_L c) nL theta
    * Rsum (helicities J) (fun M' => wigner_d J M M' a * cg L2 nL S2 nS J M')
    * Rsum (helicities j1) (fun t1 => Rsum (helicities j2) (fun t2 => wigner_d j1 s1 t1 a * wigner_d j2 s2 t2 a * cg j1 t1 j2 t2 S2 nS))))).
  - f_equal. set (n := (s1 + s2)%Z).
    rewrite (Rsum_ext (helicities L2) (fun nL => Rsum (helicities S2) (fun nS => orbital (ls_L c) nL theta * _ * _))
      (fun nL => Rsum (helicities S2) (fun nS => Rsum (helicities L2) (fun mL => Rsum (helicities S2) (fun mS =>
        (wigner_d L2 mL nL a * orbital (ls_L c) nL theta) * (wigner_d S2 mS nS a * wigner_d S2 nS n (- a)) * (cg L2 mL S2 mS J M * cg j1 s1 j2 s2 S2 n)))))).
    2:{ intros nL _. apply Rsum_ext. intros nS _. rewrite cg_turn_back, cg_turn. fold n. rewrite (wigner_d_transpose S2 nS n).
        rewrite (Rmult_assoc (orbital _ _ _)), (Rmult_comm _ (cg _ _ _ _ _ _ * _)), <- Rmult_assoc, <- Rsum_scal_l. apply Rsum_ext. intros mL _.
        rewrite <- Rsum_scal_l. apply Rsum_ext. intros mS _. ring. }
    transitivity (Rsum (helicities L2) (fun mL => Rsum (helicities S2) (fun mS => Rsum (helicities L2) (fun nL => Rsum (helicities S2) (fun nS =>
        (wigner_d L2 mL nL a * orbital (ls_L c) nL theta) * (wigner_d S2 mS nS a * wigner_d S2 nS n (- a)) * (cg L2 mL S2 mS J M * cg j1 s1 j2 s2 S2 n)))))).
    + apply Rsum_ext. intros mL _. apply Rsum_ext. intros mS I.
      rewrite (Rsum_ext (helicities L2) _ (fun nL => wigner_d L2 mL nL a * orbital (ls_L c) nL theta *
        (Rsum (helicities S2) (fun nS => wigner_d S2 mS nS a * wigner_d S2 nS n (- a)) * (cg L2 mL S2 mS J M * cg j1 s1 j2 s2 S2 n)))).
      2:{ intros nL _. rewrite <- Rsum_scal_r, <- Rsum_scal_l. apply Rsum_ext. intros nS _. ring. }
      rewrite Rsum_scal_r. pose proof (orbital_turn (ls_L c) mL theta a) as O. fold L2 in O. rewrite O, helicities_range, wigner_d_group, Rplus_opp_r, wigner_d_0.
      rewrite helicities_range in I. apply is_projection_In in I. rewrite I. cbn [andb]. destruct (Z.eqb_spec mS n) as [->|Ne]; [ring|].
      rewrite (cg_out3 j1 s1 j2 s2 S2 mS) by exact Ne. ring.
    + rewrite (Rsum_ext (helicities L2) _ (fun mL => Rsum (helicities L2) (fun nL => Rsum (helicities S2) (fun mS => Rsum (helicities S2) (fun nS =>
        (wigner_d L2 mL nL a * orbital (ls_L c) nL theta) * (wigner_d S2 mS nS a * wigner_d S2 nS n (- a)) * (cg L2 mL S2 mS J M * cg j1 s1 j2 s2 S2 n))))))
        by (intros; apply Rsum_swap).
      rewrite Rsum_swap. apply Rsum_ext. intros nL _.
      rewrite (Rsum_ext (helicities L2) _ (fun mL => Rsum (helicities S2) (fun nS => Rsum (helicities S2) (fun mS =>
        (wigner_d L2 mL nL a * orbital (ls_L c) nL theta) * (wigner_d S2 mS nS a * wigner_d S2 nS n (- a)) * (cg L2 mL S2 mS J M * cg j1 s1 j2 s2 S2 n)))))
        by (intros; apply Rsum_swap).
      apply Rsum_swap.
  - rewrite <- Rsum_scal_l.
    rewrite (Rsum_ext (helicities L2) _ (fun nL => Rsum (helicities S2) (fun nS => Rsum (helicities J) (fun M' => Rsum (helicities j1) (fun t1 => Rsum (helicities j2) (fun t2 =>
      N * (orbital (ls_L c) nL theta * (wigner_d J M M' a * cg L2 nL S2 nS J M') * (wigner_d j1 s1 t1 a * wigner_d j2 s2 t2 a * cg j1 t1 j2 t2 S2 nS)))))))).
    2:{ intros nL _. rewrite <- Rsum_scal_l. apply Rsum_ext. intros nS _.
        set (T := Rsum (helicities j1) _). rewrite <- Rsum_scal_l, <- Rsum_scal_r, <- Rsum_scal_l. apply Rsum_ext. intros M' _. unfold T; clear T. rewrite <- !Rsum_scal_l. apply Rsum_ext. intros t1 _.
        rewrite <- !Rsum_scal_l. reflexivity. }
    rewrite (Rsum_ext (helicities L2) _ (fun nL => Rsum (helicities J) (fun M' => Rsum (helicities S2) (fun nS => Rsum (helicities j1) (fun t1 => Rsum (helicities j2) (fun t2 =>
      N * (orbital (ls_L c) nL theta * (wigner_d J M M' a * cg L2 nL S2 nS J M') * (wigner_d j1 s1 t1 a * wigner_d j2 s2 t2 a * cg j1 t1 j2 t2 S2 nS))))))))
      by (intros; apply Rsum_swap).
    rewrite Rsum_swap. apply Rsum_ext. intros M' _.
    rewrite (Rsum_ext (helicities L2) _ (fun nL => Rsum (helicities j1) (fun t1 => Rsum (helicities S2) (fun nS => Rsum (helicities j2) (fun t2 =>
      N * (orbital (ls_L c) nL theta * (wigner_d J M M' a * cg L2 nL S2 nS J M') * (wigner_d j1 s1 t1 a * wigner_d j2 s2 t2 a * cg j1 t1 j2 t2 S2 nS)))))))
      by (intros; apply Rsum_swap).
    rewrite Rsum_swap. apply Rsum_ext. intros t1 _.
    rewrite (Rsum_ext (helicities L2) _ (fun nL => Rsum (helicities j2) (fun t2 => Rsum (helicities S2) (fun nS =>
      N * (orbital (ls_L c) nL theta * (wigner_d J M M' a * cg L2 nL S2 nS J M') * (wigner_d j1 s1 t1 a * wigner_d j2 s2 t2 a * cg j1 t1 j2 t2 S2 nS))))))
      by (intros; apply Rsum_swap).
    rewrite Rsum_swap. apply Rsum_ext. intros t2 _. rewrite <- !Rsum_scal_l. apply Rsum_ext. intros nL _. rewrite <- !Rsum_scal_l. apply Rsum_ext. intros nS _. ring.
Qed.

(** ** The frames *)
Lemma boost_parts m p : 0 < m -> m12 (spinor_boost m p) = 0 /\ m21 (spinor_boost m p) = 0 /\ 0 < m11 (spinor_boost m p) /\ 0 < m22 (spinor_boost m p) /\
  m11 (spinor_boost m p) * m22 (spinor_boost m p) = 1.
Proof.
  intros M. pose proof (det_boost m p M) as X. unfold det2, spinor_boost in *. cbn [m11 m12 m21 m22] in *.
  pose proof (sqrt_pos ((energy m p + p) / m)) as A. pose proof (sqrt_pos ((energy m p - p) / m)) as B.
  repeat split; nra.
Qed.
Lemma mix_pos a d x y : 0 < a -> 0 < d -> 0 <= x -> 0 <= y -> x + y = 1 -> 0 < a * x + d * y.
Proof.
  intros A D X Y E. pose proof (Rmult_le_pos _ _ (Rlt_le _ _ A) X). pose proof (Rmult_le_pos _ _ (Rlt_le _ _ D) Y).
  destruct (Req_dec x 0) as [->|N]; [replace y with 1 by lra; lra|]. assert (0 < x) by lra. pose proof (Rmult_lt_0_compat _ _ A H1). lra.
Qed.
Lemma boost_to_pure theta m p : 0 < m -> pure_boost (boost_to theta m p).
Proof.
  intros M. destruct (boost_parts m p M) as (Z1 & Z2 & P1 & P2 & P12). unfold boost_to, pure_boost.
  set (u := spinor_boost m p) in *. assert (X : cos (theta / 2) * cos (theta / 2) + sin (theta / 2) * sin (theta / 2) = 1).
  { pose proof (sin2_cos2 (theta / 2)) as T. unfold Rsqr in T. lra. }
  set (c := cos (theta / 2)) in *. set (s := sin (theta / 2)) in *.
  cbn [mul2 spinor_rot m11 m12 m21 m22]. replace (- theta / 2) with (- (theta / 2)) by field. rewrite cos_neg, sin_neg. fold c s. rewrite Z1, Z2.
  clearbody u c s. destruct u as [a z1 z2 d]. cbn [m11 m12 m21 m22] in *. subst z1 z2.
  assert (C0 : 0 <= c * c) by nra. assert (S0 : 0 <= s * s) by nra.
  repeat split.
  - ring.
  - clear -P1 P2 X C0 S0. replace (c * (a * c + 0 * - s) + - s * (0 * c + d * - s)) with (a * (c * c) + d * (s * s)) by ring. apply mix_pos; assumption.
  - clear -P1 P2 X C0 S0. match goal with |- 0 < ?e => replace e with (a * (s * s) + d * (c * c)) by ring end. apply mix_pos; try assumption; lra.
  - match goal with |- ?e = 1 => replace e with (a * d * ((c * c + s * s) * (c * c + s * s))) by ring end. rewrite X, P12. ring.
Qed.
Lemma boost_to_turn theta m p : mul2 (boost_to theta m p) (spinor_rot theta) = mul2 (spinor_rot theta) (spinor_boost m p).
Proof.
  unfold boost_to. rewrite <- !WignerFrames.mul2_assoc, rot_add. replace (- theta + theta) with 0 by ring. rewrite rot_0r. reflexivity.
Qed.
Lemma boost_to_0 m p a : mul2 (boost_to 0 m p) a = mul2 (spinor_boost m p) a.
Proof. unfold boost_to. rewrite Ropp_0, rot_0, rot_0r. reflexivity. Qed.

Lemma chain_frames_turns env k theta n : chain_frames env k theta n = mul2 (boosts env k theta n) (turns k theta n).
Proof.
  unfold chain_frames, boosts, turns, spinor_frame. destruct (Z.eqb n 0); [unfold one2, mul2; cbn [m11 m12 m21 m22]; f_equal; ring|].
  destruct (Z.eqb n k); [rewrite boost_to_turn; reflexivity|].
  rewrite <- WignerFrames.mul2_assoc, boost_to_0. f_equal. destruct (Z.eqb n (next_label k)); rewrite boost_to_turn; [reflexivity|].
  rewrite WignerFrames.mul2_assoc, rot_add. reflexivity.
Qed.
Definition unturns (k : Z) (theta : R) (n : Z) : mat2 :=
  if Z.eqb n 0 then one2 else if Z.eqb n k then spinor_rot (- PI) else if Z.eqb n (next_label k) then spinor_rot (- theta) else spinor_rot (- (theta + PI)).
Lemma turns_inverse k theta n : mul2 (turns k theta n) (unturns k theta n) = one2.
Proof.
  unfold turns, unturns. rewrite <- (rot_0 one2).
  destruct (Z.eqb n 0); [|destruct (Z.eqb n k); [|destruct (Z.eqb n (next_label k))]]; rewrite ?rot_add, ?Rplus_opp_r; try (rewrite one_rot, !rot_0; reflexivity).
Qed.
Lemma turns_unique s k theta U V : (forall l, helicity_tuple s l -> in_frames s (turns k theta) U l = in_frames s (turns k theta) V l) ->
  forall t, helicity_tuple s t -> U t = V t.
Proof.
  intros H t Ht. apply tuples_In in Ht.
  assert (E : forall W, in_frames s (unturns k theta) (in_frames s (turns k theta) W) t = W t).
  { intros W. rewrite in_frames_mul by exact Ht. rewrite (in_frames_ext s _ (fun _ => one2) _ W) by (intros; auto; apply turns_inverse).
    apply in_frames_one. exact Ht. }
  rewrite <- (E U), <- (E V). apply in_frames_ext; [reflexivity|]. intros l Hl. apply H. apply tuples_In. exact Hl.
Qed.
Lemma c134_rest b s dyn ref cl uc m ev i j k theta env T : std_decay (b_decay b) s -> dynamics_of b dyn -> plain_resonances (b_decay b) ->
  b_prod_helicity b = false -> b_dec_helicity b = false -> formulate b ref cl uc = Ok m -> cyclic i j k -> Re (e_sym ev (theta_name i j)) = theta ->
  (forall l, helicity_tuple s l -> amp_value ev m k l = in_frames s (chain_frames env k theta) T l) ->
  forall t, helicity_tuple s t -> in_frames s (boosts env k theta) T t =
    Csum (filter (fun c => Z.eqb (st_index (ch_spectator c)) k) (d_chains (b_decay b))) (fun c =>
          (if uc then coefficient else coupling_product) ev false false c 0%Z 0%Z 0%Z 0%Z
          * ceval ev (fun _ => 0%Z) (de_expr (dyn c)) * RtoC (chain_wave s c i j k theta t))%C.
Proof.
  intros D Dyn PR Ph Dh F Cy Et HT. subst theta. apply (turns_unique s k (Re (e_sym ev (theta_name i j)))).
  intros l Hl. rewrite <- (c134_model b s dyn D Dyn PR Ph Dh ref cl uc m ev i j k l F Cy Hl), (HT l Hl). rewrite in_frames_mul by (apply tuples_In; exact Hl).
  apply in_frames_ext; [|reflexivity]. intros n _. symmetry. apply chain_frames_turns.
Qed.

Lemma c134_cg j1 j2 j3 l n1 n2 m3 : (Z.abs (j1 - j2) <= j3 <= j1 + j2)%Z -> Z.Even (j1 + j2 - j3) -> In n1 (helicities j1) -> In n2 (helicities j2) -> In m3 (helicities j3) ->
  Rsum (helicities j1) (fun m1 => Rsum (helicities j2) (fun m2 => spin_matrix j1 l n1 m1 * spin_matrix j2 l n2 m2 * cg j1 m1 j2 m2 j3 m3))
  = (m11 l * m22 l - m12 l * m21 l) ^ Z.to_nat ((j1 + j2 - j3) / 2) * Rsum (helicities j3) (fun n3 => cg j1 n1 j2 n2 j3 n3 * spin_matrix j3 l n3 m3).
Proof.
  rewrite !helicities_range. intros T V A B E. apply is_projection_In in A, B, E. apply (cg_covariance j1 j2 j3 l n1 n2 m3); try assumption.
  unfold CG.triangle. rewrite !andb_true_iff, !Z.leb_le. apply Z.even_spec in V. repeat split; try lia; assumption.
Qed.
Lemma c134_vertex J c j1 j2 theta M l1 l2 : In l2 (helicities j2) ->
  Rsum (helicities j1) (fun s1 => Rsum (helicities j2) (fun s2 => wave J c j1 j2 theta M s1 s2 * wigner_d j1 s1 l1 theta * wigner_d j2 s2 l2 (theta + PI)))
  = parity_sign (j2 - l2) * wigner_d J M (l1 - l2) theta * ls_factor J c j1 l1 j2 l2.
Proof. intros I. apply vertex_wave. apply is_projection_In. rewrite <- helicities_range. exact I. Qed.

(** ** Spinless products *)
Lemma cg_spin0 j m : is_projection j m = true -> cg j m 0 0 j m = 1.
Proof.
  intros P. unfold cg. pose proof (proj1 (WignerFacts.is_projection_spec j m) P) as PS; assert (A : (- j <= m <= j)%Z) by (clear -PS; lia).
  replace (cg_couples j m 0 0 j m) with true.
  2:{ symmetry. unfold cg_couples, CG.triangle. rewrite P. replace (j + 0 - j)%Z with 0%Z by lia.
      rewrite (proj2 (Z.eqb_eq (m + 0) m)), (proj2 (Z.leb_le (Z.abs (j - 0)) j)), (proj2 (Z.leb_le j (j + 0))) by lia. reflexivity. }
  replace (j + 0 - j)%Z with 0%Z by lia. replace (j - j + 0)%Z with 0%Z by lia. change (0 / 2)%Z with 0%Z. change (Z.to_nat 0) with 0%nat.
  cbn [seq Rsum]. unfold racah_term. cbn [Z.of_nat]. replace (j + 0 - j)%Z with 0%Z by lia. replace (j - j - 0)%Z with 0%Z by lia.
  rewrite !Z.sub_0_r, !Z.add_0_r. change (0 / 2)%Z with 0%Z. rewrite Z.add_diag, (Z.mul_comm 2 j), Z.div_mul by lia.
  assert (N1 : (0 <= (j - m) / 2)%Z) by (apply Z.div_pos; lia). assert (N2 : (0 <= (j + m) / 2)%Z) by (apply Z.div_pos; lia).
  rewrite (proj2 (Z.leb_le _ _) N1), (proj2 (Z.leb_le _ _) N2). cbn [Z.leb andb Z.compare].
  assert (F0 : fz 0 = 1) by reflexivity. rewrite F0.
  assert (Fs : forall z, (0 <= z)%Z -> fz (z + 1) = IZR (z + 1) * fz z).
  { intros z Hz. unfold fz. replace (Z.to_nat (z + 1)) with (S (Z.to_nat z)) by lia. rewrite fact_simpl, mult_INR, INR_IZR_INZ. do 2 f_equal. lia. }
  assert (Fp : forall z, 0 < fz z) by (intros; apply INR_fact_lt_0).
  rewrite (Fs j) by lia. pose proof (Fp j) as Pj. assert (J1 : 0 < IZR (j + 1)) by (apply IZR_lt; lia).
  set (u := fz ((j + m) / 2)). set (v := fz ((j - m) / 2)). assert (U : 0 < u) by apply Fp. assert (W : 0 < v) by apply Fp.
  replace (IZR (j + 1) * fz j * 1 * 1 / (IZR (j + 1) * fz j)) with 1 by (field; split; lra). rewrite sqrt_1.
  replace (u * v * v * u * 1 * 1) with ((u * v) * (u * v)) by ring. rewrite sqrt_square by nra.
  rewrite pow_O. field. split; lra.
Qed.
Lemma wave_spinless L theta M : (0 <= L)%Z -> In M (helicities (2 * L)) -> wave (2 * L) (LS L 0) 0 0 theta M 0 0 = orbital L M theta.
Proof.
  intros HL I. unfold wave. cbn [ls_L ls_S]. rewrite helicities_range in I. apply is_projection_In in I.
  assert (X : 0 < IZR (2 * L + 1)) by (apply IZR_lt; lia).
  replace (IZR (2 * L + 1) / IZR (2 * L + 1)) with 1 by (field; lra). rewrite sqrt_1, Rmult_1_l.
  rewrite (Rsum_single _ M).
  - change (helicities 0) with [0%Z]. cbn [Rsum]. rewrite (cg_spin0 (2 * L) M I), (cg_spin0 0 0) by reflexivity. ring.
  - rewrite helicities_range. apply range2_NoDup.
  - rewrite helicities_range. apply is_projection_In. exact I.
  - intros x _ N. change (helicities 0) with [0%Z]. cbn [Rsum]. rewrite (cg_out3 (2 * L) x 0 0 (2 * L) M) by lia. ring.
Qed.
