(** Observables of models (proofs for C92-C94) *)
From Coq Require Import String ZArith QArith Qcanon Qreals List Bool Reals Lia Lra Permutation.
From Coquelicot Require Import Complex Hierarchy RInt RInt_analysis.
From Verif Require Import Prelude Spin Decay Expr Angles Sums Wigner CG CExpr SpecKin SpecDPD Builder
  SpinFacts DecayFacts AnglesFacts WignerFacts CExprFacts BuilderFacts ModelFacts RefFacts SpecObs JacobiFacts
  LegendreFacts ObsKin.
Import ListNotations.
Local Open Scope string_scope.
Local Open Scope Z_scope.
Local Open Scope list_scope.

(** ** C92 *)
Lemma singleton_list {A} (l : list A) a : NoDup l -> l <> [] -> (forall x, In x l -> x = a) -> l = [a].
Proof.
  intros ND NE H. destruct l as [|x [|y l]]; [congruence| |].
  - rewrite (H x); simpl; auto.
  - inversion ND as [|? ? N _]; subst. exfalso. apply N. left.
    rewrite (H x), (H y); simpl; auto.
Qed.
Lemma one_ids d k ks : one_subsystem d k -> sorted (get_subsystem_ids d) = Ok ks -> ks = [k].
Proof.
  intros [NE All] H. apply sorted_perm in H. apply singleton_list.
  - apply (Permutation_NoDup H). unfold get_subsystem_ids. apply to_set_NoDup.
  - intros ->. apply Permutation_sym, Permutation_nil in H.
    destruct (d_chains d) as [|c l] eqn:E; [congruence|].
    assert (X : In (st_index (ch_spectator c)) (get_subsystem_ids d)).
    { apply get_subsystem_ids_In. exists c. rewrite E. simpl; auto. }
    rewrite H in X. destruct X.
  - intros x Hx. apply (Permutation_in _ (Permutation_sym H)) in Hx. apply get_subsystem_ids_In in Hx.
    destruct Hx as (c & Hc & <-). auto.
Qed.
Lemma one_in d k : one_subsystem d k -> In k (get_subsystem_ids d).
Proof.
  intros [NE All]. apply get_subsystem_ids_In. destruct (d_chains d) as [|c l] eqn:E; [congruence|].
  exists c. split; [simpl; auto|]. apply All. simpl; auto.
Qed.
Theorem c92 b s ref cl uc m k : std_decay (b_decay b) s -> formulate b ref cl uc = Ok m ->
  one_subsystem (b_decay b) k ->
  forall ev, full_value ev m = RtoC (Rsum (tuples s) (fun l => Cmod (amp_value ev m k l) ^ 2)%R).
Proof.
  intros D H One ev. destruct (intensity_formula b s D _ _ _ _ H) as (r & ks & _ & Hks & V).
  rewrite (one_ids _ _ _ One Hks) in V. rewrite V. f_equal. unfold intensity_value.
  set (z := fun i => Re (e_sym ev (zeta_symbol i k r))).
  rewrite <- (orthogonal_complex (tuples s) (rot s z) (amp_value ev m k) eq_dec (tuples_NoDup s) (rot_orthogonal s z)).
  apply Rsum_ext. intros l _. do 2 f_equal. unfold aligned_amplitude. apply Csum_ext. intros l' _.
  cbn [Csum]. rewrite Cplus_0_r, Cmult_comm. reflexivity.
Qed.

(** ** C93 *)
Lemma spinless_tuples s : spinless s -> tuples s = [(0, 0, 0, 0)].
Proof.
  intros H. unfold tuples. rewrite !H by (simpl; auto). reflexivity.
Qed.
Lemma alignment_spinless s z : spinless s -> alignment s z (0, 0, 0, 0) (0, 0, 0, 0) = 1%R.
Proof.
  intros H. unfold alignment. rewrite !H by (simpl; auto). cbn [at4]. rewrite !wigner_d_spin0. ring.
Qed.
Lemma Csum_group {A} (l : list A) (g : A -> Z) (ks : list Z) f : NoDup ks -> (forall x, In x l -> In (g x) ks) ->
  Csum ks (fun k => Csum (filter (fun x => g x =? k) l) f) = Csum l f.
Proof.
  intros ND H.
  rewrite (Csum_ext ks _ (fun k => Csum l (fun x => if g x =? k then f x else RtoC 0))) by (intros; apply Csum_filter).
  rewrite Csum_swap. apply Csum_ext. intros x Hx. rewrite (Csum_single _ (g x)); auto.
  - rewrite Z.eqb_refl. reflexivity.
  - intros y _ N. destruct (Z.eqb_spec (g x) y); [congruence|reflexivity].
Qed.
Lemma cyclic_next i j k : cyclic i j k -> i = next_label k /\ j = next_label i.
Proof. intros [E|[E|[E|[]]]]; injection E as <- <- <-; split; reflexivity. Qed.
Theorem c93 b s dyn ref cl uc m : std_decay (b_decay b) s -> dynamics_of b dyn ->
  (b_prod_helicity b = false -> plain_resonances (b_decay b)) -> formulate b ref cl uc = Ok m ->
  spinless s ->
  (forall c, In c (d_chains (b_decay b)) -> exists n, p_spin (ch_resonance c) = 2 * Z.of_nat n) ->
  forall ev, full_value ev m = RtoC (Cmod (Csum (d_chains (b_decay b)) (fun c =>
    ceval ev (fun _ => 0) (de_expr (dyn c))
    * RtoC (legendre (Z.to_nat (p_spin (ch_resonance c) / 2)) (cos (Re (e_sym ev (chain_angle c)))))
    * (if uc then coefficient else coupling_product) ev (b_prod_helicity b) (b_dec_helicity b) c 0 0 0 0
    * RtoC (prod_factor (b_prod_helicity b) c 0 0 * dec_factor (b_dec_helicity b) c (fun _ => 0)))%C) ^ 2).
Proof.
  intros D Dyn PR H S Ev ev. destruct (intensity_formula b s D _ _ _ _ H) as (r & ks & _ & Hks & V).
  rewrite V. f_equal. unfold intensity_value, aligned_amplitude. rewrite (spinless_tuples s S). cbn [Rsum Csum].
  rewrite Rplus_0_r, Cplus_0_r. do 2 f_equal.
  rewrite <- (Csum_group (d_chains (b_decay b)) (fun c => st_index (ch_spectator c)) ks).
  2:{ apply sorted_perm in Hks. apply (Permutation_NoDup Hks). unfold get_subsystem_ids. apply to_set_NoDup. }
  2:{ intros c Hc. rewrite (ids_123 b ks _ Hks). apply get_subsystem_ids_In. exists c. auto. }
  apply Csum_ext. intros k Hk. rewrite (ids_123 b ks k Hks) in Hk.
  rewrite (alignment_spinless s _ S), Cmult_1_r.
  destruct (cyclic_ex k (ids_range b s D k Hk)) as (i & j & Cy).
  assert (HT : helicity_tuple s (0, 0, 0, 0)) by (apply tuples_In; rewrite (spinless_tuples s S); left; reflexivity).
  destruct (amplitude_formula b s D dyn _ _ _ _ Dyn PR H _ i j k HT Cy (or_intror Hk)) as (_ & _ & A).
  rewrite A. clear A V. unfold dpd_amplitude. apply Csum_ext. intros c Hc.
  destruct (subsystem_chains _ _ D k c Hc) as (Hc' & Sp & K). destruct (Ev c Hc') as [n En]. rewrite En.
  assert (Z0 : forall x, at4 (0, 0, 0, 0) x = 0) by (intros x; unfold at4; destruct x as [|[[]|[]|]|]; reflexivity).
  rewrite helicities_range.
  rewrite (Csum_single _ 0).
  - rewrite !Z0. change (0 =? 0 - 0) with true. cbv iota. change (0 - 0) with 0.
    destruct (cyclic_next i j k Cy) as [Ei Ej].
    assert (Sk : p_spin (s k) = 0) by (apply S; simpl in K |- *; tauto).
    assert (Sj : p_spin (s j) = 0) by (apply S; destruct Cy as [E|[E|[E|[]]]]; injection E as <- <- <-; simpl; tauto).
    rewrite Sk, Sj. change (parity_sign (0 - 0)) with 1%R. rewrite Rmult_1_l, Cmult_1_l.
    rewrite wigner_d_legendre.
    replace (Z.to_nat (2 * Z.of_nat n / 2)) with n by (rewrite Z.mul_comm, Z_div_mult by lia; lia).
    unfold chain_angle. rewrite filter_In, Z.eqb_eq in Hc. destruct Hc as [_ ->]. rewrite <- Ei, <- Ej.
    assert (DF : dec_factor (b_dec_helicity b) c (at4 (0, 0, 0, 0)) = dec_factor (b_dec_helicity b) c (fun _ => 0)).
    { unfold dec_factor. destruct (b_dec_helicity b); auto. destruct (ch_outgoing_ls c); auto.
      destruct (ch_decay_products c). rewrite !Z0. reflexivity. }
    rewrite DF. destruct uc; reflexivity.
  - apply spin_range2_NoDup.
  - apply spin_range2_In. split; [lia|]. rewrite Z.sub_0_l || idtac. apply Z.even_spec. exists (Z.of_nat n). lia.
  - intros x _ N. rewrite !Z0. destruct (Z.eqb_spec 0 (x - 0)); [lia|reflexivity].
Qed.

(** ** C94 *)
Lemma is_projection_hel j m : is_projection j m = memb m (helicities j).
Proof.
  rewrite helicities_range. apply eq_true_iff_eq. rewrite is_projection_In, memb_In. tauto.
Qed.
(** the amplitude of the subsystem as a sum over partial waves *)
Lemma amplitude_waves ph dh s chains scal X th lam i j k (Js : list Z) : NoDup Js ->
  (forall c, In c chains -> st_index (ch_spectator c) = k /\ In (p_spin (ch_resonance c)) Js) ->
  dpd_amplitude ph dh s chains scal X th lam i j k =
  (RtoC (parity_sign (p_spin (s k) - lam k) * parity_sign (p_spin (s j) - lam j))
   * Csum Js (fun J => RtoC (wigner_d J (lam 0 + lam k) (lam i - lam j) th)
                       * partial_wave ph dh chains scal X lam i j k J))%C.
Proof.
  intros ND H. unfold dpd_amplitude.
  rewrite Csum_filter.
  rewrite (Csum_ext chains _ (fun c => RtoC (parity_sign (p_spin (s k) - lam k) * parity_sign (p_spin (s j) - lam j))
    * (RtoC (wigner_d (p_spin (ch_resonance c)) (lam 0 + lam k) (lam i - lam j) th)
       * Csum (helicities (p_spin (ch_resonance c))) (fun r =>
           if ((lam 0 =? r - lam k) && memb (lam i - lam j) (helicities (p_spin (ch_resonance c))))%Z then
             X c * scal c r * RtoC (prod_factor ph c r (lam k) * dec_factor dh c lam) else RtoC 0)))%C).
  - rewrite Csum_scal_l. f_equal.
    rewrite <- (Csum_group chains (fun c => p_spin (ch_resonance c)) Js) by (auto; intros c Hc; apply (H c Hc)).
    apply Csum_ext. intros J _. unfold partial_wave. rewrite <- Csum_scal_l. apply Csum_ext. intros c Hc.
    rewrite filter_In, Z.eqb_eq in Hc. destruct Hc as [_ ->]. reflexivity.
  - intros c Hc. destruct (H c Hc) as [-> _]. rewrite Z.eqb_refl.
    rewrite <- !Csum_scal_l. apply Csum_ext. intros r Hr.
    destruct (Z.eqb_spec (lam 0) (r - lam k)) as [E|N]; cbn [andb]; [|ring].
    replace (lam 0 + lam k) with r by lia.
    destruct (memb (lam i - lam j) (helicities (p_spin (ch_resonance c)))) eqn:M.
    + rewrite !RtoC_mult. ring.
    + rewrite wigner_d_out_r by (rewrite is_projection_hel; exact M). ring.
Qed.
Lemma wave_zero ph dh chains scal X lam i j k J :
  is_projection J (lam 0 + lam k) && is_projection J (lam i - lam j) = false ->
  partial_wave ph dh chains scal X lam i j k J = RtoC 0.
Proof.
  intros H. unfold partial_wave. apply Csum_zero. intros c _. apply Csum_zero. intros r Hr.
  destruct (Z.eqb_spec (lam 0) (r - lam k)) as [E|N]; cbn [andb]; [|reflexivity].
  rewrite !is_projection_hel in H. replace (lam 0 + lam k) with r in H by lia.
  rewrite (proj2 (memb_In r _) Hr) in H. cbn [andb] in H. rewrite H. reflexivity.
Qed.
Lemma parity_sign_sq z : (parity_sign z * parity_sign z = 1)%R.
Proof. unfold parity_sign. destruct (Z.even _); ring. Qed.
Lemma Cmod_sum_sq {A} (l : list A) (d : A -> R) (w : A -> C) :
  (Cmod (Csum l (fun a => RtoC (d a) * w a)%C) ^ 2 =
   Rsum l (fun a => Rsum l (fun a' => (Re (w a) * Re (w a') + Im (w a) * Im (w a')) * (d a * d a'))))%R.
Proof.
  rewrite Cmod_sq, Csum_Re, Csum_Im.
  rewrite (Rsum_ext l (fun x => Re _) (fun a => d a * Re (w a))%R)
    by (intros x _; destruct (w x); unfold Re, Im, Cmult, RtoC; cbn [fst snd]; ring).
  rewrite (Rsum_ext l (fun x => Im _) (fun a => d a * Im (w a))%R)
    by (intros x _; destruct (w x); unfold Re, Im, Cmult, RtoC; cbn [fst snd]; ring).
  cbn [pow]. rewrite !Rmult_1_r. rewrite <- !Rsum_scal_r. rewrite <- Rsum_plus. apply Rsum_ext. intros a _.
  rewrite <- !Rsum_scal_l, <- Rsum_plus. apply Rsum_ext. intros a' _. ring.
Qed.
Lemma wave_integral (Js : list Z) (w : Z -> C) M M' : NoDup Js ->
  (forall J, is_projection J M && is_projection J M' = false -> w J = RtoC 0) ->
  is_RInt (fun z => (Cmod (Csum Js (fun J => RtoC (wigner_d J M M' (acos z)) * w J)%C) ^ 2)%R) (-1) 1
    (2 * Rsum Js (fun J => / IZR (J + 1) * Cmod (w J) ^ 2))%R.
Proof.
  intros ND W.
  assert (V : (2 * Rsum Js (fun J => / IZR (J + 1) * Cmod (w J) ^ 2) =
    Rsum Js (fun J => Rsum Js (fun J' => (Re (w J) * Re (w J') + Im (w J) * Im (w J')) * d_norm J J')))%R).
  { rewrite <- Rsum_scal_l. apply Rsum_ext. intros J HJ. rewrite (Rsum_single _ J); auto.
    - unfold d_norm. rewrite Z.eqb_refl, Cmod_sq. unfold Rdiv. ring.
    - intros J' _ N. unfold d_norm. destruct (Z.eqb_spec J J'); [congruence|ring]. }
  rewrite V. eapply is_RInt_ext.
  { intros z _. symmetry. apply Cmod_sum_sq. }
  apply is_RInt_Rsum. intros J _. apply is_RInt_Rsum. intros J' _.
  destruct (is_projection J M && is_projection J M') eqn:P.
  - destruct (is_projection J' M && is_projection J' M') eqn:P'.
    + apply (is_RInt_scal (fun z => wigner_d J M M' (acos z) * wigner_d J' M M' (acos z))%R).
      apply andb_prop in P, P'. apply wigner_d_overlap; tauto.
    + rewrite (W J' P'). cbn [Re Im RtoC fst snd]. unfold Re, Im, RtoC; cbn [fst snd].
      rewrite !Rmult_0_r, Rplus_0_r, Rmult_0_l.
      apply (is_RInt_ext (fun _ => 0%R)); [intros z _; symmetry; apply Rmult_0_l|]. apply is_RInt_zero.
  - rewrite (W J P). unfold Re, Im, RtoC; cbn [fst snd].
    rewrite !Rmult_0_l, Rplus_0_r, Rmult_0_l.
    apply (is_RInt_ext (fun _ => 0%R)); [intros z _; symmetry; apply Rmult_0_l|]. apply is_RInt_zero.
Qed.

Theorem c94 b s dyn ref cl uc m i j k base cpl lo hi :
  std_decay (b_decay b) s -> dynamics_of b dyn -> (b_prod_helicity b = false -> plain_resonances (b_decay b)) ->
  formulate b ref cl uc = Ok m -> one_subsystem (b_decay b) k -> cyclic i j k ->
  (forall c, In c (d_chains (b_decay b)) ->
     ~ In (sigma_at i) (symbols_of (de_expr (dyn c))) /\ ~ In (sigma_at j) (symbols_of (de_expr (dyn c)))) ->
  between_thresholds base i j k -> dalitz_range base i j k lo hi ->
  is_RInt (fun x => Re (full_value (at_point (m_variables m) (dalitz_line base i j k x) cpl) m)) lo hi
    ((hi - lo) * Rsum (tuples s) (fun l => Rsum (resonance_spins (b_decay b)) (fun J =>
       / IZR (J + 1) * Cmod (partial_wave (b_prod_helicity b) (b_dec_helicity b) (d_chains (b_decay b))
         (fun c r => (if uc then coefficient else coupling_product) (Env base cpl) (b_prod_helicity b)
                       (b_dec_helicity b) c r (at4 l k) (at4 l i) (at4 l j))
         (fun c => ceval (Env base cpl) (fun _ => 0%Z) (de_expr (dyn c))) (at4 l) i j k J) ^ 2)))%R.
Proof.
  intros D Dyn PR H One Cy Ind BT Rg.
  set (X := fun c => ceval (Env base cpl) (fun _ => 0) (de_expr (dyn c))).
  set (scal := fun (l : Z * Z * Z * Z) c r => (if uc then coefficient else coupling_product) (Env base cpl) (b_prod_helicity b)
                       (b_dec_helicity b) c r (at4 l k) (at4 l i) (at4 l j)).
  set (w := fun l J => partial_wave (b_prod_helicity b) (b_dec_helicity b) (d_chains (b_decay b)) (scal l) X (at4 l) i j k J).
  set (Js := resonance_spins (b_decay b)).
  assert (NDJ : NoDup Js) by apply NoDup_nodup.
  assert (HJ : forall c, In c (d_chains (b_decay b)) ->
    st_index (ch_spectator c) = k /\ In (p_spin (ch_resonance c)) Js).
  { intros c Hc. split; [apply One; auto|]. unfold Js, resonance_spins. rewrite nodup_In. apply in_map_iff. eauto. }
  assert (AV : forall x l, In l (tuples s) ->
    (Cmod (amp_value (at_point (m_variables m) (dalitz_line base i j k x) cpl) m k l) ^ 2 =
     Cmod (Csum Js (fun J => RtoC (wigner_d J (at4 l 0 + at4 l k) (at4 l i - at4 l j)
       (acos (line_N base i j k x / line_root base i j k))) * w l J)%C) ^ 2)%R).
  { intros x l Hl. apply tuples_In in Hl.
    destruct (amplitude_formula b s D dyn _ _ _ _ Dyn PR H l i j k Hl Cy (or_intror (one_in _ _ One)))
      as (_ & (th & T & G) & A). rewrite A. clear A.
    replace (Re (e_sym (at_point (m_variables m) (dalitz_line base i j k x) cpl) (theta_name i j)))
      with (acos (line_N base i j k x / line_root base i j k)).
    2:{ rewrite <- (line_theta base i j k Cy BT). unfold at_point. cbn [e_sym]. rewrite G, T. reflexivity. }
    rewrite (amplitude_waves _ _ _ _ _ _ _ _ _ _ _ Js NDJ HJ), Cmod_mult, Cmod_R, Rpow_mult_distr.
    rewrite pow2_abs. cbn [pow]. rewrite !Rmult_1_r.
    set (u := parity_sign (p_spin (s k) - at4 l k)). set (v := parity_sign (p_spin (s j) - at4 l j)).
    replace (u * v * (u * v))%R with ((u * u) * (v * v))%R by ring. unfold u, v. rewrite !parity_sign_sq, !Rmult_1_l.
    f_equal; f_equal; apply Csum_ext; intros J _; f_equal; unfold w, partial_wave; apply Csum_ext; intros c Hc;
      apply Csum_ext; intros r _.
    all: replace (ceval (at_point (m_variables m) (dalitz_line base i j k x) cpl) (fun _ => 0) (de_expr (dyn c)))
      with (X c); [destruct uc; reflexivity|].
    all: rewrite filter_In in Hc; destruct Hc as [Hc _]; unfold X; destruct (Dyn c Hc) as [_ LS];
      apply lineshape_eval; auto; intros y Hy Iy; unfold at_point; cbn [e_sym].
    all: rewrite (proj2 (dget_None y (m_variables m)))
      by (intros Hin; apply Hy; apply (variables_real b s D _ _ _ _ H y Hin)).
    all: destruct (Ind c Hc) as [N1 N2]; unfold dalitz_line.
    all: destruct (eqb y (sigma_at j)) eqn:E1; [apply (proj1 (Prelude.eqb_eq _ _)) in E1; rewrite E1 in Iy; contradiction|].
    all: destruct (eqb y (sigma_at i)) eqn:E2; [apply (proj1 (Prelude.eqb_eq _ _)) in E2; rewrite E2 in Iy; contradiction|reflexivity]. }
  eapply is_RInt_ext.
  { intros x _. rewrite (c92 b s _ _ _ _ k D H One). symmetry.
    unfold Re, RtoC; cbn [fst]. apply Rsum_ext. intros l Hl. apply AV. exact Hl. }
  rewrite <- Rsum_scal_l. apply is_RInt_Rsum. intros l _. fold (scal l).
  pose proof (line_integral base i j k Cy BT lo hi (fun z => (Cmod (Csum Js (fun J =>
    RtoC (wigner_d J (at4 l 0 + at4 l k) (at4 l i - at4 l j) (acos z)) * w l J)%C) ^ 2)%R) _ Rg
    (wave_integral Js (w l) _ _ NDJ (fun J => wave_zero _ _ _ _ _ (at4 l) i j k J))) as I.
  replace ((hi - lo) / 2 * (2 * Rsum Js (fun J => / IZR (J + 1) * Cmod (w l J) ^ 2)))%R
    with ((hi - lo) * Rsum Js (fun J => / IZR (J + 1) * Cmod (w l J) ^ 2))%R in I by field.
  exact I.
Qed.
(** ... for every line there is such a range *)
Lemma c94_range base i j k : cyclic i j k -> between_thresholds base i j k ->
  exists lo hi, (lo < hi)%R /\ dalitz_range base i j k lo hi.
Proof. intros Cy BT. apply line_range_ex; assumption. Qed.
