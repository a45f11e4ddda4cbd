(** Units of a model (proofs for C98) *)
From Coq Require Import String ZArith QArith Qcanon List Bool Reals Lia Lra Psatz Permutation.
From Coquelicot Require Import Complex.
From Verif Require Import Prelude AnglesFacts Spin Decay Expr Angles Sums Wigner CG CExpr SpecKin SpecDPD Builder SpecBuilder Dynamics
  SpecDynamics SpinFacts DecayFacts CExprFacts BuilderFacts ModelFacts RefFacts KinFacts AnglesProofs DynamicsProofs LineshapeFacts
  LineshapeProofs ChainProofs SpecObs SpecUnits.
Import ListNotations.
Local Open Scope Z_scope.

Lemma reval_on env env' e : (forall x, In x (rsyms e) -> env x = env' x) -> reval env e = reval env' e.
Proof.
  induction e; cbn [rsyms reval]; intros H; auto;
    try (rewrite IHe1, IHe2 by (intros; apply H, in_app_iff; auto); reflexivity);
    try (rewrite IHe by auto; reflexivity).
  - apply H. left. reflexivity.
  - rewrite IHe1, IHe2, IHe3 by (intros; apply H; rewrite !in_app_iff; auto). reflexivity.
Qed.
Definition invariant_names : list symbol := map mass_at [0; 1; 2; 3] ++ map sigma_at [1; 2; 3].
Definition sym_ok (r : res (symbol * rexpr)) : bool :=
  match r with Ok (_, e) => forallb (fun x => memb x invariant_names) (rsyms e) | Err _ => true end.
Lemma sym_ok_sound r s e : sym_ok r = true -> r = Ok (s, e) -> forall x, In x (rsyms e) -> In x invariant_names.
Proof. intros H -> x Hx. cbn in H. rewrite forallb_forall in H. apply memb_In. apply H. exact Hx. Qed.
Lemma angle_syms :
  (forall i j s e, formulate_scattering_angle i j = Ok (s, e) -> forall x, In x (rsyms e) -> In x invariant_names) /\
  (forall i j k s e, formulate_zeta_angle i j k = Ok (s, e) -> forall x, In x (rsyms e) -> In x invariant_names).
Proof.
  split; intros.
  - revert x H0. apply (sym_ok_sound _ s e) with (2 := H).
    destruct (ok_scattering_ids _ _ _ _ H) as (Hi & Hj & _). clear H.
    destruct (in123 i Hi) as [-> | [-> | ->]], (in123 j Hj) as [-> | [-> | ->]]; vm_compute; auto.
  - revert x H0. destruct (ok_zeta_ids _ _ _ _ _ H) as [Z| ->]; [|intros x []].
    apply (sym_ok_sound _ s e) with (2 := H). clear H.
    destruct Z as [(-> & Hj & Hk)|(Hi & Hj & Hk)].
    + destruct (in123 j Hj) as [-> | [-> | ->]], (in123 k Hk) as [-> | [-> | ->]]; vm_compute; auto.
    + assert (Hk' : k = 0 \/ k = 1 \/ k = 2 \/ k = 3) by lia.
      destruct (in123 i Hi) as [-> | [-> | ->]], (in123 j Hj) as [-> | [-> | ->]],
        Hk' as [-> | [-> | [-> | ->]]]; vm_compute; auto.
Qed.

Section Units.
  Variables (b : builder) (s : Z -> state) (dyn : chain -> defexpr) (ref : option Z) (cl uc : bool) (m : model).
  Hypothesis D : std_decay (b_decay b) s.
  Hypothesis Y : dynamics_of b dyn.
  Hypothesis P : b_prod_helicity b = false -> plain_resonances (b_decay b).
  Hypothesis F : formulate b ref cl uc = Ok m.
  Variables (t : R) (base base' : symbol -> C) (ed : bool).
  Hypothesis T0 : (0 < t)%R.
  Hypothesis U : in_units (b_decay b) t base base'.
  Hypothesis Un : uniform_dynamics (b_decay b) dyn ed.

  Lemma units_invariants x : In x invariant_names -> Re (base' x) = scale_units t (fun y => Re (base y)) x.
  Proof.
    destruct U as (M & S & _). intros H. 
    assert (S2 : forall a z, Re (RtoC a * z)%C = (a * Re z)%R) by (intros a z; destruct z; cbn; ring).
    cbn in H. repeat destruct H as [<-|H]; try destruct H;
      rewrite ?M, ?S by (cbn; tauto); rewrite S2; unfold scale_units; cbn; ring.
  Qed.
  Lemma units_angles x e : dget x (m_variables m) = Some e ->
    reval (fun y => Re (base' y)) e = reval (fun y => Re (base y)) e.
  Proof.
    intros G. destruct (c18 t (fun y => Re (base y)) T0) as (C1 & _ & C3). destruct angle_syms as (A1 & A3).
    destruct (formulate_inv b s D _ _ _ _ F)
      as (r & ks & terms & zdefs & amps & vars & params & masses & inv & Hr & _).
    assert (K : In x (dkeys (m_variables m))) by (apply dget_In; eauto).
    apply (variable_names b s D _ _ _ _ r F Hr) in K.
    destruct K as [(i & j & k & Cy & -> & Hk)|(i & k & Hi & Hk & Sp & ->)].
    - destruct (tuples s) as [|l ls] eqn:Et; [destruct (OccFacts.tuples_nonempty _ s D Et)|].
      assert (Hl : helicity_tuple s l) by (apply tuples_In; rewrite Et; left; reflexivity).
      destruct (amplitude_formula b s D dyn ref cl uc m Y P F l i j k Hl Cy) as (_ & (th & Fth & Gth) & _).
      { destruct (b_all_subsystems b); auto. }
      rewrite G in Gth. inversion Gth; subst th. rewrite <- (C1 _ _ _ _ Fth).
      apply reval_on. intros y Hy. apply units_invariants. exact (A1 _ _ _ _ Fth y Hy).
    - destruct (zeta_variable b s D _ _ _ _ r F Hr i k Hi Hk Sp) as (z & Fz & Gz).
      rewrite G in Gz. inversion Gz; subst z. rewrite <- (C3 _ _ _ _ _ Fz).
      apply reval_on. intros y Hy. apply units_invariants. exact (A3 _ _ _ _ _ Fz y Hy).
  Qed.
  Variable cpl : string -> list ival -> C.
  Notation ev := (at_point (m_variables m) base cpl).
  Notation ev' := (at_point (m_variables m) base' cpl).
  Lemma units_variable x : In x (dkeys (m_variables m)) -> e_sym ev' x = e_sym ev x.
  Proof.
    intros K. apply dget_In in K. destruct K as [e G]. unfold at_point. cbn [e_sym]. rewrite G. rewrite (units_angles x e G). reflexivity.
  Qed.
  Lemma units_param bs x : sassume x = ANonneg -> e_sym (at_point (m_variables m) bs cpl) x = bs x.
  Proof.
    intros Hx. unfold at_point. cbn [e_sym]. destruct (dget x (m_variables m)) as [v|] eqn:Gy; [|reflexivity].
    assert (K : In x (dkeys (m_variables m))) by (apply dget_In; eauto).
    apply (variables_real b s D _ _ _ _ F) in K. congruence.
  Qed.
  Definition unit_factor : R := if ed then 1%R else (/ (t * t))%R.
  Lemma units_lineshape c : In c (d_chains (b_decay b)) ->
    ceval ev' (fun _ => 0) (de_expr (dyn c)) = (RtoC unit_factor * ceval ev (fun _ => 0) (de_expr (dyn c)))%C.
  Proof.
    intros Hc. destruct (Un c Hc) as [(E & ->)|(w & p0 & r & a & b' & k & i & j & Ph & E & Iso & Hed & Dff)].
    - unfold unit_factor. rewrite E. cbn [de_expr CNum ceval]. ring.
    - unfold unit_factor. rewrite <- Hed.
      apply (c37_scaling w c p0 r a b' k i j (dyn c) two_body_phsp ev ev' (fun _ => 0) t T0).
      + rewrite Ph. exact phase_space_factor_value.
      + intros. apply two_body_phsp_scale. exact T0.
      + exact Iso.
      + exact E.
      + exact Dff.
      + destruct U as (M & S & R). destruct (R c p0 r a b' k i j Hc Iso) as (R1 & R2 & R3 & R4).
        destruct Iso as (_ & I0 & Pm).
        assert (In3 : forall x, In x [a; b'; k] -> In (st_index x) [1; 2; 3]).
        { intros x Hx. apply (Permutation_in _ Pm). apply (in_map st_index) in Hx. exact Hx. }
        assert (OM : forall x : state, In (st_index x) [0; 1; 2; 3] -> base' (outer_mass x) = (RtoC t * base (outer_mass x))%C).
        { intros x Hx. exact (M _ Hx). }
        split; [|split].
        * rewrite !units_param by reflexivity. exact (S _ (In3 k ltac:(cbn; tauto))).
        * intros x Hx. assert (Hn : sassume x = ANonneg) by (cbn in Hx; repeat destruct Hx as [<-|Hx]; try destruct Hx; reflexivity).
          rewrite !units_param by exact Hn.
          cbn in Hx. repeat destruct Hx as [<-|Hx]; try destruct Hx; auto;
            apply OM; [rewrite I0; cbn; tauto| right; apply In3; cbn; tauto ..].
        * intros x Hx. assert (Hn : sassume x = ANonneg) by (cbn in Hx; repeat destruct Hx as [<-|Hx]; try destruct Hx; reflexivity).
          rewrite !units_param by exact Hn. cbn in Hx. repeat destruct Hx as [<-|Hx]; try destruct Hx; auto.
  Qed.
  Lemma units_amplitude k l : In k (get_subsystem_ids (b_decay b)) -> helicity_tuple s l ->
    amp_value ev' m k l = (RtoC unit_factor * amp_value ev m k l)%C.
  Proof.
    intros Hk Hl. destruct (cyclic_ex k (ids_range b s D k Hk)) as (i & j & Cy).
    rewrite !(amplitude_total b s dyn ref cl uc m D Y P F l i j k _ Hl Cy). unfold dpd_amplitude.
    destruct (formulate_inv b s D _ _ _ _ F)
      as (r & ks & terms & zdefs & amps & vars & params & masses & inv & Hr & _).
    assert (TH : e_sym ev' (theta_name i j) = e_sym ev (theta_name i j)).
    { apply units_variable. apply (variable_names b s D _ _ _ _ r F Hr). left. exists i, j, k. split; [exact Cy|]. split; [reflexivity|].
      destruct (b_all_subsystems b); [|exact Hk]. exact (ids_range b s D k Hk). }
    rewrite TH. rewrite <- Csum_scal_l. apply Csum_ext. intros c Hc. apply filter_In in Hc. destruct Hc as [Hc _].
    rewrite <- Csum_scal_l. apply Csum_ext. intros h _. rewrite (units_lineshape c Hc). cbn [e_idx at_point].
    change (if uc then coefficient else coupling_product) with (if uc then coefficient else coupling_product).
    destruct (_ =? _); [|ring]. destruct uc; unfold coefficient, coupling_product; cbn [e_idx at_point]; ring.
  Qed.
  Theorem units_intensity : full_value ev' m = (RtoC (unit_factor * unit_factor) * full_value ev m)%C.
  Proof.
    destruct (intensity_formula b s D _ _ _ _ F) as (r & ks & Hr & Hks & V). rewrite !V. rewrite <- RtoC_mult. f_equal.
    unfold intensity_value. rewrite <- Rsum_scal_l. apply Rsum_ext. intros l Hl.
    assert (Kin : forall k, In k ks -> In k (get_subsystem_ids (b_decay b))) by (intros k Hk; apply (ids_123 b ks k Hks); auto).
    replace (unit_factor * unit_factor)%R with (Cmod (RtoC unit_factor) ^ 2)%R.
    2:{ rewrite Cmod_R. cbn [pow]. rewrite Rmult_1_r, <- Rabs_mult. apply Rabs_pos_eq. apply Rle_0_sqr. }
    rewrite <- Rpow_mult_distr, <- Cmod_mult. f_equal. f_equal. unfold aligned_amplitude.
    rewrite <- Csum_scal_l. apply Csum_ext. intros l' Hl'. apply tuples_In in Hl'.
    rewrite <- Csum_scal_l. apply Csum_ext. intros k Hk. rewrite (units_amplitude k l' (Kin k Hk) Hl').
    assert (AL : alignment s (fun i => Re (e_sym ev' (zeta_symbol i k r))) l l' = alignment s (fun i => Re (e_sym ev (zeta_symbol i k r))) l l').
    { assert (W : forall i a b, In i [0; 1; 2; 3] -> In a (helicities (p_spin (s i))) -> In b (helicities (p_spin (s i))) ->
        wigner_d (p_spin (s i)) a b (Re (e_sym ev' (zeta_symbol i k r))) = wigner_d (p_spin (s i)) a b (Re (e_sym ev (zeta_symbol i k r)))).
      { intros i a b0 Hi Ha Hb. destruct (Z.eq_dec (p_spin (s i)) 0) as [E|N].
        - rewrite E in *. destruct Ha as [<-|[]], Hb as [<-|[]]. rewrite !WignerFacts.wigner_d_spin0. reflexivity.
        - f_equal. f_equal. apply units_variable. apply (variable_names b s D _ _ _ _ r F Hr). right. exists i, k. auto. }
      apply tuples_In in Hl. destruct l as [[[l0 l1] l2] l3], l' as [[[k0 k1] k2] k3].
      destruct Hl as (L0 & L1 & L2 & L3), Hl' as (K0 & K1 & K2 & K3). unfold alignment. cbn [at4] in *.
      rewrite !W by (cbn; tauto). reflexivity. }
    rewrite AL. ring.
  Qed.
End Units.

Theorem c98 b s dyn ref cl uc m t base base' ed cpl : std_decay (b_decay b) s -> dynamics_of b dyn ->
  (b_prod_helicity b = false -> plain_resonances (b_decay b)) -> formulate b ref cl uc = Ok m ->
  (0 < t)%R -> in_units (b_decay b) t base base' -> uniform_dynamics (b_decay b) dyn ed ->
  full_value (at_point (m_variables m) base' cpl) m =
  (RtoC (if ed then 1 else / (t * t * (t * t))) * full_value (at_point (m_variables m) base cpl) m)%C.
Proof.
  intros D Y P F T U Un. rewrite (units_intensity b s dyn ref cl uc m D Y P F t base base' ed T U Un cpl).
  f_equal. f_equal. unfold unit_factor. destruct ed; field. lra.
Qed.
