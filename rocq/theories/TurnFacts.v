(** What a change of the reference subsystem does for half-integer spin of the parent. *)
From Coq Require Import String ZArith QArith Qcanon Qreals List Bool Reals Lia Lra Permutation.
From Coquelicot Require Import Complex.
From Verif Require Import Prelude Spin Decay Expr Angles Sums Wigner CG CExpr SpecKin SpecDPD Builder
  SpinFacts DecayFacts AnglesFacts WignerFacts CExprFacts BuilderFacts ModelFacts RefFacts ChainProofs SpecTurn.
Import ListNotations.
Local Open Scope string_scope.
Local Open Scope Z_scope.
Local Open Scope list_scope.

(** Between three different subsystems it is a full turn. *)
Lemma hat_rule_exact env k r1 r2 : physical env -> nonsingular env ->
  1 <= k <= 3 -> 1 <= r1 <= 3 -> 1 <= r2 <= 3 -> exists n : Z,
  ((n = 0 /\ (k = r1 \/ k = r2 \/ r1 = r2)) \/ ((n = 1 \/ n = -1) /\ k <> r1 /\ k <> r2 /\ r1 <> r2)) /\
  rv env (formulate_zeta_angle 0 k r2) =
    (rv env (formulate_zeta_angle 0 r1 r2) + rv env (formulate_zeta_angle 0 k r1) + IZR n * (2 * PI))%R.
Proof.
  intros (p1 & p2 & p3 & P) N Hk H1 H2.
  pose proof (hat_turn _ _ _ _ _ _ _ (physical_facts _ _ _ _ P) (nonsing_of _ N)) as T.
  rewrite <- hat_31, <- hat_12, <- hat_23 in T.
  rewrite <- !zeta_rot0 in T by lia.
  assert (AS : forall j k, 1 <= j <= 3 -> 1 <= k <= 3 ->
    rv env (formulate_zeta_angle 0 j k) = (- rv env (formulate_zeta_angle 0 k j))%R).
  { intros. apply zeta_antisym; lia. }
  pose proof (AS 2 1 ltac:(lia) ltac:(lia)) as A12.
  pose proof (AS 1 3 ltac:(lia) ltac:(lia)) as A13.
  pose proof (AS 3 2 ltac:(lia) ltac:(lia)) as A23.
  pose proof (zeta_diag env 0 1 ltac:(lia) ltac:(lia)) as D1.
  pose proof (zeta_diag env 0 2 ltac:(lia) ltac:(lia)) as D2.
  pose proof (zeta_diag env 0 3 ltac:(lia) ltac:(lia)) as D3.
  clear AS P N.
  destruct (in123 k Hk) as [-> | [-> | ->]], (in123 r1 H1) as [-> | [-> | ->]], (in123 r2 H2) as [-> | [-> | ->]];
  first [ solve [exists 0; split; [left; lia|lra]]
        | solve [exists 1; split; [right; lia|lra]]
        | solve [exists (-1); split; [right; lia|lra]] ].
Qed.

(** Signs of amplitudes instead of signs of rotations *)
Lemma intensity_sign (s : Z -> state) ks A (z z' : Z -> Z -> R) (sg : Z -> R) :
  (forall k, In k ks -> forall m m', wigner_d (p_spin (s 0)) m m' (z' 0 k) = (sg k * wigner_d (p_spin (s 0%Z)) m m' (z 0%Z k))%R) ->
  (forall i k, In i [1; 2; 3] -> In k ks -> z' i k = z i k) ->
  intensity_value s ks A z' = intensity_value s ks (fun k l => RtoC (sg k) * A k l)%C z.
Proof.
  intros H0 Hi. unfold intensity_value, aligned_amplitude. apply Rsum_ext. intros l _. f_equal. f_equal.
  apply Csum_ext. intros l' _. apply Csum_ext. intros k Hk. unfold alignment.
  rewrite (H0 k Hk), !(fun i I => Hi i k I Hk) by (simpl; auto). rewrite !RtoC_mult. ring.
Qed.

Section Model.
  Variables (b : builder) (s : Z -> state).
  Hypothesis (D : std_decay (b_decay b) s).

  (** The amplitude is linear in the couplings of a subsystem. *)
  Lemma amp_value_sign dyn uc ref cl m base cpl cpl' (sg : Z -> R) :
    dynamics_of b dyn -> (b_prod_helicity b = false -> plain_resonances (b_decay b)) -> formulate b ref cl uc = Ok m ->
    (forall c h lk li lj, In c (d_chains (b_decay b)) ->
       (if uc then coefficient else coupling_product) (Env base cpl') (b_prod_helicity b) (b_dec_helicity b) c h lk li lj =
       (RtoC (sg (st_index (ch_spectator c)))
        * (if uc then coefficient else coupling_product) (Env base cpl) (b_prod_helicity b) (b_dec_helicity b) c h lk li lj)%C) ->
    forall k l, In k [1; 2; 3] -> helicity_tuple s l ->
      amp_value (Env base cpl') m k l = (RtoC (sg k) * amp_value (Env base cpl) m k l)%C.
  Proof.
    intros Y P F Co k l Hk Hl. destruct (cyclic_ex k Hk) as (i & j & Cy).
    rewrite !(amplitude_total b s dyn ref cl uc m D Y P F l i j k _ Hl Cy). unfold dpd_amplitude.
    rewrite <- Csum_scal_l. apply Csum_ext. intros c Ic. apply filter_In in Ic. destruct Ic as [Ic Ek].
    apply Z.eqb_eq in Ek.
    rewrite <- Csum_scal_l. apply Csum_ext. intros r _. cbn [e_sym].
    destruct (_ =? _); [|ring].
    rewrite (Co c r _ _ _ Ic), Ek.
    rewrite (lineshape_eval (Env base cpl') (Env base cpl) (fun _ => 0) (fun _ => 0) _ (proj2 (Y c Ic))) by auto.
    ring.
  Qed.

  Lemma c28_change dyn uc ref1 cl1 m1 r1 ref2 cl2 m2 r2 base cpl cpl' :
    dynamics_of b dyn -> (b_prod_helicity b = false -> plain_resonances (b_decay b)) ->
    formulate b ref1 cl1 uc = Ok m1 -> formulate b ref2 cl2 uc = Ok m2 ->
    resolve_reference (b_decay b) ref1 = Ok r1 -> resolve_reference (b_decay b) ref2 = Ok r2 ->
    physical (fun x => Re (base x)) -> nonsingular (fun x => Re (base x)) ->
    (forall c h lk li lj, In c (d_chains (b_decay b)) ->
       (if uc then coefficient else coupling_product) (Env base cpl') (b_prod_helicity b) (b_dec_helicity b) c h lk li lj =
       (RtoC (turn_sign s r1 r2 (st_index (ch_spectator c)))
        * (if uc then coefficient else coupling_product) (Env base cpl) (b_prod_helicity b) (b_dec_helicity b) c h lk li lj)%C) ->
    full_value (at_point (m_variables m2) base cpl) m2 = full_value (at_point (m_variables m1) base cpl') m1.
  Proof.
    intros Dyn PR H1 H2 Hr1 Hr2 Ph NS Co.
    destruct (intensity_formula b s D _ _ _ _ H1) as (r1' & ks & Hr1' & Hks & V1).
    destruct (intensity_formula b s D _ _ _ _ H2) as (r2' & ks' & Hr2' & Hks' & V2).
    assert (r1' = r1) by congruence. assert (r2' = r2) by congruence. assert (ks' = ks) by congruence.
    subst r1' r2' ks'. rewrite V1, V2. clear V1 V2. f_equal.
    assert (Kin : forall k, In k ks -> In k (get_subsystem_ids (b_decay b))).
    { intros k Hk. apply (ids_123 b ks); auto. }
    assert (K : forall k, In k ks -> In k [1; 2; 3]).
    { intros k' Hk'. apply (ids_range b s D). auto. }
    rewrite (intensity_amp_ext s ks (amp_value (at_point (m_variables m2) base cpl) m2)
              (amp_value (at_point (m_variables m1) base cpl) m1))
      by (intros; symmetry; eapply amp_value_same; eauto).
    rewrite (intensity_amp_ext s ks (amp_value (at_point (m_variables m1) base cpl') m1)
              (fun k l => RtoC (turn_sign s r1 r2 k) * amp_value (at_point (m_variables m1) base cpl) m1 k l)%C).
    2:{ intros k l Hk Hl. unfold at_point. apply (amp_value_sign dyn uc ref1 cl1 m1 _ cpl cpl' (turn_sign s r1 r2)); auto.
        intros c h lk li lj Ic. specialize (Co c h lk li lj Ic).
        destruct uc; exact Co. }
    set (env := kin base).
    pose proof (fun i k Hi Hk Hs => zeta_at_point b s D _ _ _ _ r1 base cpl H1 Hr1 i k Hi (Kin k Hk) Hs) as Z1.
    pose proof (fun i k Hi Hk Hs => zeta_at_point b s D _ _ _ _ r2 base cpl H2 Hr2 i k Hi (Kin k Hk) Hs) as Z2.
    fold env in Z1, Z2.
    set (z1 := fun i k => Re (e_sym (at_point (m_variables m1) base cpl) (zeta_symbol i k r1))).
    set (z2 := fun i k => Re (e_sym (at_point (m_variables m2) base cpl) (zeta_symbol i k r2))).
    change (fun i k => Re (e_sym (at_point (m_variables m1) base cpl') (zeta_symbol i k r1))) with z1.
    set (d0 := rv env (formulate_zeta_angle 0 r1 r2)).
    set (dl := fun i => if i =? 0 then d0 else rv env (formulate_zeta_angle i (eff r1 i) (eff r2 i))).
    set (z1' := fun i k => if i =? 0 then (z2 0%Z k - d0)%R else z1 i k).
    rewrite (intensity_rot s ks _ z1' z2 1%R dl ltac:(ring)).
    - apply intensity_sign.
      + intros k Hk mm m'. unfold z1'. cbn [Z.eqb].
        destruct (Z.eq_dec (p_spin (s 0)) 0) as [E0|N0].
        { unfold turn_sign. rewrite E0. cbn [Z.even orb]. rewrite Rmult_1_l. apply spin0_any; auto. }
        destruct (Z1 0 k ltac:(simpl; auto) Hk N0) as [A E1]. destruct (Z2 0 k ltac:(simpl; auto) Hk N0) as [B E2].
        assert (RR1 : 1 <= r1 <= 3) by (unfold zeta_ids in A; lia).
        assert (RR2 : 1 <= r2 <= 3) by (unfold zeta_ids in B; lia).
        assert (Hk3 : 1 <= k <= 3) by (specialize (K k Hk); simpl in K; lia).
        destruct (hat_rule_exact env k r1 r2 Ph NS Hk3 RR1 RR2) as (n & Hn & E).
        unfold z1, z2. rewrite E1, E2, E.
        match goal with |- wigner_d _ _ _ ?x = _ =>
          replace x with (rv env (formulate_zeta_angle 0 k r1) + IZR n * (2 * PI))%R by (unfold d0; ring) end.
        rewrite wigner_d_turns by lia. f_equal.
        unfold turn_sign. pose proof (sd_spin _ _ D 0 ltac:(simpl; auto)) as Hs0.
        destruct Hn as [[-> Eq]|[Hn (Na & Nb & Nc)]].
        * change (0 =? 0) with true. cbv iota.
          assert (T : (r1 =? r2) || (k =? r1) || (k =? r2) = true).
          { destruct Eq as [->|[->| ->]]; rewrite Z.eqb_refl, ?orb_true_r; reflexivity. }
          rewrite <- !orb_assoc in *. rewrite T, orb_true_r. reflexivity.
        * replace (n =? 0) with false by (symmetry; apply Z.eqb_neq; lia). cbv iota.
          rewrite (proj2 (Z.eqb_neq r1 r2) Nc), (proj2 (Z.eqb_neq k r1) Na), (proj2 (Z.eqb_neq k r2) Nb), !orb_false_r.
          destruct (Z.even (p_spin (s 0))) eqn:Ev.
          -- apply Z.even_spec in Ev. destruct Ev as [q Hq]. rewrite Hq.
             replace (Z.to_nat (2 * q)) with (2 * Z.to_nat q)%nat by lia. rewrite pow_1_even. reflexivity.
          -- assert (Od : Z.odd (p_spin (s 0)) = true) by (rewrite <- Z.negb_even, Ev; reflexivity).
             apply Z.odd_spec in Od. destruct Od as [q Hq]. rewrite Hq.
             replace (Z.to_nat (2 * q + 1)) with (S (2 * Z.to_nat q))%nat by lia. rewrite pow_1_odd. reflexivity.
      + intros i k Hi Hk. unfold z1'. destruct (Z.eqb_spec i 0) as [->|_]; [simpl in Hi; lia|reflexivity].
    - intros k Hk mm m'. rewrite Rmult_1_l. f_equal. unfold dl, z1'. cbn [Z.eqb]. ring.
    - intros i k Hi Hk mm m'.
      destruct (Z.eq_dec (p_spin (s i)) 0) as [E0|N0]; [apply spin0_any; auto|].
      assert (Ni : (i =? 0) = false) by (apply Z.eqb_neq; simpl in Hi; lia).
      unfold z1', z1, z2, dl. rewrite !Ni.
      destruct (Z1 i k (or_intror Hi) Hk N0) as [I1 ->]. destruct (Z2 i k (or_intror Hi) Hk N0) as [I2 ->].
      destruct (eff_ok env i k r1 Hi (K k Hk) I1) as [F1 ->]. destruct (eff_ok env i k r2 Hi (K k Hk) I2) as [F2 ->].
      f_equal. apply zeta_cocycle; auto.
      + simpl in Hi; lia.
      + specialize (K k Hk). simpl in K; lia.
  Qed.
End Model.
