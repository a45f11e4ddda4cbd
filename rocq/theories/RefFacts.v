(** Independence of the intensity of the reference subsystem. *)
From Coq Require Import String ZArith QArith Qcanon Qreals List Bool Reals Lia Lra Permutation.
From Coquelicot Require Import Complex.
From Verif Require Import Prelude Spin Decay Expr Angles Sums Wigner CG CExpr SpecKin SpecDPD Builder
  SpinFacts DecayFacts AnglesFacts WignerFacts CExprFacts BuilderFacts ModelFacts.
Import ListNotations.
Local Open Scope string_scope.
Local Open Scope Z_scope.
Local Open Scope list_scope.

(** ** Orthogonal matrices preserve sums of squares *)
Lemma orthogonal_real {A} (L : list A) (U : A -> A -> R) (x : A -> R) (eqA : forall a b : A, {a = b} + {a <> b}) :
  NoDup L ->
  (forall m m', In m L -> In m' L -> Rsum L (fun l => U l m * U l m')%R = if eqA m m' then 1%R else 0%R) ->
  Rsum L (fun l => (Rsum L (fun m => U l m * x m) ^ 2)%R) = Rsum L (fun m => (x m ^ 2)%R).
Proof.
  intros ND O.
  rewrite (Rsum_ext _ _ (fun l => Rsum L (fun m => Rsum L (fun m' => x m * x m' * (U l m * U l m'))%R))).
  2:{ intros l _. cbn [pow]. rewrite Rmult_1_r, <- Rsum_scal_r. apply Rsum_ext. intros m _.
      rewrite <- Rsum_scal_l. apply Rsum_ext. intros m' _. ring. }
  rewrite Rsum_swap. apply Rsum_ext. intros m Hm. rewrite Rsum_swap.
  rewrite (Rsum_ext _ _ (fun m' => x m * x m' * (if eqA m m' then 1 else 0))%R).
  2:{ intros m' Hm'. rewrite Rsum_scal_l, O by auto. reflexivity. }
  rewrite (Rsum_single _ m); auto.
  - destruct (eqA m m); [ring|congruence].
  - intros m' _ N. destruct (eqA m m'); [congruence|ring].
Qed.
Lemma Cmod_sq z : (Cmod z ^ 2 = Re z ^ 2 + Im z ^ 2)%R.
Proof.
  unfold Cmod. rewrite pow2_sqrt; [destruct z; reflexivity|].
  apply Rplus_le_le_0_compat; apply pow2_ge_0.
Qed.
Lemma Csum_Re {A} (l : list A) f : Re (Csum l f) = Rsum l (fun x => Re (f x)).
Proof. induction l as [|a l IH]; [reflexivity|]. cbn [Csum Rsum]. rewrite <- IH. reflexivity. Qed.
Lemma Csum_Im {A} (l : list A) f : Im (Csum l f) = Rsum l (fun x => Im (f x)).
Proof. induction l as [|a l IH]; [reflexivity|]. cbn [Csum Rsum]. rewrite <- IH. reflexivity. Qed.
Lemma orthogonal_complex {A} (L : list A) (U : A -> A -> R) (v : A -> C) (eqA : forall a b : A, {a = b} + {a <> b}) :
  NoDup L ->
  (forall m m', In m L -> In m' L -> Rsum L (fun l => U l m * U l m')%R = if eqA m m' then 1%R else 0%R) ->
  Rsum L (fun l => (Cmod (Csum L (fun m => RtoC (U l m) * v m)%C) ^ 2)%R) = Rsum L (fun m => (Cmod (v m) ^ 2)%R).
Proof.
  intros ND O.
  rewrite (Rsum_ext _ (fun l => _) (fun l => Rsum L (fun m => U l m * Re (v m)) ^ 2 + Rsum L (fun m => U l m * Im (v m)) ^ 2)%R).
  2:{ intros l _. rewrite Cmod_sq, Csum_Re, Csum_Im. f_equal; f_equal; apply Rsum_ext; intros m _;
      destruct (v m); unfold Re, Im, Cmult, RtoC; simpl; ring. }
  rewrite Rsum_plus, !(orthogonal_real L U _ eqA) by auto. rewrite <- Rsum_plus. apply Rsum_ext.
  intros m _. rewrite Cmod_sq. reflexivity.
Qed.

Section Rotate.
  Variables (s : Z -> state) (ks : list Z) (A : Z -> Z * Z * Z * Z -> C) (z1 z2 : Z -> Z -> R) (eps : R).
  Variable (delta : Z -> R).
  Hypothesis (Eps : (eps * eps = 1)%R).
  Hypothesis (R0 : forall k, In k ks -> forall m m',
    wigner_d (p_spin (s 0)) m m' (z2 0 k) = (eps * wigner_d (p_spin (s 0)) m m' (delta 0%Z + z1 0%Z k))%R).
  Hypothesis (Ri : forall i k, In i [1; 2; 3] -> In k ks -> forall m m',
    wigner_d (p_spin (s i)) m m' (z2 i k) = wigner_d (p_spin (s i)) m m' (z1 i k + delta i)%R).

  Definition rot (l m : Z * Z * Z * Z) : R := alignment s delta l m.
  Lemma alignment_rot k l l' : In k ks ->
    alignment s (fun i => z2 i k) l l' =
      (eps * Rsum (tuples s) (fun m => rot l m * alignment s (fun i => z1 i k) m l'))%R.
  Proof.
    intros Hk. unfold rot, alignment. rewrite (R0 k Hk), !Ri by (simpl; auto).
    rewrite <- !wigner_d_group.
    rewrite tuples_product.
    set (F0 := fun x => (wigner_d (p_spin (s 0%Z)) (at4 l 0) x (delta 0%Z) * wigner_d (p_spin (s 0%Z)) x (at4 l' 0) (z1 0%Z k))%R).
    set (F1 := fun x => (wigner_d (p_spin (s 1%Z)) (at4 l' 1) x (z1 1%Z k) * wigner_d (p_spin (s 1%Z)) x (at4 l 1) (delta 1%Z))%R).
    set (F2 := fun x => (wigner_d (p_spin (s 2%Z)) (at4 l' 2) x (z1 2%Z k) * wigner_d (p_spin (s 2%Z)) x (at4 l 2) (delta 2%Z))%R).
    set (F3 := fun x => (wigner_d (p_spin (s 3%Z)) (at4 l' 3) x (z1 3%Z k) * wigner_d (p_spin (s 3%Z)) x (at4 l 3) (delta 3%Z))%R).
    rewrite (Rsum_ext _ _ (fun m => F0 (at4 m 0) * F1 (at4 m 1) * F2 (at4 m 2) * F3 (at4 m 3))%R)
      by (intros m _; unfold F0, F1, F2, F3; ring).
    rewrite product4_Rsum. unfold F0, F1, F2, F3. ring.
  Qed.
  Lemma tuples_NoDup : NoDup (tuples s).
  Proof. rewrite tuples_product. apply product4_NoDup; apply spin_range2_NoDup. Qed.
  Lemma rot_orthogonal m m' : In m (tuples s) -> In m' (tuples s) ->
    Rsum (tuples s) (fun l => rot l m * rot l m')%R = if eq_dec m m' then 1%R else 0%R.
  Proof.
    intros Hm Hm'. rewrite tuples_product in *. unfold rot, alignment.
    set (F0 := fun x => (wigner_d (p_spin (s 0%Z)) x (at4 m 0) (delta 0%Z) * wigner_d (p_spin (s 0%Z)) x (at4 m' 0) (delta 0%Z))%R).
    set (F1 := fun x => (wigner_d (p_spin (s 1%Z)) (at4 m 1) x (delta 1%Z) * wigner_d (p_spin (s 1%Z)) (at4 m' 1) x (delta 1%Z))%R).
    set (F2 := fun x => (wigner_d (p_spin (s 2%Z)) (at4 m 2) x (delta 2%Z) * wigner_d (p_spin (s 2%Z)) (at4 m' 2) x (delta 2%Z))%R).
    set (F3 := fun x => (wigner_d (p_spin (s 3%Z)) (at4 m 3) x (delta 3%Z) * wigner_d (p_spin (s 3%Z)) (at4 m' 3) x (delta 3%Z))%R).
    rewrite (Rsum_ext _ _ (fun l => F0 (at4 l 0) * F1 (at4 l 1) * F2 (at4 l 2) * F3 (at4 l 3))%R)
      by (intros l _; unfold F0, F1, F2, F3; ring).
    rewrite product4_Rsum. unfold F0, F1, F2, F3. rewrite wigner_d_orthogonal_l, !wigner_d_orthogonal_r.
    destruct m as [[[a0 a1] a2] a3], m' as [[[b0 b1] b2] b3]. cbn [at4].
    apply product4_In in Hm. destruct Hm as (H0 & H1 & H2 & H3).
    rewrite <- is_projection_In in H0, H1, H2, H3. rewrite H0, H1, H2, H3. cbn [andb].
    destruct (eq_dec (a0, a1, a2, a3) (b0, b1, b2, b3)) as [E|N].
    - inversion E; subst. rewrite !Z.eqb_refl. ring.
    - destruct (Z.eqb_spec a0 b0), (Z.eqb_spec a1 b1), (Z.eqb_spec a2 b2), (Z.eqb_spec a3 b3); try ring.
      exfalso. apply N. congruence.
  Qed.
  Lemma aligned_rot l : aligned_amplitude s ks A z2 l =
    (RtoC eps * Csum (tuples s) (fun m => RtoC (rot l m) * aligned_amplitude s ks A z1 m))%C.
  Proof.
    unfold aligned_amplitude.
    rewrite (Csum_ext (tuples s) (fun m => (RtoC (rot l m) * _)%C)
      (fun m => Csum (tuples s) (fun l' => Csum ks (fun k =>
        (A k l' * RtoC (rot l m * alignment s (fun i => z1 i k) m l')))%C))).
    2:{ intros m _. rewrite <- Csum_scal_l. apply Csum_ext. intros l' _. rewrite <- Csum_scal_l.
        apply Csum_ext. intros k _. rewrite RtoC_mult. ring. }
    rewrite (Csum_swap (tuples s) (tuples s)), <- Csum_scal_l. apply Csum_ext. intros l' _.
    rewrite (Csum_swap (tuples s) ks), <- Csum_scal_l. apply Csum_ext. intros k Hk.
    rewrite Csum_scal_l, Csum_RtoC, (alignment_rot k l l' Hk), RtoC_mult. ring.
  Qed.
  Lemma intensity_rot : intensity_value s ks A z2 = intensity_value s ks A z1.
  Proof.
    unfold intensity_value.
    rewrite <- (orthogonal_complex (tuples s) rot (aligned_amplitude s ks A z1) eq_dec tuples_NoDup rot_orthogonal).
    apply Rsum_ext. intros l _. rewrite aligned_rot, Cmod_mult, Cmod_R.
    replace (Rabs eps) with 1%R; [ring|].
    assert (E : (Rabs eps * Rabs eps = 1)%R) by (rewrite <- Rabs_mult, Eps; apply Rabs_R1).
    pose proof (Rabs_pos eps). nra.
  Qed.
End Rotate.

(** ** The alignment angles of a model *)
Lemma zeta_symbol_inj i k i' k' r : In i [0; 1; 2; 3] -> In i' [0; 1; 2; 3] -> In k [1; 2; 3] -> In k' [1; 2; 3] ->
  zeta_symbol i k r = zeta_symbol i' k' r -> i = i' /\ k = k'.
Proof.
  intros Hi Hi' Hk Hk' E. apply (f_equal sname) in E. cbn [sname zeta_symbol] in E.
  pose proof (f_equal (String.get 6) E) as E1. pose proof (f_equal (String.get 9) E) as E2.
  apply In_0123 in Hi, Hi'. apply In_123 in Hk, Hk'.
  destruct Hi as [->|[->|[->| ->]]], Hi' as [->|[->|[->| ->]]]; cbn in E1; try discriminate E1;
    (split; [reflexivity|]);
    destruct Hk as [->|[->| ->]], Hk' as [->|[->| ->]]; cbn in E2; try discriminate E2; reflexivity.
Qed.

Section Model.
  Variables (b : builder) (s : Z -> state).
  Hypothesis (D : std_decay (b_decay b) s).

  Lemma zeta_variable ref cl uc m r : formulate b ref cl uc = Ok m ->
    resolve_reference (b_decay b) ref = Ok r ->
    forall i k, In i [0; 1; 2; 3] -> In k (get_subsystem_ids (b_decay b)) -> p_spin (s i) <> 0 ->
    exists z, formulate_zeta_angle i k r = Ok (zeta_symbol i k r, z) /\
      dget (zeta_symbol i k r) (m_variables m) = Some z.
  Proof.
    intros H Hr0 i k Hi Hk Hs. destruct (formulate_inv b s D _ _ _ _ H)
      as (r' & ks & terms & zdefs & amps & vars & params & masses & inv & Hr & Hks & Ht & Hl & Hm & Hinv & E).
    assert (r' = r) by congruence. subst r'.
    assert (K : forall k, In k ks -> In k [1; 2; 3]).
    { intros k' Hk'. apply (ids_range b s D). apply (ids_123 b ks); auto. }
    destruct (aligned_terms_facts s r ks K _ _ _ Ht) as (_ & _ & Z1 & Z2 & _ & Z3 & Z4).
    rewrite <- (spin4_eq s) in Hs by auto.
    apply (ids_123 b ks k Hks) in Hk.
    destruct (Z1 i k Hk Hi Hs) as [z Hz]. exists z. split; auto.
    pose proof (Z2 i k Hk Hi Hs) as Hin. apply dget_In in Hin. destruct Hin as [z' Hz'].
    assert (ND : NoDup (dkeys zdefs)) by (apply Z4; constructor).
    rewrite E. cbn [m_variables]. rewrite dget_dupdate_nodup by auto. rewrite Hz'. f_equal.
    destruct (Z3 ks (incl_refl _) (fun x e Hx => ltac:(discriminate Hx)) _ _ Hz') as (i0 & k0 & Hi0 & Hk0 & _ & Eq & Fz).
    destruct (zeta_symbol_inj _ _ _ _ _ Hi Hi0 (K k Hk) (K k0 Hk0) Eq) as [<- <-]. congruence.
  Qed.
  (** no other variables *)
  Lemma variable_names ref cl uc m r : formulate b ref cl uc = Ok m ->
    resolve_reference (b_decay b) ref = Ok r ->
    forall x, In x (dkeys (m_variables m)) <->
      (exists i j k, cyclic i j k /\ x = theta_name i j /\
         In k (if b_all_subsystems b then [1; 2; 3] else get_subsystem_ids (b_decay b))) \/
      (exists i k, In i [0; 1; 2; 3] /\ In k (get_subsystem_ids (b_decay b)) /\ p_spin (s i) <> 0 /\
         x = zeta_symbol i k r).
  Proof.
    intros H Hr0 x. destruct (formulate_inv b s D _ _ _ _ H)
      as (r' & ks & terms & zdefs & amps & vars & params & masses & inv & Hr & Hks & Ht & Hl & Hm & Hinv & E).
    assert (r' = r) by congruence. subst r'.
    assert (K : forall k, In k ks -> In k [1; 2; 3]).
    { intros k' Hk'. apply (ids_range b s D). apply (ids_123 b ks); auto. }
    destruct (aligned_terms_facts s r ks K _ _ _ Ht) as (_ & _ & Z1 & Z2 & _ & Z3 & Z4).
    destruct (formulate_loop_facts b s D _ _ _ _ _ _ _ _ Hl) as (_ & _ & I3 & _).
    rewrite E. cbn [m_variables]. rewrite dupdate_keys, I3. split.
    - intros [[[]|(l & i & j & k & Hw & Cy & ->)]|Hz].
      + left. exists i, j, k. split; auto. split; auto. apply work_of_In in Hw. destruct Hw as [_ Hw].
        destruct (b_all_subsystems b); auto. apply (ids_123 b ks); auto.
      + right. apply dget_In in Hz. destruct Hz as [z' Hz'].
        destruct (Z3 ks (incl_refl _) (fun x e Hx => ltac:(discriminate Hx)) _ _ Hz') as (i0 & k0 & Hi0 & Hk0 & S0 & Eq & Fz).
        exists i0, k0. rewrite <- (spin4_eq s) by auto. repeat (split; auto). apply (ids_123 b ks); auto.
    - intros [(i & j & k & Cy & -> & Hk)|(i & k & Hi & Hk & Hs & ->)].
      + left. right.
        exists (- p_spin (s 0), - p_spin (s 1), - p_spin (s 2), - p_spin (s 3)), i, j, k. split; [|auto].
        apply work_of_In. split.
        * assert (X : forall i, In i [0; 1; 2; 3] -> In (- p_spin (s i)) (helicities (p_spin (s i)))).
          { intros n Hn. rewrite helicities_range. apply spin_range2_In. pose proof (sd_spin _ _ D n Hn).
            split; [lia|]. apply Z.even_spec. exists (p_spin (s n)). lia. }
          unfold helicity_tuple. repeat split; apply X; simpl; auto.
        * destruct (b_all_subsystems b); auto. apply (ids_123 b ks); auto.
      + right. rewrite <- (spin4_eq s) in Hs by auto. apply Z2; auto. apply (ids_123 b ks); auto.
  Qed.

  Lemma variables_real ref cl uc m : formulate b ref cl uc = Ok m ->
    forall x, In x (dkeys (m_variables m)) -> sassume x = AReal.
  Proof.
    intros H x Hx.
    destruct (formulate_inv b s D _ _ _ _ H)
      as (r & ks & terms & zdefs & amps & vars & params & masses & inv & Hr & _).
    apply (variable_names _ _ _ _ r H Hr) in Hx.
    destruct Hx as [(i & j & k & _ & -> & _)|(i & k & _ & _ & _ & ->)]; reflexivity.
  Qed.

  Definition kin (base : symbol -> C) : symbol -> R := fun x => Re (base x).

  Lemma zeta_at_point ref cl uc m r base cpl : formulate b ref cl uc = Ok m ->
    resolve_reference (b_decay b) ref = Ok r ->
    forall i k, In i [0; 1; 2; 3] -> In k (get_subsystem_ids (b_decay b)) -> p_spin (s i) <> 0 ->
    zeta_ids i k r /\
    Re (e_sym (at_point (m_variables m) base cpl) (zeta_symbol i k r)) = rv (kin base) (formulate_zeta_angle i k r).
  Proof.
    intros H Hr i k Hi Hk Hs. destruct (zeta_variable _ _ _ _ r H Hr i k Hi Hk Hs) as (z & Fz & Gz).
    split.
    - apply (ids_range b s D) in Hk.
      assert (Hi' : 0 <= i <= 3) by (simpl in Hi; lia). assert (Hk' : 1 <= k <= 3) by (simpl in Hk; lia).
      destruct (zeta_total i k r) as [(A & _)|[(N & _ & Er)|[(N & Ni & B & Er)|(N & _ & Er)]]]; auto; try congruence.
      unfold zeta_ids in *. lia.
    - unfold at_point. cbn [e_sym]. rewrite Gz, Fz. reflexivity.
  Qed.

  (** *** Equal amplitudes *)
  Lemma amp_value_same dyn uc ref1 cl1 m1 ref2 cl2 m2 base cpl :
    dynamics_of b dyn -> (b_prod_helicity b = false -> plain_resonances (b_decay b)) ->
    formulate b ref1 cl1 uc = Ok m1 -> formulate b ref2 cl2 uc = Ok m2 ->
    forall k l, In k (get_subsystem_ids (b_decay b)) -> helicity_tuple s l ->
      amp_value (at_point (m_variables m1) base cpl) m1 k l = amp_value (at_point (m_variables m2) base cpl) m2 k l.
  Proof.
    intros Dyn PR H1 H2 k l Hk Hl.
    destruct (cyclic_ex k (ids_range b s D k Hk)) as (i & j & Cy).
    destruct (amplitude_formula b s D dyn _ _ _ _ Dyn PR H1 l i j k Hl Cy (or_intror Hk)) as (_ & (t1 & T1 & G1) & A1).
    destruct (amplitude_formula b s D dyn _ _ _ _ Dyn PR H2 l i j k Hl Cy (or_intror Hk)) as (_ & (t2 & T2 & G2) & A2).
    rewrite A1, A2. clear A1 A2.
    assert (t1 = t2) by congruence. subst t2.
    assert (TH : e_sym (at_point (m_variables m1) base cpl) (theta_name i j)
               = e_sym (at_point (m_variables m2) base cpl) (theta_name i j)).
    { unfold at_point. cbn [e_sym]. rewrite G1, G2. reflexivity. }
    rewrite TH. unfold dpd_amplitude. apply Csum_ext. intros c Hc. apply Csum_ext. intros x Hx.
    destruct (subsystem_chains _ _ D k c Hc) as (Hc' & _ & _). destruct (Dyn c Hc') as [_ LS].
    assert (X : ceval (at_point (m_variables m1) base cpl) (fun _ => 0) (de_expr (dyn c))
              = ceval (at_point (m_variables m2) base cpl) (fun _ => 0) (de_expr (dyn c))).
    { apply lineshape_eval; auto. intros y Hy _. unfold at_point. cbn [e_sym].
      assert (N1 : dget y (m_variables m1) = None).
      { apply dget_None. intros Hin. apply Hy. apply (variables_real _ _ _ _ H1 y Hin). }
      assert (N2 : dget y (m_variables m2) = None).
      { apply dget_None. intros Hin. apply Hy. apply (variables_real _ _ _ _ H2 y Hin). }
      rewrite N1, N2. reflexivity. }
    rewrite X. destruct uc; reflexivity.
  Qed.

  Lemma intensity_amp_ext ks A A' z : (forall k l, In k ks -> helicity_tuple s l -> A k l = A' k l) ->
    intensity_value s ks A z = intensity_value s ks A' z.
  Proof.
    intros E. unfold intensity_value, aligned_amplitude. apply Rsum_ext. intros l _. f_equal. f_equal.
    apply Csum_ext. intros l' Hl'. apply Csum_ext. intros k Hk. rewrite E; auto. apply tuples_In; auto.
  Qed.

  (** theta-hat: the sum rule up to a full turn *)
  Lemma hat_rule env k r1 r2 : physical env -> nonsingular env ->
    1 <= k <= 3 -> 1 <= r1 <= 3 -> 1 <= r2 <= 3 -> exists n : Z,
    (n = 0 \/ ((n = 1 \/ n = -1) /\ k <> r1 /\ k <> r2 /\ r1 <> r2)) /\
    rv env (formulate_zeta_angle 0 k r2) =
      (rv env (formulate_zeta_angle 0 r1 r2) + rv env (formulate_zeta_angle 0 k r1) + IZR n * (2 * PI))%R.
  Proof.
    intros (p1 & p2 & p3 & P) N Hk H1 H2.
    pose proof (hat_turn _ _ _ _ _ _ _ (physical_facts _ _ _ _ P) (nonsing_of _ N)) as T.
    rewrite <- hat_31, <- hat_12, <- hat_23 in T.
    rewrite <- !zeta_rot0 in T by lia.
    assert (AS : forall j k, 1 <= j <= 3 -> 1 <= k <= 3 ->
      rv env (formulate_zeta_angle 0 j k) = (- rv env (formulate_zeta_angle 0 k j))%R).
    { intros. apply zeta_antisym; lia. }
    pose proof (AS 2 1 ltac:(lia) ltac:(lia)) as A12.
    pose proof (AS 1 3 ltac:(lia) ltac:(lia)) as A13.
    pose proof (AS 3 2 ltac:(lia) ltac:(lia)) as A23.
    pose proof (zeta_diag env 0 1 ltac:(lia) ltac:(lia)) as D1.
    pose proof (zeta_diag env 0 2 ltac:(lia) ltac:(lia)) as D2.
    pose proof (zeta_diag env 0 3 ltac:(lia) ltac:(lia)) as D3.
    clear AS P N.
    destruct (in123 k Hk) as [-> | [-> | ->]], (in123 r1 H1) as [-> | [-> | ->]], (in123 r2 H2) as [-> | [-> | ->]];
    first [ solve [exists 0; split; [auto|lra]]
          | solve [exists 1; split; [right; lia|lra]]
          | solve [exists (-1); split; [right; lia|lra]] ].
  Qed.
  Lemma wigner_d_turns j m m' x n : n = 0 \/ n = 1 \/ n = -1 ->
    wigner_d j m m' (x + IZR n * (2 * PI)) = ((if n =? 0 then 1 else (-1) ^ Z.to_nat j) * wigner_d j m m' x)%R.
  Proof.
    intros [->|[->| ->]].
    - rewrite Rmult_0_l, Rplus_0_r, Rmult_1_l. reflexivity.
    - rewrite Rmult_1_l, wigner_d_plus_2pi. reflexivity.
    - change (-1 =? 0) with false. cbv iota.
      pose proof (wigner_d_plus_2pi j m m' (x + IZR (-1) * (2 * PI))) as E.
      replace (x + IZR (-1) * (2 * PI) + 2 * PI)%R with x in E by ring. rewrite E.
      set (y := wigner_d j m m' _).
      assert (P : ((-1) ^ Z.to_nat j * (-1) ^ Z.to_nat j = 1)%R).
      { rewrite <- Rpow_mult_distr. replace (-1 * -1)%R with 1%R by ring. apply pow1. }
      rewrite <- Rmult_assoc, P. ring.
  Qed.
  Lemma spin0_any j m m' x y : j = 0 -> wigner_d j m m' x = wigner_d j m m' y.
  Proof.
    intros ->. destruct (is_projection 0 m) eqn:P; [|rewrite !wigner_d_out_l by auto; auto].
    destruct (is_projection 0 m') eqn:P'; [|rewrite !wigner_d_out_r by auto; auto].
    apply is_projection_In in P, P'. change (spin_range2 0) with [0] in *. destruct P as [<-|[]], P' as [<-|[]].
    rewrite !wigner_d_spin0. reflexivity.
  Qed.
  (** the reference that is used for state i *)
  Definition eff (r i : Z) : Z := if r =? 0 then i else r.
  Lemma eff_ok env i k r : In i [1; 2; 3] -> In k [1; 2; 3] -> zeta_ids i k r ->
    1 <= eff r i <= 3 /\ rv env (formulate_zeta_angle i k r) = rv env (formulate_zeta_angle i k (eff r i)).
  Proof.
    intros Hi Hk H. assert (1 <= i <= 3) by (simpl in Hi; lia). assert (1 <= k <= 3) by (simpl in Hk; lia).
    unfold eff. destruct (Z.eqb_spec r 0) as [->|N].
    - split; [lia|]. apply zeta_ref0; lia.
    - split; [|reflexivity]. unfold zeta_ids in H. lia.
  Qed.

  Theorem reference_independence dyn uc ref1 cl1 m1 r1 ref2 cl2 m2 r2 base cpl :
    dynamics_of b dyn -> (b_prod_helicity b = false -> plain_resonances (b_decay b)) ->
    formulate b ref1 cl1 uc = Ok m1 -> formulate b ref2 cl2 uc = Ok m2 ->
    resolve_reference (b_decay b) ref1 = Ok r1 -> resolve_reference (b_decay b) ref2 = Ok r2 ->
    turn_safe s r1 r2 (get_subsystem_ids (b_decay b)) ->
    physical (fun x => Re (base x)) -> nonsingular (fun x => Re (base x)) ->
    full_value (at_point (m_variables m1) base cpl) m1 = full_value (at_point (m_variables m2) base cpl) m2.
  Proof.
    intros Dyn PR H1 H2 Hr1 Hr2 TS Ph NS.
    destruct (intensity_formula b s D _ _ _ _ H1) as (r1' & ks & Hr1' & Hks & V1).
    destruct (intensity_formula b s D _ _ _ _ H2) as (r2' & ks' & Hr2' & Hks' & V2).
    assert (r1' = r1) by congruence. assert (r2' = r2) by congruence. assert (ks' = ks) by congruence.
    subst r1' r2' ks'. rewrite V1, V2. clear V1 V2. f_equal.
    assert (Kin : forall k, In k ks -> In k (get_subsystem_ids (b_decay b))).
    { intros k Hk. apply (ids_123 b ks); auto. }
    assert (K : forall k, In k ks -> In k [1; 2; 3]).
    { intros k' Hk'. apply (ids_range b s D). auto. }
    rewrite (intensity_amp_ext ks (amp_value (at_point (m_variables m1) base cpl) m1)
              (amp_value (at_point (m_variables m2) base cpl) m2))
      by (intros; eapply amp_value_same; eauto).
    symmetry.
    destruct ks as [|k0 ks0]; [reflexivity|]. set (ks := k0 :: ks0) in *.
    set (env := kin base).
    pose proof (fun i k Hi Hk Hs => zeta_at_point _ _ _ _ r1 base cpl H1 Hr1 i k Hi (Kin k Hk) Hs) as Z1.
    pose proof (fun i k Hi Hk Hs => zeta_at_point _ _ _ _ r2 base cpl H2 Hr2 i k Hi (Kin k Hk) Hs) as Z2.
    fold env in Z1, Z2.
    (* state 0 *)
    assert (R0 : exists eps delta, (eps * eps = 1)%R /\ forall k, In k ks -> forall mm m',
      wigner_d (p_spin (s 0)) mm m' (Re (e_sym (at_point (m_variables m2) base cpl) (zeta_symbol 0 k r2)))
      = (eps * wigner_d (p_spin (s 0)) mm m'
           (delta + Re (e_sym (at_point (m_variables m1) base cpl) (zeta_symbol 0 k r1))))%R).
    { destruct (Z.eq_dec (p_spin (s 0)) 0) as [E0|N0].
      { exists 1%R, 0%R. split; [ring|]. intros k Hk mm m'. rewrite Rmult_1_l. apply spin0_any; auto. }
      assert (RR : 1 <= r1 <= 3 /\ 1 <= r2 <= 3).
      { destruct (Z1 0 k0 ltac:(simpl; auto) (or_introl eq_refl) N0) as [A _].
        destruct (Z2 0 k0 ltac:(simpl; auto) (or_introl eq_refl) N0) as [B _].
        unfold zeta_ids in A, B. lia. }
      destruct RR as [RR1 RR2].
      assert (HR : forall k, In k ks -> exists n,
        (n = 0 \/ ((n = 1 \/ n = -1) /\ k <> r1 /\ k <> r2 /\ r1 <> r2)) /\ forall mm m',
        wigner_d (p_spin (s 0)) mm m' (Re (e_sym (at_point (m_variables m2) base cpl) (zeta_symbol 0 k r2)))
        = ((if (n =? 0)%Z then 1 else (-1) ^ Z.to_nat (p_spin (s 0%Z))) * wigner_d (p_spin (s 0%Z)) mm m'
             (rv env (formulate_zeta_angle 0 r1 r2)
              + Re (e_sym (at_point (m_variables m1) base cpl) (zeta_symbol 0 k r1))))%R).
      { intros k Hk. destruct (Z1 0 k ltac:(simpl; auto) Hk N0) as [_ ->].
        destruct (Z2 0 k ltac:(simpl; auto) Hk N0) as [_ ->].
        assert (1 <= k <= 3) by (specialize (K k Hk); simpl in K; lia).
        destruct (hat_rule env k r1 r2 Ph NS) as (n & Hn & E); auto.
        exists n. split; auto. intros mm m'. rewrite E. apply wigner_d_turns. tauto. }
      destruct TS as [Ev|[Sub|One]].
      - exists 1%R, (rv env (formulate_zeta_angle 0 r1 r2)). split; [ring|]. intros k Hk mm m'.
        destruct (HR k Hk) as (n & _ & E). rewrite E.
        replace ((-1) ^ Z.to_nat (p_spin (s 0)))%R with 1%R; [destruct (n =? 0); reflexivity|].
        rewrite (minus_one_pow_parity _ 0); [reflexivity|]. rewrite Nat.add_0_r.
        pose proof (sd_spin _ _ D 0 ltac:(simpl; auto)).
        apply Z.even_spec in Ev. destruct Ev as [q Hq]. rewrite Hq.
        replace (Z.to_nat (2 * q)) with (2 * Z.to_nat q)%nat by lia.
        rewrite Nat.even_mul. reflexivity.
      - exists 1%R, (rv env (formulate_zeta_angle 0 r1 r2)). split; [ring|]. intros k Hk mm m'.
        destruct (HR k Hk) as (n & Hn & E). rewrite E.
        destruct Hn as [->|(_ & Na & Nb & _)]; [reflexivity|]. destruct (Sub k (Kin k Hk)); contradiction.
      - destruct (HR k0 (or_introl eq_refl)) as (n & Hn & E).
        exists (if (n =? 0)%Z then 1 else (-1) ^ Z.to_nat (p_spin (s 0%Z)))%R, (rv env (formulate_zeta_angle 0 r1 r2)).
        split.
        + destruct (n =? 0); [ring|]. rewrite <- Rpow_mult_distr. replace (-1 * -1)%R with 1%R by ring. apply pow1.
        + intros k Hk mm m'. replace k with k0 by (apply One; auto; apply Kin; auto; left; auto). apply E. }
    destruct R0 as (eps & d0 & Eps & R0).
    set (dl := fun i => if i =? 0 then d0 else rv env (formulate_zeta_angle i (eff r1 i) (eff r2 i))).
    apply (intensity_rot s ks _ (fun i k => Re (e_sym (at_point (m_variables m1) base cpl) (zeta_symbol i k r1)))
      (fun i k => Re (e_sym (at_point (m_variables m2) base cpl) (zeta_symbol i k r2))) eps dl Eps).
    - intros k Hk mm m'. apply R0; auto.
    - intros i k Hi Hk mm m'.
      destruct (Z.eq_dec (p_spin (s i)) 0) as [E0|N0]; [apply spin0_any; auto|].
      destruct (Z1 i k (or_intror Hi) Hk N0) as [I1 ->]. destruct (Z2 i k (or_intror Hi) Hk N0) as [I2 ->].
      destruct (eff_ok env i k r1 Hi (K k Hk) I1) as [F1 ->]. destruct (eff_ok env i k r2 Hi (K k Hk) I2) as [F2 ->].
      unfold dl. destruct (Z.eqb_spec i 0) as [->|_]; [simpl in Hi; lia|].
      f_equal. apply zeta_cocycle; auto.
      + simpl in Hi; lia.
      + specialize (K k Hk). simpl in K; lia.
  Qed.
End Model.
