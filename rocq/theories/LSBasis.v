(** The LS couplings of a vertex form an orthonormal basis of its helicity couplings. *)
From Coq Require Import ZArith QArith Qcanon List Bool Reals Arith Lra Lia Permutation.
From Verif Require Import Prelude Spin SpinFacts SpinProofs Sums Wigner CG WignerFacts CGFacts CGOrth CGComplete Decay SpecDPD.
From Verif Require Import CExprFacts ModelFacts.
Import ListNotations.
Local Open Scope R_scope.

Lemma cg_out j1 m1 j2 m2 J M : cg_couples j1 m1 j2 m2 J M = false -> cg j1 m1 j2 m2 J M = 0.
Proof. intros E. unfold cg. rewrite E. reflexivity. Qed.
Lemma cg_proj j1 m1 j2 m2 J M : cg j1 m1 j2 m2 J M <> 0 ->
  is_projection j1 m1 = true /\ is_projection j2 m2 = true /\ is_projection J M = true /\ (m1 + m2 = M)%Z /\ triangle j1 j2 J = true.
Proof.
  intros H. destruct (cg_couples j1 m1 j2 m2 J M) eqn:E; [|elim H; apply cg_out; exact E].
  unfold cg_couples in E. rewrite !andb_true_iff, Z.eqb_eq in E. tauto.
Qed.
Lemma cg_zero_l j1 m1 j2 m2 J M : is_projection J M = false -> cg j1 m1 j2 m2 J M = 0.
Proof. intros E. apply cg_out. unfold cg_couples. rewrite E, andb_false_r. reflexivity. Qed.
Lemma cg_zero_2 j1 m1 j2 m2 J M : is_projection j2 m2 = false -> cg j1 m1 j2 m2 J M = 0.
Proof. intros E. apply cg_out. unfold cg_couples. rewrite E, andb_false_r. reflexivity. Qed.
Lemma cg_zero_1 j1 m1 j2 m2 J M : is_projection j1 m1 = false -> cg j1 m1 j2 m2 J M = 0.
Proof. intros E. apply cg_out. unfold cg_couples. rewrite E. reflexivity. Qed.

(** All LS couplings of a vertex with (doubled) spins J, j1, j2 *)
Definition ls_all (J j1 j2 : Z) : list ls_coupling :=
  flat_map (fun S => map (fun L2 => LS (L2 / 2) S) (coupled S J)) (coupled j1 j2).
Definition physical_ls (J j1 j2 : Z) (c : ls_coupling) : Prop :=
  triangle j1 j2 (ls_S c) = true /\ triangle (2 * ls_L c) (ls_S c) J = true.
Lemma triangle_rot a b c : triangle a b c = triangle b c a.
Proof.
  apply eq_true_iff_eq. rewrite !triangle_spec.
  replace (b + c - a)%Z with (a + b - c + 2 * (c - a))%Z by lia. rewrite (Z.even_add (a + b - c)), Z.even_mul.
  simpl. destruct (Z.even (a + b - c)); simpl; intuition lia.
Qed.
Lemma even_parity J j1 j2 S L2 : Z.even (J + j1 + j2) = true -> triangle j1 j2 S = true -> triangle S J L2 = true ->
  exists L, L2 = (2 * L)%Z.
Proof.
  rewrite !triangle_spec. intros E [_ F] [_ G]. apply even_half in E, F, G.
  destruct E as [a Ha], F as [b Hb], G as [c Hc]. exists (a - b - c)%Z. lia.
Qed.
Lemma ls_all_In J j1 j2 c : Z.even (J + j1 + j2) = true -> In c (ls_all J j1 j2) <-> physical_ls J j1 j2 c.
Proof.
  intros E. unfold ls_all, physical_ls. rewrite in_flat_map. split.
  - intros (S & HS & H). apply in_map_iff in H. destruct H as (L2 & <- & H). cbn [ls_L ls_S].
    apply coupled_In in HS, H. split; [exact HS|].
    destruct (even_parity _ _ _ _ _ E HS H) as [L ->]. rewrite half_2. rewrite triangle_rot. exact H.
  - intros [H1 H2]. exists (ls_S c). rewrite coupled_In. split; [exact H1|]. apply in_map_iff.
    exists (2 * ls_L c)%Z. rewrite half_2, coupled_In, <- triangle_rot. destruct c. auto.
Qed.
Lemma ls_all_NoDup J j1 j2 : Z.even (J + j1 + j2) = true -> NoDup (ls_all J j1 j2).
Proof.
  intros E. unfold ls_all.
  assert (G : forall l, NoDup l -> (forall S, In S l -> triangle j1 j2 S = true) ->
    NoDup (flat_map (fun S => map (fun L2 => LS (L2 / 2) S) (coupled S J)) l)).
  { induction l as [|S l IH]; intros N H; [constructor|]. inversion_clear N. cbn [flat_map].
    apply NoDup_app2; [|apply IH; simpl in *; auto|].
    - assert (M : forall l', NoDup l' -> (forall x, In x l' -> exists L, x = (2 * L)%Z) -> NoDup (map (fun L2 => LS (L2 / 2) S) l')).
      { induction l' as [|x l' IH']; intros N' H'; [constructor|]. inversion_clear N'. cbn [map]. constructor.
        - rewrite in_map_iff. intros (y & Ey & Iy).
          destruct (H' x (or_introl eq_refl)) as [a ->], (H' y (or_intror Iy)) as [b ->].
          rewrite !half_2 in Ey. injection Ey as ->. contradiction.
        - apply IH'; simpl in *; auto. }
      apply M; [apply coupled_NoDup|]. intros x Hx. apply coupled_In in Hx.
      apply (even_parity J j1 j2 S x); auto. apply H. left. reflexivity.
    - intros c Hc1 Hc2. apply in_map_iff in Hc1. destruct Hc1 as (x & <- & _).
      apply in_flat_map in Hc2. destruct Hc2 as (S' & I' & Hc2). apply in_map_iff in Hc2. destruct Hc2 as (y & Ey & _).
      injection Ey as _ ->. contradiction. }
  apply G; [apply coupled_NoDup|]. intros S. apply coupled_In.
Qed.

(** ** Orthonormality *)
(** the orbital factor, with the permutation symmetry *)
Lemma orbital_factor J L S l : (0 <= J)%Z ->
  sqrt (IZR (2 * L + 1) / IZR (J + 1)) * cg (2 * L) 0 S l J l
  = (-1) ^ Z.to_nat ((S + l) / 2) * (cg_sign S J (2 * L) * cg S l J (0 - l) (2 * L) 0).
Proof.
  intros HJ.
  assert (P : 0 < IZR (J + 1)) by (apply IZR_lt; lia).
  assert (Q : sqrt (IZR (J + 1)) <> 0) by (apply Rgt_not_eq, sqrt_lt_R0; exact P).
  rewrite sqrt_div_alt by exact P.
  pose proof (cg_rotate (2 * L) 0 S l J l) as R. change (- 0)%Z with 0%Z in R.
  rewrite <- cg_swap. replace (0 - l)%Z with (- l)%Z by lia.
  apply (Rmult_eq_reg_l (sqrt (IZR (J + 1)))); [|exact Q].
  transitivity (sqrt (IZR (2 * L + 1)) * cg (2 * L) 0 S l J l); [field; exact Q|]. rewrite R. ring.
Qed.
Lemma orbital_orth J S L L' : (0 <= J)%Z -> (0 <= S)%Z -> triangle S J (2 * L) = true -> triangle S J (2 * L') = true ->
  Rsum (spin_range2 S) (fun l =>
    (sqrt (IZR (2 * L + 1) / IZR (J + 1)) * cg (2 * L) 0 S l J l)
    * (sqrt (IZR (2 * L' + 1) / IZR (J + 1)) * cg (2 * L') 0 S l J l)) = if (L =? L')%Z then 1 else 0.
Proof.
  intros HJ HS T T'.
  assert (P0 : forall L, triangle S J (2 * L) = true -> is_projection (2 * L) 0 = true).
  { intros l H. apply triangle_spec in H. apply is_projection_spec. rewrite Z.sub_0_r, Z.even_mul. split; [lia|reflexivity]. }
  transitivity (cg_sign S J (2 * L) * cg_sign S J (2 * L') *
    Rsum (spin_range2 S) (fun l => cg S l J (0 - l) (2 * L) 0 * cg S l J (0 - l) (2 * L') 0)).
  - rewrite <- Rsum_scal_l. apply Rsum_ext. intros l _. rewrite !orbital_factor by auto.
    assert (Sg : (-1) ^ Z.to_nat ((S + l) / 2) * (-1) ^ Z.to_nat ((S + l) / 2) = 1).
    { rewrite <- pow_add. replace (_ + _)%nat with (2 * Z.to_nat ((S + l) / 2))%nat by lia. apply pow_1_even. }
    match goal with |- ?s * ?a * (?s * ?b) = _ => transitivity (s * s * (a * b)); [ring|]; rewrite Sg; ring end.
  - rewrite cg_orthonormal by auto.
    destruct (Z.eqb_spec (2 * L) (2 * L')) as [E|E], (Z.eqb_spec L L') as [F|F]; try lia; [|ring].
    subst L'. rewrite cg_sign_sq. ring.
Qed.

Lemma spin_range2_opp j f : Rsum (spin_range2 j) f = Rsum (spin_range2 j) (fun m => f (- m)%Z).
Proof.
  rewrite <- (Rsum_map (spin_range2 j) Z.opp f). apply Rsum_perm, NoDup_Permutation.
  - apply spin_range2_NoDup.
  - apply FinFun.Injective_map_NoDup; [intros x y; lia|apply spin_range2_NoDup].
  - intros x. rewrite in_map_iff, <- is_projection_In. split.
    + intros H. exists (- x)%Z. rewrite <- is_projection_In, is_projection_opp. split; [lia|exact H].
    + intros (y & <- & H). rewrite is_projection_opp, is_projection_In. exact H.
Qed.
(** regrouping of a double sum by the sum of the two indices *)
Lemma sum_by_total j1 j2 (A : Z -> R) S S' : (0 <= j1)%Z -> (0 <= j2)%Z ->
  triangle j1 j2 S = true -> triangle j1 j2 S' = true ->
  Rsum (spin_range2 j1) (fun m1 => Rsum (spin_range2 j2) (fun m2 =>
     A (m1 + m2)%Z * (cg j1 m1 j2 m2 S (m1 + m2) * cg j1 m1 j2 m2 S' (m1 + m2))))
  = if (S =? S')%Z then Rsum (spin_range2 S) A else 0.
Proof.
  intros H1 H2 T T'.
  transitivity (Rsum (spin_range2 S) (fun M => A M *
     Rsum (spin_range2 j1) (fun m1 => cg j1 m1 j2 (M - m1) S M * cg j1 m1 j2 (M - m1) S' M))).
  - transitivity (Rsum (spin_range2 j1) (fun m1 => Rsum (spin_range2 S) (fun M =>
      A M * (cg j1 m1 j2 (M - m1) S M * cg j1 m1 j2 (M - m1) S' M)))).
    + apply Rsum_ext. intros m1 I1.
      transitivity (Rsum (spin_range2 j2) (fun m2 => Rsum (spin_range2 S) (fun M => 
        if (M =? m1 + m2)%Z then A M * (cg j1 m1 j2 m2 S M * cg j1 m1 j2 m2 S' M) else 0))).
      * apply Rsum_ext. intros m2 I2. symmetry. destruct (is_projection S (m1 + m2)) eqn:E.
        -- rewrite (Rsum_single _ (m1 + m2)%Z).
           ++ rewrite Z.eqb_refl. reflexivity.
           ++ apply spin_range2_NoDup.
           ++ apply is_projection_In. exact E.
           ++ intros x _ N. destruct (Z.eqb_spec x (m1 + m2)); [contradiction|reflexivity].
        -- rewrite (cg_zero_l j1 m1 j2 m2 S) by exact E. rewrite Rsum_zero; [ring|].
           intros x Ix. destruct (Z.eqb_spec x (m1 + m2)) as [->|]; [|reflexivity].
           apply is_projection_In in Ix. congruence.
      * rewrite Rsum_swap. apply Rsum_ext. intros M IM. destruct (is_projection j2 (M - m1)) eqn:E.
        -- rewrite (Rsum_single _ (M - m1)%Z).
           ++ replace (m1 + (M - m1))%Z with M by lia. rewrite Z.eqb_refl. reflexivity.
           ++ apply spin_range2_NoDup.
           ++ apply is_projection_In. exact E.
           ++ intros x _ N. destruct (Z.eqb_spec M (m1 + x)); [lia|reflexivity].
        -- rewrite (cg_zero_2 j1 m1 j2 (M - m1) S) by exact E. rewrite Rsum_zero; [ring|].
           intros x Ix. destruct (Z.eqb_spec M (m1 + x)) as [->|]; [|reflexivity].
           replace (m1 + x - m1)%Z with x in E by lia. apply is_projection_In in Ix. congruence.
    + rewrite Rsum_swap. apply Rsum_ext. intros M _. apply Rsum_scal_l.
  - destruct (Z.eqb_spec S S') as [<-|N].
    + apply Rsum_ext. intros M IM. apply is_projection_In in IM.
      rewrite cg_orthonormal by auto. rewrite Z.eqb_refl. ring.
    + apply Rsum_zero. intros M IM. apply is_projection_In in IM.
      destruct (is_projection S' M) eqn:E.
      * rewrite cg_orthonormal by auto. destruct (Z.eqb_spec S S'); [contradiction|ring].
      * rewrite Rsum_zero; [ring|]. intros m1 _. rewrite (cg_zero_l _ _ _ _ S' M) by exact E. ring.
Qed.
Lemma triangle_nonneg a b c : triangle a b c = true -> (0 <= c)%Z.
Proof. rewrite triangle_spec. lia. Qed.

Lemma ls_orthonormal J j1 j2 c c' : (0 <= J)%Z -> (0 <= j1)%Z -> (0 <= j2)%Z ->
  physical_ls J j1 j2 c -> physical_ls J j1 j2 c' ->
  Rsum (helicities j1) (fun l1 => Rsum (helicities j2) (fun l2 =>
    ls_factor J c j1 l1 j2 l2 * ls_factor J c' j1 l1 j2 l2)) = if eq_dec c c' then 1 else 0.
Proof.
  intros HJ H1 H2 [T1 T2] [T1' T2']. rewrite !helicities_range.
  destruct c as [L S], c' as [L' S']. cbn [ls_L ls_S] in *.
  transitivity (Rsum (spin_range2 j1) (fun m1 => Rsum (spin_range2 j2) (fun m2 =>
    (fun M => (sqrt (IZR (2 * L + 1) / IZR (J + 1)) * cg (2 * L) 0 S M J M)
     * (sqrt (IZR (2 * L' + 1) / IZR (J + 1)) * cg (2 * L') 0 S' M J M)) (m1 + m2)%Z
    * (cg j1 m1 j2 m2 S (m1 + m2) * cg j1 m1 j2 m2 S' (m1 + m2))))).
  - apply Rsum_ext. intros m1 _. rewrite spin_range2_opp. apply Rsum_ext. intros m2 _.
    unfold ls_factor. cbn [ls_L ls_S]. rewrite Z.opp_involutive. replace (m1 - - m2)%Z with (m1 + m2)%Z by lia. ring.
  - etransitivity; [apply (sum_by_total j1 j2 (fun M => (sqrt (IZR (2 * L + 1) / IZR (J + 1)) * cg (2 * L) 0 S M J M)
     * (sqrt (IZR (2 * L' + 1) / IZR (J + 1)) * cg (2 * L') 0 S' M J M)) S S'); auto|].
    destruct (Z.eqb_spec S S') as [<-|N].
    + rewrite orbital_orth; auto.
      * destruct (Z.eqb_spec L L'), (eq_dec (LS L S) (LS L' S)); congruence.
      * eapply triangle_nonneg; eauto.
      * rewrite <- triangle_rot. exact T2.
      * rewrite <- triangle_rot. exact T2'.
    + destruct (eq_dec (LS L S) (LS L' S')); congruence.
Qed.

(** ** Completeness *)
Lemma Rsum_flat_map {A B} (l : list A) (g : A -> list B) f : Rsum (flat_map g l) f = Rsum l (fun x => Rsum (g x) f).
Proof. induction l; simpl; auto. rewrite Rsum_app. congruence. Qed.
Lemma even_proj J S l : Z.even (J + l) = true -> Z.even (S + J) = true -> Z.even (S - l) = true.
Proof.
  intros A B. apply even_half in A, B. destruct A as [a A], B as [b B]. apply (even_diff _ (b - a)). lia.
Qed.
Lemma orbital_complete J S l l' : (0 <= J)%Z -> (0 <= S)%Z -> Z.even (S + J) = true ->
  is_projection J l = true -> is_projection J l' = true -> is_projection S l = true -> is_projection S l' = true ->
  Rsum (coupled S J) (fun L2 =>
    (sqrt (IZR (2 * (L2 / 2) + 1) / IZR (J + 1)) * cg (2 * (L2 / 2)) 0 S l J l)
    * (sqrt (IZR (2 * (L2 / 2) + 1) / IZR (J + 1)) * cg (2 * (L2 / 2)) 0 S l' J l')) = if (l =? l')%Z then 1 else 0.
Proof.
  intros HJ HS E P P' Q Q'.
  transitivity ((-1) ^ Z.to_nat ((S + l) / 2) * (-1) ^ Z.to_nat ((S + l') / 2) *
    Rsum (coupled S J) (fun L2 => cg S l J (0 - l) L2 0 * cg S l' J (0 - l') L2 0)).
  - rewrite <- Rsum_scal_l. apply Rsum_ext. intros L2 IL. apply coupled_In in IL.
    assert (X : exists L, L2 = (2 * L)%Z).
    { apply triangle_spec in IL. destruct IL as [_ IL]. apply even_half in IL, E. destruct IL as [a A], E as [b B].
      exists (b - a)%Z. lia. }
    destruct X as [L ->]. rewrite half_2, !orbital_factor by auto.
    pose proof (cg_sign_sq S J (2 * L)) as Sg.
    match goal with |- ?s * (?g * ?a) * (?t * (?g * ?b)) = _ => transitivity (s * t * (g * g) * (a * b)); [ring|]; rewrite Sg; ring end.
  - rewrite cg_complete; auto.
    + destruct (Z.eqb_spec l l') as [<-|]; [|ring]. rewrite <- pow_add.
      replace (_ + _)%nat with (2 * Z.to_nat ((S + l) / 2))%nat by lia. rewrite pow_1_even. ring.
    + replace (0 - l)%Z with (- l)%Z by lia. rewrite is_projection_opp. exact P.
    + replace (0 - l')%Z with (- l')%Z by lia. rewrite is_projection_opp. exact P'.
Qed.
Lemma proj_diff j1 j2 l1 l2 S : is_projection j1 l1 = true -> is_projection j2 l2 = true -> triangle j1 j2 S = true ->
  Z.even (S - (l1 - l2)) = true.
Proof.
  rewrite !is_projection_spec, triangle_spec. intros [_ A] [_ B] [_ C]. apply even_half in A, B, C.
  destruct A as [a A], B as [b B], C as [c C]. apply (even_diff _ (a + b - c + l2)). lia.
Qed.
Lemma ls_complete J j1 j2 l1 l2 l1' l2' : (0 <= J)%Z -> (0 <= j1)%Z -> (0 <= j2)%Z -> Z.even (J + j1 + j2) = true ->
  In l1 (helicities j1) -> In l2 (helicities j2) -> In l1' (helicities j1) -> In l2' (helicities j2) ->
  (Z.abs (l1 - l2) <= J)%Z -> (Z.abs (l1' - l2') <= J)%Z ->
  Rsum (ls_all J j1 j2) (fun c => ls_factor J c j1 l1 j2 l2 * ls_factor J c j1 l1' j2 l2')
  = if (Z.eqb l1 l1' && Z.eqb l2 l2')%bool then 1 else 0.
Proof.
  rewrite !helicities_range, <- !is_projection_In. intros HJ H1 H2 E P1 P2 P1' P2' A A'.
  unfold ls_all. rewrite Rsum_flat_map.
  assert (PJ : forall m1 m2, is_projection j1 m1 = true -> is_projection j2 m2 = true -> (Z.abs (m1 - m2) <= J)%Z -> is_projection J (m1 - m2) = true).
  { intros m1 m2 Q1 Q2 B. apply is_projection_spec. split; [lia|].
    apply is_projection_spec in Q1, Q2. destruct Q1 as [_ Q1], Q2 as [_ Q2]. apply even_half in Q1, Q2, E.
    destruct Q1 as [a Q1], Q2 as [b Q2], E as [c Q3]. apply (even_diff _ (c - j1 + a - b)). lia. }
  transitivity (Rsum (coupled j1 j2) (fun S => (if (l1 - l2 =? l1' - l2')%Z then 1 else 0) *
     (cg j1 l1 j2 (- l2) S (l1 - l2) * cg j1 l1' j2 (- l2') S (l1' - l2')))).
  - apply Rsum_ext. intros S IS. apply coupled_In in IS. rewrite Rsum_map. unfold ls_factor. cbn [ls_L ls_S].
    pose proof (triangle_nonneg _ _ _ IS) as HS.
    destruct (is_projection S (l1 - l2)) eqn:E1.
    2:{ rewrite Rsum_zero; [rewrite (cg_zero_l j1 l1 j2 (- l2)) by exact E1; ring|].
        intros x _. rewrite (cg_zero_l j1 l1 j2 (- l2)) by exact E1. ring. }
    destruct (is_projection S (l1' - l2')) eqn:E2.
    2:{ rewrite Rsum_zero; [rewrite (cg_zero_l j1 l1' j2 (- l2')) by exact E2; ring|].
        intros x _. rewrite (cg_zero_l j1 l1' j2 (- l2')) by exact E2. ring. }
    assert (EV : Z.even (S + J) = true).
    { apply triangle_spec in IS. destruct IS as [_ IS]. apply even_half in IS, E. destruct IS as [a IS], E as [b Eb].
      apply (even_diff _ (b - a)). lia. }
    rewrite <- (orbital_complete J S (l1 - l2) (l1' - l2')) by auto.
    rewrite <- Rsum_scal_r. apply Rsum_ext. intros L2 _. ring.
  - rewrite Rsum_scal_l. destruct (Z.eqb_spec (l1 - l2) (l1' - l2')) as [D|D].
    + rewrite Rmult_1_l. rewrite <- D.
      replace (- l2)%Z with (l1 - l2 - l1)%Z by lia. replace (- l2')%Z with (l1 - l2 - l1')%Z by lia.
      rewrite cg_complete; auto.
      * destruct (Z.eqb_spec l1 l1'), (Z.eqb_spec l2 l2'); simpl; try reflexivity; lia.
      * replace (l1 - l2 - l1)%Z with (- l2)%Z by lia. rewrite is_projection_opp. exact P2.
      * replace (l1 - l2 - l1')%Z with (- l2')%Z by lia. rewrite is_projection_opp. exact P2'.
    + destruct (Z.eqb_spec l1 l1'), (Z.eqb_spec l2 l2'); simpl; try ring. lia.
Qed.
