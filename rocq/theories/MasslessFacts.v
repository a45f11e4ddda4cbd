(** Massless final states (C135) *)
From Coq Require Import String ZArith QArith Qcanon List Bool Reals Lia Lra Permutation.
From Coquelicot Require Import Complex.
From Verif Require Import Prelude Spin Decay Expr Angles Sums Wigner CG CExpr SpecKin SpecDPD Builder
  SpinFacts DecayFacts KinFacts AnglesFacts AnglesProofs WignerFacts CExprFacts BuilderFacts ModelFacts RefFacts LSBasis ChainProofs SpecWigner WignerFrames
  CGRotation SpecMassless.
Import ListNotations.
Local Open Scope R_scope.

(** ** The angles *)
Lemma acos_pos_1 n a b : 0 < a -> 0 < b -> n = a * b -> acos (n / (sqrt (a * a) * sqrt (b * b))) = 0.
Proof. intros A B ->. rewrite !sqrt_square by lra. replace (a * b / (a * b)) with 1 by (field; lra). apply acos_1. Qed.
Lemma sq_pos a : 0 <= a -> 0 < a * a -> 0 < a.
Proof. intros A B. destruct (Req_dec a 0) as [->|N]; lra. Qed.
Lemma z0_massless x0 xb sa sb sc : 0 <= x0 - sa -> 0 <= sc - xb ->
  0 < kallen x0 0 sa -> 0 < kallen sc 0 xb -> z0_ x0 0 xb sa sb sc = 0.
Proof.
  intros A B K1 K2. unfold z0_.
  assert (E1 : kallen x0 0 sa = (x0 - sa) * (x0 - sa)) by (unfold kallen; ring).
  assert (E2 : kallen sc 0 xb = (sc - xb) * (sc - xb)) by (unfold kallen; ring).
  rewrite E1, E2 in *. apply sq_pos in K1, K2; try assumption. apply acos_pos_1; try assumption. unfold n_zeta0. ring.
Qed.
Lemma z_massless xb xc sa sb sc : 0 <= sb - xc -> 0 <= sc - xb -> 0 < kallen sb xc 0 -> 0 < kallen sc 0 xb -> z_ 0 xb xc sa sb sc = 0.
Proof.
  intros A B K1 K2. unfold z_.
  assert (E1 : kallen sb xc 0 = (sb - xc) * (sb - xc)) by (unfold kallen; ring).
  assert (E2 : kallen sc 0 xb = (sc - xb) * (sc - xb)) by (unfold kallen; ring).
  rewrite E1, E2 in *. apply sq_pos in K1, K2; try assumption. apply acos_pos_1; try assumption. unfold n_zeta. ring.
Qed.

Lemma zeta_base env : physical env -> nonsingular env ->
  (at_m1 env = 0 -> rv env (formulate_zeta_angle 1 1 3) = 0 /\ rv env (formulate_zeta_angle 1 2 1) = 0 /\ rv env (formulate_zeta_angle 1 2 3) = 0) /\
  (at_m2 env = 0 -> rv env (formulate_zeta_angle 2 2 1) = 0 /\ rv env (formulate_zeta_angle 2 3 2) = 0 /\ rv env (formulate_zeta_angle 2 3 1) = 0) /\
  (at_m3 env = 0 -> rv env (formulate_zeta_angle 3 3 2) = 0 /\ rv env (formulate_zeta_angle 3 1 3) = 0 /\ rv env (formulate_zeta_angle 3 1 2) = 0).
Proof.
  intros (p1 & p2 & p3 & P) (N1 & N2 & N3 & N4 & N5 & N6). destruct (phys_pos _ _ _ _ P) as ((A1 & A2 & A3) & (B1 & B2 & B3) & _).
  rewrite z_113, z_121, z_123, z_221, z_232, z_231, z_332, z_313, z_312.
  split; [|split]; intros E; rewrite E in *; rewrite Rmult_0_l in *;
    repeat split; first [apply z0_massless | apply z_massless]; try lra; rewrite kallen_swap; assumption.
Qed.
Lemma zeta_massless env i j k : physical env -> nonsingular env -> (1 <= i <= 3)%Z -> (1 <= j <= 3)%Z -> (0 <= k <= 3)%Z -> mass_at env i = 0 ->
  rv env (formulate_zeta_angle i j k) = 0.
Proof.
  intros PH NS Hi Hj Hk M.
  assert (C : forall k, (1 <= k <= 3)%Z -> rv env (formulate_zeta_angle i j k) = 0).
  { clear k Hk. intros k Hk. destruct (zeta_base env PH NS) as (Z1 & Z2 & Z3).
    destruct (in123 i Hi) as [-> | [-> | ->]]; [specialize (Z1 M); destruct Z1 as (Z1 & Z2' & Z3')|specialize (Z2 M); destruct Z2 as (Z1' & Z2' & Z3')|specialize (Z3 M); destruct Z3 as (Z1' & Z2' & Z3')];
    destruct (in123 j Hj) as [-> | [-> | ->]], (in123 k Hk) as [-> | [-> | ->]]; try assumption; try (apply zeta_diag; lia);
      rewrite zeta_antisym by lia; first [rewrite Z1|rewrite Z1'|idtac]; try lra; first [rewrite Z2'|idtac]; try lra; rewrite Z3'; lra. }
  destruct (Z.eq_dec k 0) as [->|N]; [rewrite zeta_ref0 by assumption|]; apply C; lia.
Qed.

(** ** The intensity *)
Section Intensity.
  Variables (s : Z -> state) (ks : list Z) (A : Z -> Z * Z * Z * Z -> C) (zeta : Z -> Z -> R) (n : Z).
  Hypothesis Hn : (1 <= n <= 3)%Z.
  Hypothesis Z0 : forall k, In k ks -> p_spin (s n) <> 0%Z -> zeta n k = 0.
  Lemma tuple_at l : In l (tuples s) -> In (at4 l n) (helicities (p_spin (s n))).
  Proof.
    intros H. apply tuples_In in H. destruct l as [[[l0 l1] l2] l3]. unfold helicity_tuple in H.
    destruct (in123 n Hn) as [-> | [-> | ->]]; cbn [at4]; tauto.
  Qed.
  Lemma alignment_diagonal k l l' : In k ks -> In l (tuples s) -> In l' (tuples s) -> at4 l' n <> at4 l n -> alignment s (fun i => zeta i k) l l' = 0.
  Proof.
    intros Hk Hl Hl' N.
    assert (E : wigner_d (p_spin (s n)) (at4 l' n) (at4 l n) (zeta n k) = 0).
    { destruct (Z.eq_dec (p_spin (s n)) 0) as [S0|S0].
      - apply tuple_at in Hl, Hl'. rewrite S0 in Hl, Hl'. change (helicities 0) with [0%Z] in Hl, Hl'. simpl in Hl, Hl'. lia.
      - rewrite (Z0 k Hk S0), wigner_d_0. rewrite (proj2 (Z.eqb_neq _ _) N), andb_false_r. reflexivity. }
    unfold alignment. destruct (in123 n Hn) as [E1 | [E1 | E1]]; rewrite E1 in E; rewrite E; ring.
  Qed.
  Definition part (h : Z) : R := Rsum (tuples s) (fun l => if Z.eqb (at4 l n) h then Cmod (aligned_amplitude s ks A zeta l) ^ 2 else 0).
  Lemma part_pos h : 0 <= part h.
  Proof. apply Rsum_nonneg. intros l _. destruct (Z.eqb _ _); [apply pow2_ge_0|lra]. Qed.
  Lemma restricted_aligned A' H l : In l (tuples s) ->
    (forall k l', In k ks -> In l' (tuples s) -> A' k l' = if in_dec Z.eq_dec (at4 l' n) H then A k l' else RtoC 0) ->
    aligned_amplitude s ks A' zeta l = if in_dec Z.eq_dec (at4 l n) H then aligned_amplitude s ks A zeta l else RtoC 0.
  Proof.
    intros Hl HA. unfold aligned_amplitude.
    assert (T : forall l' k, In l' (tuples s) -> In k ks -> (A' k l' * RtoC (alignment s (fun i => zeta i k) l l')
      = if in_dec Z.eq_dec (at4 l n) H then A k l' * RtoC (alignment s (fun i => zeta i k) l l') else RtoC 0)%C).
    { intros l' k Hl' Hk. rewrite HA by assumption. destruct (Z.eq_dec (at4 l' n) (at4 l n)) as [->|N].
      - destruct (in_dec Z.eq_dec (at4 l n) H); [reflexivity|ring].
      - rewrite (alignment_diagonal k l l' Hk Hl Hl' N). destruct (in_dec Z.eq_dec (at4 l n) H); ring. }
    destruct (in_dec Z.eq_dec (at4 l n) H).
    - apply Csum_ext. intros l' Hl'. apply Csum_ext. intros k Hk. rewrite T by assumption. reflexivity.
    - apply Csum_zero. intros l' Hl'. apply Csum_zero. intros k Hk. rewrite T by assumption. reflexivity.
  Qed.
  Lemma restricted_intensity A' H :
    (forall k l', In k ks -> In l' (tuples s) -> A' k l' = if in_dec Z.eq_dec (at4 l' n) H then A k l' else RtoC 0) ->
    intensity_value s ks A' zeta = Rsum (filter (fun h => if in_dec Z.eq_dec h H then true else false) (helicities (p_spin (s n)))) part.
  Proof.
    intros HA. unfold intensity_value, part. rewrite Rsum_swap. apply Rsum_ext. intros l Hl. rewrite (restricted_aligned A' H l Hl HA).
    pose proof (tuple_at l Hl) as I.
    assert (ND : NoDup (filter (fun h => if in_dec Z.eq_dec h H then true else false) (helicities (p_spin (s n))))).
    { apply NoDup_filter. rewrite helicities_range. apply range2_NoDup. }
    destruct (in_dec Z.eq_dec (at4 l n) H) as [Y|N].
    - rewrite (Rsum_single _ (at4 l n)); [rewrite Z.eqb_refl; reflexivity|exact ND| |].
      + apply filter_In. split; [exact I|]. destruct (in_dec Z.eq_dec (at4 l n) H); [reflexivity|contradiction].
      + intros h _ Ne. destruct (Z.eqb_spec (at4 l n) h); [congruence|reflexivity].
    - rewrite Cmod_0. rewrite Rsum_zero; [ring|]. intros h Hh. apply filter_In in Hh. destruct Hh as [_ Hh].
      destruct (Z.eqb_spec (at4 l n) h) as [E|_]; [|reflexivity]. rewrite <- E in Hh. destruct (in_dec Z.eq_dec (at4 l n) H); [contradiction|discriminate].
  Qed.
End Intensity.

Lemma c135_angles env i j k x e : physical env -> nonsingular env -> (1 <= i <= 3)%Z -> (1 <= j <= 3)%Z -> (0 <= k <= 3)%Z -> mass_at env i = 0 ->
  formulate_zeta_angle i j k = Ok (x, e) -> reval env e = 0.
Proof. intros PH NS Hi Hj Hk M F. rewrite (rv_of env _ _ _ F). apply zeta_massless; assumption. Qed.

Section Model.
  Variables (b : builder) (s : Z -> state).
  Hypothesis D : std_decay (b_decay b) s.
  Lemma c135_parts ref cl uc m base cpl n : formulate b ref cl uc = Ok m -> physical (fun x => Re (base x)) -> nonsingular (fun x => Re (base x)) ->
    (1 <= n <= 3)%Z -> mass_at (fun x => Re (base x)) n = 0 ->
    exists I : Z -> R, (forall h, 0 <= I h) /\ forall H cpl',
      restricted s b m n H (at_point (m_variables m) base cpl) (at_point (m_variables m) base cpl') ->
      full_value (at_point (m_variables m) base cpl') m
      = RtoC (Rsum (filter (fun h => if in_dec Z.eq_dec h H then true else false) (helicities (p_spin (s n)))) I).
  Proof.
    intros F PH NS Hn M. destruct (intensity_formula b s D _ _ _ _ F) as (r & ks & Hr & Hks & V).
    assert (Kin : forall k, In k ks -> In k (get_subsystem_ids (b_decay b))) by (intros k Hk; apply (ids_123 b ks); auto).
    set (ev := at_point (m_variables m) base cpl). set (zeta := fun i k => Re (e_sym ev (zeta_symbol i k r))).
    exists (part s ks (amp_value ev m) zeta n). split; [apply part_pos|]. intros H cpl' R.
    rewrite V. f_equal. change (fun i k => Re (e_sym (at_point (m_variables m) base cpl') (zeta_symbol i k r))) with zeta.
    apply restricted_intensity; [exact Hn| |].
    - intros k Hk S0. unfold zeta, ev. destruct (zeta_at_point b s D _ _ _ _ r base cpl F Hr n k ltac:(simpl; lia) (Kin k Hk) S0) as (ZI & ->).
      apply zeta_massless; try assumption; unfold zeta_ids in ZI; lia.
    - intros k l Hk Hl. apply R; [apply Kin; exact Hk|apply tuples_In; exact Hl].
  Qed.
End Model.

Lemma c135_couplings b s dyn ref cl uc m ev ev' n H : std_decay (b_decay b) s -> dynamics_of b dyn -> b_prod_helicity b = true -> b_dec_helicity b = true ->
  formulate b ref cl uc = Ok m ->
  (forall x, e_sym ev' x = e_sym ev x) -> (forall c, In c (d_chains (b_decay b)) -> ceval ev' (fun _ => 0%Z) (de_expr (dyn c)) = ceval ev (fun _ => 0%Z) (de_expr (dyn c))) ->
  restricted_couplings s b n H ((if uc then coefficient else coupling_product) ev true true) ((if uc then coefficient else coupling_product) ev' true true) ->
  restricted s b m n H ev ev'.
Proof.
  intros D Dyn Ph Dh F Es Ed R k l Hk Hl.
  pose proof (ids_range b s D k Hk) as K.
  assert (Cy : exists i j, cyclic i j k).
  { simpl in K. destruct K as [<-|[<-|[<-|[]]]]; [exists 2%Z, 3%Z|exists 3%Z, 1%Z|exists 1%Z, 2%Z]; unfold cyclic; simpl; auto. }
  destruct Cy as (i & j & Cy).
  rewrite !(amplitude_total b s dyn ref cl uc m D Dyn (fun X => match eq_true_false_abs _ Ph X with end) F l i j k _ Hl Cy), Ph, Dh, Es.
  unfold dpd_amplitude.
  assert (T : forall c r, In c (filter (fun c => Z.eqb (st_index (ch_spectator c)) k) (d_chains (b_decay b))) -> In r (helicities (p_spin (ch_resonance c))) ->
    (if uc then coefficient else coupling_product) ev' true true c r (at4 l k) (at4 l i) (at4 l j)
    = if in_dec Z.eq_dec (at4 l n) H then (if uc then coefficient else coupling_product) ev true true c r (at4 l k) (at4 l i) (at4 l j) else RtoC 0).
  { intros c r Ic Ir. apply filter_In in Ic. destruct Ic as [Hc Ek]. apply Z.eqb_eq in Ek. apply (R c i j k r l Hc Ek Cy Ir Hl). }
  destruct (in_dec Z.eq_dec (at4 l n) H).
  - apply Csum_ext. intros c Ic. apply Csum_ext. intros r Ir. destruct (Z.eqb (at4 l 0) (r - at4 l k)); [|reflexivity].
    rewrite T by assumption. apply filter_In in Ic. rewrite Ed by tauto. reflexivity.
  - apply Csum_zero. intros c Ic. apply Csum_zero. intros r Ir. destruct (Z.eqb (at4 l 0) (r - at4 l k)); [|reflexivity].
    rewrite T by assumption. ring.
Qed.
