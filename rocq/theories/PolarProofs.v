(** Spin density matrices of models (C140) *)
From Coq Require Import String ZArith QArith Qcanon List Bool Reals Lia Lra Permutation.
From Coquelicot Require Import Complex.
From Verif Require Import Prelude Spin Decay Expr Angles Sums Wigner CG CExpr SpecKin SpecDPD Builder
  SpinFacts DecayFacts KinFacts AnglesFacts AnglesProofs WignerFacts CExprFacts BuilderFacts ModelFacts RefFacts
  SpecBuilder SpecLine LineProofs SpecParity ParityProofs SpecReversal ReversalProofs FractionProofs EnvelopeFacts SpecPolar PolarFacts.
Import ListNotations.
Local Open Scope Z_scope.

Lemma half_pp x : wigner_d 1 1 1 x = cos (x / 2).
Proof. apply wigner_d_half_pp. Qed.
Lemma half_pm x : wigner_d 1 1 (-1) x = (- sin (x / 2))%R.
Proof. apply wigner_d_half_pm. Qed.
Lemma half_mp x : wigner_d 1 (-1) 1 x = sin (x / 2).
Proof.
  rewrite wigner_d_transpose, wigner_d_half_pm.
  replace (- x / 2)%R with (- (x / 2))%R by field. rewrite sin_neg. ring.
Qed.
Lemma half_mm x : wigner_d 1 (-1) (-1) x = cos (x / 2).
Proof. unfold wigner_d, wd, wd_term, is_projection. simpl. rewrite !Rmult_1_l, sqrt_1. field. Qed.

Section Turn.
  Variables (b : builder) (s : Z -> state) (dyn : chain -> defexpr) (uc cl1 cl2 : bool) (m1 m2 : model) (r1 r2 : Z) (base : symbol -> C) (cpl : string -> list ival -> C).
  Hypotheses (D : std_decay (b_decay b) s) (Dyn : dynamics_of b dyn) (PR : b_prod_helicity b = false -> plain_resonances (b_decay b))
    (H1 : formulate b (Some r1) cl1 uc = Ok m1) (H2 : formulate b (Some r2) cl2 uc = Ok m2) (RR1 : 1 <= r1 <= 3) (RR2 : 1 <= r2 <= 3)
    (TS : turn_safe s r1 r2 (get_subsystem_ids (b_decay b)))
    (Ph : physical (fun x => Re (base x))) (NS : nonsingular (fun x => Re (base x))).
  Let ev1 := at_point (m_variables m1) base cpl.
  Let ev2 := at_point (m_variables m2) base cpl.
  Let env := kin base.

  Lemma aligned_turn : exists eps, (eps * eps = 1)%R /\ forall l, helicity_tuple s l ->
    aligned_value b r2 m2 ev2 l = (RtoC eps * Csum (tuples s) (fun m => RtoC (alignment s (fun i => rv env (formulate_zeta_angle i r1 r2)) l m) * aligned_value b r1 m1 ev1 m))%C.
  Proof using D Dyn PR H1 H2 RR1 RR2 TS Ph NS.
    destruct (aligned_value_eq b s D r1 cl1 uc m1 H1) as (ks & Hks & _ & V1).
    destruct (aligned_value_eq b s D r2 cl2 uc m2 H2) as (ks' & Hks' & _ & V2).
    assert (ks' = ks) by congruence. subst ks'.
    assert (Kin : forall k, In k ks -> In k (get_subsystem_ids (b_decay b))) by (intros k Hk; apply (ids_123 b ks); auto).
    assert (K : forall k, In k ks -> In k [1; 2; 3]) by (intros k' Hk'; apply (ids_range b s D); auto).
    pose proof (fun i k Hi Hk Hs => zeta_at_point b s D _ _ _ _ r1 base cpl H1 eq_refl i k Hi (Kin k Hk) Hs) as Z1.
    pose proof (fun i k Hi Hk Hs => zeta_at_point b s D _ _ _ _ r2 base cpl H2 eq_refl i k Hi (Kin k Hk) Hs) as Z2.
    fold env ev1 in Z1. fold env ev2 in Z2.
    assert (HR : exists eps, (eps * eps = 1)%R /\ forall k, In k ks -> forall mm m',
      wigner_d (p_spin (s 0)) mm m' (Re (e_sym ev2 (zeta_symbol 0 k r2)))
      = (eps * wigner_d (p_spin (s 0)) mm m' (rv env (formulate_zeta_angle 0%Z r1 r2) + Re (e_sym ev1 (zeta_symbol 0 k r1))))%R).
    { destruct (Z.eq_dec (p_spin (s 0)) 0) as [E0|N0].
      { exists 1%R. split; [ring|]. intros k Hk mm m'. rewrite Rmult_1_l. apply spin0_any; auto. }
      assert (HR : forall k, In k ks -> exists n,
        (n = 0 \/ ((n = 1 \/ n = -1) /\ k <> r1 /\ k <> r2 /\ r1 <> r2)) /\ forall mm m',
        wigner_d (p_spin (s 0)) mm m' (Re (e_sym ev2 (zeta_symbol 0 k r2)))
        = ((if (n =? 0)%Z then 1 else (-1) ^ Z.to_nat (p_spin (s 0%Z))) * wigner_d (p_spin (s 0%Z)) mm m'
             (rv env (formulate_zeta_angle 0 r1 r2) + Re (e_sym ev1 (zeta_symbol 0 k r1))))%R).
      { intros k Hk. destruct (Z1 0 k ltac:(simpl; auto) Hk N0) as [_ ->].
        destruct (Z2 0 k ltac:(simpl; auto) Hk N0) as [_ ->].
        assert (1 <= k <= 3) by (specialize (K k Hk); simpl in K; lia).
        destruct (hat_rule env k r1 r2 Ph NS) as (n & Hn & E); auto.
        exists n. split; auto. intros mm m'. rewrite E. apply wigner_d_turns. tauto. }
      destruct TS as [Ev|[Sub|One]].
      - exists 1%R. split; [ring|]. intros k Hk mm m'.
        destruct (HR k Hk) as (n & _ & E). rewrite E.
        replace ((-1) ^ Z.to_nat (p_spin (s 0)))%R with 1%R; [destruct (n =? 0); reflexivity|].
        rewrite (minus_one_pow_parity _ 0); [reflexivity|]. rewrite Nat.add_0_r.
        pose proof (sd_spin _ _ D 0 ltac:(simpl; auto)).
        apply Z.even_spec in Ev. destruct Ev as [q Hq]. rewrite Hq.
        replace (Z.to_nat (2 * q)) with (2 * Z.to_nat q)%nat by lia.
        rewrite Nat.even_mul. reflexivity.
      - exists 1%R. split; [ring|]. intros k Hk mm m'.
        destruct (HR k Hk) as (n & Hn & E). rewrite E.
        destruct Hn as [->|(_ & Na & Nb & _)]; [reflexivity|]. destruct (Sub k (Kin k Hk)); contradiction.
      - destruct ks as [|k0 ks0]; [exists 1%R; split; [ring|intros k []]|].
        destruct (HR k0 (or_introl eq_refl)) as (n & Hn & E).
        exists (if (n =? 0)%Z then 1 else (-1) ^ Z.to_nat (p_spin (s 0%Z)))%R.
        split.
        + destruct (n =? 0); [ring|]. rewrite <- Rpow_mult_distr. replace (-1 * -1)%R with 1%R by ring. apply pow1.
        + intros k Hk mm m'. replace k with k0 by (apply One; auto; apply Kin; auto; left; auto). apply E. }
    destruct HR as (eps & Eps & R0). exists eps. split; [exact Eps|]. intros l Hl.
    rewrite (V2 ev2 l Hl).
    rewrite (Csum_ext (tuples s) _ (fun m => (RtoC (alignment s (fun i => rv env (formulate_zeta_angle i r1 r2)) l m)
      * aligned_amplitude s ks (amp_value ev2 m2) (fun i k => Re (e_sym ev1 (zeta_symbol i k r1))) m)%C)).
    - apply (aligned_rot s ks (amp_value ev2 m2) (fun i k => Re (e_sym ev1 (zeta_symbol i k r1))) (fun i k => Re (e_sym ev2 (zeta_symbol i k r2)))
        eps (fun i => rv env (formulate_zeta_angle i r1 r2))).
      + intros k Hk mm m'. apply R0; auto.
      + intros i k Hi Hk mm m'.
        destruct (Z.eq_dec (p_spin (s i)) 0) as [E0|N0]; [apply spin0_any; auto|].
        destruct (Z1 i k (or_intror Hi) Hk N0) as [I1 ->]. destruct (Z2 i k (or_intror Hi) Hk N0) as [I2 ->].
        f_equal. apply zeta_cocycle; auto.
        * simpl in Hi; lia.
        * specialize (K k Hk). simpl in K; lia.
    - intros m Hm. f_equal. apply tuples_In in Hm. rewrite (V1 ev1 m Hm). unfold aligned_amplitude. apply Csum_ext. intros l' Hl'. apply Csum_ext. intros k Hk.
      f_equal. apply tuples_In in Hl'. exact (amp_value_same b s D dyn uc _ _ _ _ _ _ base cpl Dyn PR H1 H2 k l' (Kin k Hk) Hl').
  Qed.
  Lemma density_turn n x y : In n [0; 1; 2; 3] -> In x (helicities (p_spin (s n))) -> In y (helicities (p_spin (s n))) ->
    density s (aligned_value b r2 m2 ev2) n x y = Csum (helicities (p_spin (s n))) (fun x' => Csum (helicities (p_spin (s n))) (fun y' =>
      (RtoC (turn s n (rv env (formulate_zeta_angle n r1 r2)) x x' * turn s n (rv env (formulate_zeta_angle n r1 r2)) y y') * density s (aligned_value b r1 m1 ev1) n x' y')%C)).
  Proof using D Dyn PR H1 H2 RR1 RR2 TS Ph NS.
    intros Hn Hx Hy. destruct aligned_turn as (eps & Eps & E).
    exact (density_rot s _ _ eps (fun i => rv env (formulate_zeta_angle i r1 r2)) n x y Hn Eps E Hx Hy).
  Qed.
  Lemma pol_turn n : In n [0; 1; 2; 3] -> p_spin (s n) = 1 ->
    let phi := (if n =? 0 then rv env (formulate_zeta_angle n r1 r2) else - rv env (formulate_zeta_angle n r1 r2))%R in
    let A1 := aligned_value b r1 m1 ev1 in let A2 := aligned_value b r2 m2 ev2 in
    pol_x s A2 n = (cos phi * pol_x s A1 n + sin phi * pol_z s A1 n)%R /\
    pol_z s A2 n = (cos phi * pol_z s A1 n - sin phi * pol_x s A1 n)%R /\
    pol_y s A2 n = pol_y s A1 n.
  Proof using D Dyn PR H1 H2 RR1 RR2 TS Ph NS.
    intros Hn Hj phi A1 A2.
    assert (I : In 1 (helicities (p_spin (s n))) /\ In (-1) (helicities (p_spin (s n)))) by (rewrite Hj; simpl; auto). destruct I as [Ip Im].
    pose proof (density_turn n 1 1 Hn Ip Ip) as Dpp. pose proof (density_turn n (-1) (-1) Hn Im Im) as Dmm. pose proof (density_turn n 1 (-1) Hn Ip Im) as Dpm.
    fold A1 A2 in Dpp, Dmm, Dpm. rewrite Hj in Dpp, Dmm, Dpm. change (helicities 1) with [-1; 1] in Dpp, Dmm, Dpm. cbn [Csum] in Dpp, Dmm, Dpm.
    set (w := turn s n (rv env (formulate_zeta_angle n r1 r2))) in *.
    set (c := cos (phi / 2)). set (q := sin (phi / 2)).
    assert (W : forall x x', w x x' = wigner_d 1 x x' phi).
    { intros x x'. unfold w, turn, phi. destruct (Z.eqb_spec n 0) as [->|N]; rewrite Hj; [reflexivity|]. apply wigner_d_transpose. }
    rewrite !W, half_pp, half_pm, half_mp, half_mm in *. clear W w. fold c q in Dpp, Dmm, Dpm.
    assert (CQ : (c * c + q * q = 1)%R) by (unfold c, q; pose proof (sin2_cos2 (phi / 2)) as X; unfold Rsqr in X; lra).
    assert (Cp : cos phi = (c * c - q * q)%R) by (unfold c, q; replace phi with (2 * (phi / 2))%R at 1 by field; apply cos_2a).
    assert (Sp : sin phi = (2 * q * c)%R) by (unfold c, q; replace phi with (2 * (phi / 2))%R at 1 by field; apply sin_2a).
    rewrite Cp, Sp. clearbody c q. clear Cp Sp phi.
    pose proof (density_hermitian s A1 n 1 (-1)) as Hc. pose proof (density_hermitian s A1 n 1 1) as H11. pose proof (density_hermitian s A1 n (-1) (-1)) as H22.
    rewrite Hc in *. unfold pol_x, pol_y, pol_z. rewrite Dpp, Dmm, Dpm. clear Dpp Dmm Dpm Hc.
    destruct (density s A1 n 1 1) as [d1 d2], (density s A1 n (-1) (-1)) as [e1 e2], (density s A1 n 1 (-1)) as [u v].
    apply (f_equal snd) in H11, H22. cbn in H11, H22. assert (d2 = 0%R) by lra. assert (e2 = 0%R) by lra. subst d2 e2. cbn.
    repeat split; [ring|ring|]. transitivity (- 2 * ((c * c + q * q) * v))%R; [ring|]. rewrite CQ. ring.
  Qed.
End Turn.

(** ** Parity *)
Lemma with_reversed l n x : with_helicity (reversed l) n (- x) = reversed (with_helicity l n x).
Proof. destruct l as [[[l0 l1] l2] l3]. unfold with_helicity, reversed. destruct n as [|[p|[p|p|]|]|p]; reflexivity. Qed.
Lemma tuples_reversed s : Permutation (tuples s) (map reversed (tuples s)).
Proof.
  assert (Inv : forall x, reversed (reversed x) = x).
  { intros [[[a b] c] e]. cbn [reversed]. rewrite !Z.opp_involutive. reflexivity. }
  apply NoDup_Permutation.
  - apply tuples_NoDup.
  - apply FinFun.Injective_map_NoDup; [|apply tuples_NoDup]. intros x y E. rewrite <- (Inv x), <- (Inv y), E. reflexivity.
  - intros x. rewrite in_map_iff. split.
    + intros I. exists (reversed x). split; [apply Inv|]. apply tuples_In, reversed_tuple, tuples_In. exact I.
    + intros (y & <- & I). apply tuples_In, reversed_tuple, tuples_In. exact I.
Qed.
Lemma parity_sign_square z : (parity_sign z * parity_sign z = 1)%R.
Proof. unfold parity_sign. destruct (Z.even (z / 2)); ring. Qed.
Lemma sign_pair (s : Z -> state) p n l x y : In n [0; 1; 2; 3] -> (IZR p * IZR p = 1)%R ->
  (reversal_sign s p (with_helicity l n x) * reversal_sign s p (with_helicity l n y) = parity_sign (p_spin (s n) + x) * parity_sign (p_spin (s n) + y))%R.
Proof.
  intros Hn Hp. destruct l as [[[l0 l1] l2] l3]. unfold reversal_sign.
  pose proof (parity_sign_square (p_spin (s 0) + l0)) as P0. pose proof (parity_sign_square (p_spin (s 1) + l1)) as P1.
  pose proof (parity_sign_square (p_spin (s 2) + l2)) as P2. pose proof (parity_sign_square (p_spin (s 3) + l3)) as P3.
  four Hn; cbn [with_helicity at4].
  all: set (a0 := parity_sign (p_spin (s 0) + l0)) in *; set (a1 := parity_sign (p_spin (s 1) + l1)) in *; set (a2 := parity_sign (p_spin (s 2) + l2)) in *;
    set (a3 := parity_sign (p_spin (s 3) + l3)) in *; set (u := parity_sign (_ + x)); set (v := parity_sign (_ + y)); set (q := IZR p) in *.
  - transitivity ((q * q) * (a1 * a1) * (a2 * a2) * (a3 * a3) * (u * v))%R; [ring|]. rewrite Hp, P1, P2, P3. ring.
  - transitivity ((q * q) * (a0 * a0) * (a2 * a2) * (a3 * a3) * (u * v))%R; [ring|]. rewrite Hp, P0, P2, P3. ring.
  - transitivity ((q * q) * (a0 * a0) * (a1 * a1) * (a3 * a3) * (u * v))%R; [ring|]. rewrite Hp, P0, P1, P3. ring.
  - transitivity ((q * q) * (a0 * a0) * (a1 * a1) * (a2 * a2) * (u * v))%R; [ring|]. rewrite Hp, P0, P1, P2. ring.
Qed.
Lemma intrinsic_square s p : intrinsic_parity s p -> (IZR p * IZR p = 1)%R.
Proof.
  intros (p0 & p1 & p2 & p3 & _ & _ & _ & _ & A & B & C & D & ->). rewrite <- mult_IZR. f_equal.
  destruct A as [->| ->], B as [->| ->], C as [->| ->], D as [->| ->]; reflexivity.
Qed.
Lemma density_parity (s : Z -> state) p A n x y : In n [0; 1; 2; 3] -> intrinsic_parity s p ->
  (forall l, helicity_tuple s l -> A (reversed l) = (RtoC (reversal_sign s p l) * A l)%C) ->
  In x (helicities (p_spin (s n))) -> In y (helicities (p_spin (s n))) ->
  density s A n (- x) (- y) = (RtoC (parity_sign (p_spin (s n) + x) * parity_sign (p_spin (s n) + y)) * density s A n x y)%C.
Proof.
  intros Hn Hp HA Hx Hy. unfold density. rewrite <- Csum_scal_l.
  assert (Pm : Permutation (other_tuples s n) (map reversed (other_tuples s n))) by (rewrite other_tuples_eq; apply tuples_reversed).
  rewrite (Csum_perm _ _ _ Pm), Csum_map. apply Csum_ext. intros l Hl. rewrite !with_reversed.
  rewrite !HA by (apply with_helicity_tuple; assumption).
  rewrite <- (sign_pair s p n l x y Hn (intrinsic_square s p Hp)).
  destruct (A (with_helicity l n x)), (A (with_helicity l n y)). apply injective_projections; cbn; ring.
Qed.
Lemma parity_half (s : Z -> state) p A n : In n [0; 1; 2; 3] -> intrinsic_parity s p ->
  (forall l, helicity_tuple s l -> A (reversed l) = (RtoC (reversal_sign s p l) * A l)%C) ->
  p_spin (s n) = 1 -> pol_x s A n = 0%R /\ pol_z s A n = 0%R.
Proof.
  intros Hn Hp HA Hj. assert (I : In 1 (helicities (p_spin (s n))) /\ In (-1) (helicities (p_spin (s n)))) by (rewrite Hj; simpl; auto). destruct I as [Ip Im].
  pose proof (density_parity s p A n 1 1 Hn Hp HA Ip Ip) as X. pose proof (density_parity s p A n 1 (-1) Hn Hp HA Ip Im) as Y.
  rewrite Hj in X, Y. change (- (1)) with (-1) in X, Y. change (- (-1)) with 1 in Y. rewrite (density_hermitian s A n 1 (-1)) in Y.
  change (parity_sign (1 + 1)) with (-1)%R in *. change (parity_sign (1 + -1)) with 1%R in *.
  unfold pol_x, pol_z. rewrite X. destruct (density s A n 1 1), (density s A n 1 (-1)). apply (f_equal fst) in Y. cbn in *. split; lra.
Qed.

(** ** Models *)
Lemma c140_trace b s r cl uc m n : std_decay (b_decay b) s -> formulate b (Some r) cl uc = Ok m -> In n [0; 1; 2; 3] -> forall ev,
  full_value ev m = Csum (helicities (p_spin (s n))) (fun x => density s (aligned_value b r m ev) n x x).
Proof. intros D F Hn ev. rewrite (density_trace s _ n Hn). exact (c136_sum b s r cl uc m D F ev). Qed.
Lemma c140_positive (s : Z -> state) A n (v : Z -> C) : exists q, (0 <= q)%R /\
  Csum (helicities (p_spin (s n))) (fun x => Csum (helicities (p_spin (s n))) (fun y => (v x * Cconj (v y) * density s A n x y)%C)) = RtoC q.
Proof. eexists. split; [|apply density_form]. apply Rsum_nonneg. intros. apply pow2_ge_0. Qed.
Lemma c140_bound b s r cl uc m n : std_decay (b_decay b) s -> formulate b (Some r) cl uc = Ok m -> In n [0; 1; 2; 3] -> p_spin (s n) = 1 -> forall ev,
  let A := aligned_value b r m ev in
  (pol_x s A n ^ 2 + pol_y s A n ^ 2 + pol_z s A n ^ 2 <= Re (full_value ev m) ^ 2)%R.
Proof. intros D F Hn Hj ev A. rewrite (c136_sum b s r cl uc m D F ev). exact (density_half s A n Hn Hj). Qed.

Lemma aligned_parity b s r cl uc m p ev : std_decay (b_decay b) s -> formulate b (Some r) cl uc = Ok m ->
  (forall l, helicity_tuple s l -> forall ks zeta, (forall k, In k ks -> In k [1; 2; 3]) ->
       aligned_amplitude s ks (amp_value ev m) zeta (reversed l) = (RtoC (reversal_sign s p l) * aligned_amplitude s ks (amp_value ev m) zeta l)%C) ->
  forall l, helicity_tuple s l -> aligned_value b r m ev (reversed l) = (RtoC (reversal_sign s p l) * aligned_value b r m ev l)%C.
Proof.
  intros D F H l Hl. destruct (aligned_value_eq b s D r cl uc m F) as (ks & Hks & _ & V).
  rewrite (V ev l Hl), (V ev (reversed l) (proj2 (reversed_tuple s l) Hl)). apply (H l Hl).
  intros k Hk. apply (ids_range b s D). apply (ids_123 b ks); auto.
Qed.
Lemma c140_parity b s dyn r cl uc m p n :
  std_decay (b_decay b) s -> dynamics_of b dyn -> (b_prod_helicity b = false -> plain_resonances (b_decay b)) ->
  formulate b (Some r) cl uc = Ok m ->
  (forall c, In c (d_chains (b_decay b)) -> parity_chain (b_prod_helicity b) (b_dec_helicity b) c) -> intrinsic_parity s p -> In n [0; 1; 2; 3] ->
  forall ev, parity_couplings (b_prod_helicity b) (b_dec_helicity b) s (b_decay b)
      ((if uc then coefficient else coupling_product) ev (b_prod_helicity b) (b_dec_helicity b)) ->
  let A := aligned_value b r m ev in
  (forall x y, In x (helicities (p_spin (s n))) -> In y (helicities (p_spin (s n))) ->
     density s A n (- x) (- y) = (RtoC (parity_sign (p_spin (s n) + x) * parity_sign (p_spin (s n) + y)) * density s A n x y)%C) /\
  (p_spin (s n) = 1 -> pol_x s A n = 0%R /\ pol_z s A n = 0%R).
Proof.
  intros D Y P F PC IP Hn ev CP A.
  assert (H : forall l, helicity_tuple s l -> A (reversed l) = (RtoC (reversal_sign s p l) * A l)%C).
  { apply (aligned_parity b s r cl uc m p ev D F). intros l Hl ks zeta K.
    exact (proj1 (proj2 (c121 b s dyn (Some r) cl uc m p D Y P F PC IP ev CP l Hl) ks zeta K)). }
  split.
  - intros x y Hx Hy. exact (density_parity s p A n x y Hn IP H Hx Hy).
  - exact (parity_half s p A n Hn IP H).
Qed.
Lemma c140_parity_ls b s dyn r cl uc m p n :
  std_decay (b_decay b) s -> dynamics_of b dyn -> plain_resonances (b_decay b) -> b_prod_helicity b = false -> b_dec_helicity b = false ->
  formulate b (Some r) cl uc = Ok m ->
  (forall c, In c (d_chains (b_decay b)) -> parity_conserving_chain c) -> intrinsic_parity s p -> In n [0; 1; 2; 3] ->
  forall ev, let A := aligned_value b r m ev in
  (forall x y, In x (helicities (p_spin (s n))) -> In y (helicities (p_spin (s n))) ->
     density s A n (- x) (- y) = (RtoC (parity_sign (p_spin (s n) + x) * parity_sign (p_spin (s n) + y)) * density s A n x y)%C) /\
  (p_spin (s n) = 1 -> pol_x s A n = 0%R /\ pol_z s A n = 0%R).
Proof.
  intros D Y P B1 B2 F PC IP Hn ev A.
  assert (H : forall l, helicity_tuple s l -> A (reversed l) = (RtoC (reversal_sign s p l) * A l)%C).
  { apply (aligned_parity b s r cl uc m p ev D F). intros l Hl ks zeta K.
    exact (proj1 (proj2 (c85 b s dyn (Some r) cl uc m p D Y P B1 B2 F PC IP ev l Hl) ks zeta K)). }
  split.
  - intros x y Hx Hy. exact (density_parity s p A n x y Hn IP H Hx Hy).
  - exact (parity_half s p A n Hn IP H).
Qed.
Lemma c140_turn b s dyn uc cl1 cl2 m1 m2 r1 r2 base cpl n zx z : std_decay (b_decay b) s -> dynamics_of b dyn ->
  (b_prod_helicity b = false -> plain_resonances (b_decay b)) ->
  formulate b (Some r1) cl1 uc = Ok m1 -> formulate b (Some r2) cl2 uc = Ok m2 -> 1 <= r1 <= 3 -> 1 <= r2 <= 3 ->
  turn_safe s r1 r2 (get_subsystem_ids (b_decay b)) -> physical (fun x => Re (base x)) -> nonsingular (fun x => Re (base x)) ->
  In n [0; 1; 2; 3] -> formulate_zeta_angle n r1 r2 = Ok (zx, z) ->
  let angle := reval (fun x => Re (base x)) z in
  let A1 := aligned_value b r1 m1 (at_point (m_variables m1) base cpl) in
  let A2 := aligned_value b r2 m2 (at_point (m_variables m2) base cpl) in
  (forall x y, In x (helicities (p_spin (s n))) -> In y (helicities (p_spin (s n))) ->
     density s A2 n x y = Csum (helicities (p_spin (s n))) (fun x' => Csum (helicities (p_spin (s n))) (fun y' =>
       (RtoC (turn s n angle x x' * turn s n angle y y') * density s A1 n x' y')%C))) /\
  (p_spin (s n) = 1 -> let phi := (if n =? 0 then angle else - angle)%R in
     pol_x s A2 n = (cos phi * pol_x s A1 n + sin phi * pol_z s A1 n)%R /\
     pol_z s A2 n = (cos phi * pol_z s A1 n - sin phi * pol_x s A1 n)%R /\
     pol_y s A2 n = pol_y s A1 n).
Proof.
  intros D Y P F1 F2 R1 R2 TS Ph NS Hn Z angle A1 A2.
  assert (E : rv (kin base) (formulate_zeta_angle n r1 r2) = angle) by (rewrite Z; reflexivity).
  split.
  - intros x y Hx Hy. rewrite <- E. exact (density_turn b s dyn uc cl1 cl2 m1 m2 r1 r2 base cpl D Y P F1 F2 R1 R2 TS Ph NS n x y Hn Hx Hy).
  - intros Hj. rewrite <- E. exact (pol_turn b s dyn uc cl1 cl2 m1 m2 r1 r2 base cpl D Y P F1 F2 R1 R2 TS Ph NS n Hn Hj).
Qed.
