(** Reversing all helicities in a parity-conserving model, in any basis. *)
From Coq Require Import String ZArith QArith Qcanon Qreals List Bool Reals Lia Lra Permutation Sorted.
From Coquelicot Require Import Complex.
From Verif Require Import Prelude Spin Decay Expr Angles Sums Wigner CG CExpr SpecKin SpecDPD Builder
  SpinFacts DecayFacts AnglesFacts WignerFacts CExprFacts BuilderFacts ModelFacts RefFacts CGFacts LSBasis SpecLS LSProofs
  ChainProofs SpecParity ParityProofs SpecReversal.
Import ListNotations.
Local Open Scope string_scope.
Local Open Scope Z_scope.
Local Open Scope list_scope.

Lemma parity_of_some x p : p_parity x = Some p -> parity_of x = p.
Proof. unfold parity_of. intros ->. reflexivity. Qed.
Lemma parity_sign_swap J a b : parity_sign (J - a - b) = parity_sign (J - b - a).
Proof. f_equal. lia. Qed.

Section Reversal.
  Variables (ph dh : bool) (d : decay) (s : Z -> state) (p : Z).
  Hypothesis D : std_decay d s.
  Hypothesis PC : forall c, In c (d_chains d) -> parity_chain ph dh c.
  Hypothesis IP : intrinsic_parity s p.

  (** The parities of a chain *)
  Lemma chain_parities c k : In c (d_chains d) -> ch_spectator c = s k -> exists P0 PR Pk Pa Pb,
    p_parity (s 0) = Some P0 /\ p_parity (ch_resonance c) = Some PR /\ p_parity (s k) = Some Pk /\
    p_parity (fst (ch_decay_products c)) = Some Pa /\ p_parity (snd (ch_decay_products c)) = Some Pb /\
    is_parity P0 /\ is_parity PR /\ is_parity Pk /\ is_parity Pa /\ is_parity Pb.
  Proof.
    intros Ic Esp. destruct (PC c Ic) as [A B]. rewrite (std_parent d s D c Ic), Esp in A. unfold parity_vertex in A, B.
    assert (A' : exists P0 PR Pk, p_parity (s 0) = Some P0 /\ p_parity (ch_resonance c) = Some PR /\ p_parity (s k) = Some Pk /\
      is_parity P0 /\ is_parity PR /\ is_parity Pk).
    { destruct ph; [exact (proj1 A)|]. destruct A as (P0 & PR & Pk & ls & A). exists P0, PR, Pk. tauto. }
    assert (B' : exists PR Pa Pb, p_parity (ch_resonance c) = Some PR /\ p_parity (fst (ch_decay_products c)) = Some Pa /\
      p_parity (snd (ch_decay_products c)) = Some Pb /\ is_parity PR /\ is_parity Pa /\ is_parity Pb).
    { destruct dh; [exact (proj1 B)|]. destruct B as (PR & Pa & Pb & ls & B). exists PR, Pa, Pb. tauto. }
    destruct A' as (P0 & PR & Pk & A1 & A2 & A3 & A4 & A5 & A6). destruct B' as (PR' & Pa & Pb & B1 & B2 & B3 & B4 & B5 & B6).
    exists P0, PR, Pk, Pa, Pb. tauto.
  Qed.

  Lemma prod_reversed c k r lk : In c (d_chains d) -> ch_spectator c = s k ->
    ((if ph then reversed_vertex_sign (ch_parent c) (ch_resonance c) (ch_spectator c) else 1) * prod_factor ph c (- r) (- lk)
     = reversed_vertex_sign (s 0%Z) (ch_resonance c) (s k) * prod_factor ph c r lk)%R /\
    (prod_factor ph c r lk = 0%R \/ Z.even (p_spin (s 0) - p_spin (ch_resonance c) - p_spin (s k)) = true).
  Proof.
    intros Ic Esp. destruct (PC c Ic) as [A _]. destruct (chain_parities c k Ic Esp) as (P0 & PR & Pk & _ & _ & Q0 & QR & Qk & _).
    rewrite Esp, (std_parent d s D c Ic) in *. unfold parity_vertex in A.
    assert (Vs : reversed_vertex_sign (s 0) (ch_resonance c) (s k)
      = (IZR (P0 * PR * Pk) * parity_sign (p_spin (s 0) - p_spin (ch_resonance c) - p_spin (s k)))%R).
    { unfold reversed_vertex_sign. rewrite (parity_of_some _ _ Q0), (parity_of_some _ _ QR), (parity_of_some _ _ Qk). reflexivity. }
    destruct ph.
    - cbn [prod_factor]. destruct A as [_ E]. split; [ring|]. right. rewrite <- E.
      replace (p_spin (s 0) - p_spin (ch_resonance c) - p_spin (s k))
        with (p_spin (s 0) + p_spin (ch_resonance c) + p_spin (s k) + 2 * (- p_spin (ch_resonance c) - p_spin (s k))) by lia.
      apply Z.even_add_mul_2.
    - rewrite Vs. destruct A as (P0' & PR' & Pk' & lsp & E0 & ER & Ek & I0 & IR & Ik & Lp & Q1).
      assert (P0' = P0) by congruence. assert (PR' = PR) by congruence. assert (Pk' = Pk) by congruence. subst P0 PR Pk.
      unfold prod_factor. rewrite Lp, Esp, (std_parent d s D c Ic). cbv zeta. rewrite Rmult_1_l. destruct (resonance_first c).
      + apply conserves_flip; auto.
      + replace (P0' * PR' * Pk') with (P0' * Pk' * PR') by ring.
        replace (p_spin (s 0) - p_spin (ch_resonance c) - p_spin (s k)) with (p_spin (s 0) - p_spin (s k) - p_spin (ch_resonance c)) by lia.
        apply conserves_flip; auto. rewrite (Z.mul_comm Pk' PR'). exact Q1.
  Qed.
  Lemma dec_reversed c i j k l : In c (d_chains d) -> ch_spectator c = s k -> cyclic i j k ->
    ((if dh then reversed_vertex_sign (ch_resonance c) (fst (ch_decay_products c)) (snd (ch_decay_products c)) else 1)
       * dec_factor dh c (at4 (reversed l))
     = reversed_vertex_sign (ch_resonance c) (s i) (s j) * dec_factor dh c (at4 l))%R /\
    (dec_factor dh c (at4 l) = 0%R \/ Z.even (p_spin (ch_resonance c) - p_spin (s i) - p_spin (s j)) = true).
  Proof.
    intros Ic Esp Cy. destruct (PC c Ic) as [_ A].
    destruct (chain_parities c k Ic Esp) as (_ & PR & _ & Pa & Pb & _ & QR & _ & Qa & Qb & _).
    assert (Sw : forall x y : particle, reversed_vertex_sign (ch_resonance c) x y = reversed_vertex_sign (ch_resonance c) y x).
    { intros x y. unfold reversed_vertex_sign. rewrite parity_sign_swap. f_equal. f_equal. ring. }
    assert (Vs : reversed_vertex_sign (ch_resonance c) (fst (ch_decay_products c)) (snd (ch_decay_products c))
      = (IZR (PR * Pa * Pb) * parity_sign (p_spin (ch_resonance c) - p_spin (fst (ch_decay_products c)) - p_spin (snd (ch_decay_products c))))%R).
    { unfold reversed_vertex_sign. rewrite (parity_of_some _ _ QR), (parity_of_some _ _ Qa), (parity_of_some _ _ Qb). reflexivity. }
    assert (Es : reversed_vertex_sign (ch_resonance c) (s i) (s j)
      = reversed_vertex_sign (ch_resonance c) (fst (ch_decay_products c)) (snd (ch_decay_products c)) /\
      Z.even (p_spin (ch_resonance c) - p_spin (s i) - p_spin (s j))
      = Z.even (p_spin (ch_resonance c) - p_spin (fst (ch_decay_products c)) - p_spin (snd (ch_decay_products c)))).
    { destruct (std_products d s D k i j c Ic Esp Cy) as [E|E]; rewrite E; cbn [fst snd].
      - split; reflexivity.
      - split; [apply Sw|]. f_equal. lia. }
    destruct Es as [-> ->]. unfold parity_vertex in A. destruct dh.
    - cbn [dec_factor]. destruct A as [_ E]. split; [ring|]. right. rewrite <- E.
      generalize (p_spin (ch_resonance c)) (p_spin (fst (ch_decay_products c))) (p_spin (snd (ch_decay_products c))). intros x y z.
      replace (x - y - z) with (x + y + z + 2 * (- y - z)) by lia. apply Z.even_add_mul_2.
    - rewrite Vs. destruct A as (PR' & Pa' & Pb' & lsd & ER & Ea & Eb & IR & Ia & Ib & Ld & Q2).
      assert (PR' = PR) by congruence. assert (Pa' = Pa) by congruence. assert (Pb' = Pb) by congruence. subst PR Pa Pb.
      unfold dec_factor. rewrite Ld, Rmult_1_l. clear Vs Sw Qa Qb Ea Eb.
      destruct (ch_decay_products c) as [s1 s2]. cbn [fst snd]. rewrite !at4_reversed. apply conserves_flip; auto.
  Qed.

  Lemma dpd_reversed scal X theta l i j k : cyclic i j k -> helicity_tuple s l -> parity_couplings ph dh s d scal ->
    dpd_amplitude ph dh s (d_chains d) (fun c r => scal c r (at4 (reversed l) k) (at4 (reversed l) i) (at4 (reversed l) j))
      X theta (at4 (reversed l)) i j k
    = (RtoC (reversal_sign s p l) * dpd_amplitude ph dh s (d_chains d)
         (fun c r => scal c r (at4 l k) (at4 l i) (at4 l j)) X theta (at4 l) i j k)%C.
  Proof.
    intros Cy Hl HS. unfold dpd_amplitude. rewrite <- Csum_scal_l. apply Csum_ext. intros c Hc.
    destruct (subsystem_chains d s D k c Hc) as (Ic & Esp & Hk).
    destruct (cyclic_in _ _ _ Cy) as (Hi & Hj & _).
    destruct (chain_parities c k Ic Esp) as (P0 & PR & Pk & Pa & Pb & E0 & ER & Ek & Ea & Eb & I0 & IR & Ik & Ia & Ib).
    assert (Hn : forall n, In n [1; 2; 3] -> Z.even (p_spin (s n) - at4 l n) = true).
    { intros n Hn. apply (helicity_even s l n Hl). right. exact Hn. }
    rewrite helicities_rev, <- Csum_scal_l. apply Csum_ext. intros r Hr. rewrite !at4_reversed.
    replace (- at4 l 0 =? - r - - at4 l k) with (at4 l 0 =? r - at4 l k).
    2:{ destruct (Z.eqb_spec (at4 l 0) (r - at4 l k)), (Z.eqb_spec (- at4 l 0) (- r - - at4 l k)); try reflexivity; lia. }
    destruct (Z.eqb_spec (at4 l 0) (r - at4 l k)) as [H0|]; [|ring].
    replace (- at4 l i - - at4 l j) with (- (at4 l i - at4 l j)) by lia. rewrite wigner_d_flip.
    rewrite (HS c i j k r l Ic Esp Cy Hl Hr H0).
    replace (p_spin (s k) - - at4 l k) with (p_spin (s k) + at4 l k) by lia.
    replace (p_spin (s j) - - at4 l j) with (p_spin (s j) + at4 l j) by lia.
    destruct (prod_reversed c k r (at4 l k) Ic Esp) as [FP ZP].
    destruct (dec_reversed c i j k l Ic Esp Cy) as [FD ZD].
    unfold reversed_coupling_sign.
    set (ap := (if ph then _ else 1)%R) in *. set (ad := (if dh then _ else 1)%R) in *.
    set (w := wigner_d _ _ _ _) in *. set (fp := prod_factor ph c r (at4 l k)) in *. set (fd := dec_factor dh c (at4 l)) in *.
    set (fp' := prod_factor ph c (- r) (- at4 l k)) in *. set (fd' := dec_factor dh c (at4 (reversed l))) in *.
    set (sc := scal c r (at4 l k) (at4 l i) (at4 l j)).
    set (sg := (parity_sign (p_spin (s k) + at4 l k) * parity_sign (p_spin (s j) + at4 l j))%R).
    transitivity (RtoC (sg * (parity_sign (r - (at4 l i - at4 l j)) * w) * ((ap * fp') * (ad * fd'))) * (X c * sc))%C.
    { rewrite !RtoC_mult. ring. }
    rewrite FP, FD.
    destruct ZP as [ZP|EP]; [rewrite ZP, !RtoC_mult; ring|]. destruct ZD as [ZD|ED]; [rewrite ZD, !RtoC_mult; ring|].
    assert (Er : Z.even (p_spin (ch_resonance c) - r) = true).
    { rewrite helicities_range, <- is_projection_In, is_projection_spec in Hr. tauto. }
    pose proof (sign_identity (p_spin (s 0)) (p_spin (s i)) (p_spin (s j)) (p_spin (s k)) (p_spin (ch_resonance c))
      (at4 l 0) (at4 l i) (at4 l j) (at4 l k) r H0 (Hn i Hi) (Hn j Hj) (Hn k Hk) EP ED Er) as SI.
    (* the parities *)
    assert (PP : (IZR (parity_of (s 0%Z) * parity_of (ch_resonance c) * parity_of (s k)) * IZR (parity_of (ch_resonance c) * parity_of (s i) * parity_of (s j)) = IZR p)%R).
    { rewrite <- mult_IZR. apply (f_equal IZR).
      destruct IP as (p0 & p1 & p2 & p3 & G0 & G1 & G2 & G3 & _ & _ & _ & _ & ->).
      rewrite (parity_of_some _ _ ER).
      transitivity (parity_of (s 0) * (PR * PR) * (parity_of (s k) * parity_of (s i) * parity_of (s j))); [ring|].
      replace (PR * PR) with 1 by (destruct IR as [-> | ->]; ring).
      rewrite (parity_of_some _ _ G0).
      destruct Cy as [Y|[Y|[Y|[]]]]; inversion Y; subst i j k;
        rewrite (parity_of_some _ _ G1), (parity_of_some _ _ G2), (parity_of_some _ _ G3); ring. }
    assert (RS : reversal_sign s p l = (IZR p * (parity_sign (p_spin (s 0%Z) + at4 l 0) * parity_sign (p_spin (s i) + at4 l i)
       * parity_sign (p_spin (s j) + at4 l j) * parity_sign (p_spin (s k) + at4 l k)))%R).
    { unfold reversal_sign. destruct Cy as [Y|[Y|[Y|[]]]]; inversion Y; subst i j k; ring. }
    rewrite RS, <- PP. unfold reversed_vertex_sign, sg.
    set (q1 := IZR (_ * _ * parity_of (s k))). set (q2 := IZR (_ * _ * parity_of (s j))).
    transitivity (RtoC (q1 * q2 *
      (parity_sign (p_spin (s k) + at4 l k) * parity_sign (p_spin (s j) + at4 l j) *
       parity_sign (r - (at4 l i - at4 l j)) * parity_sign (p_spin (s 0) - p_spin (ch_resonance c) - p_spin (s k)) *
       parity_sign (p_spin (ch_resonance c) - p_spin (s i) - p_spin (s j)))) * (X c * RtoC w * sc * RtoC (fp * fd)))%C.
    { rewrite !RtoC_mult. ring. }
    rewrite SI. rewrite !RtoC_mult. ring.
  Qed.
End Reversal.

Lemma c121 b s dyn ref cl uc m p :
  std_decay (b_decay b) s -> dynamics_of b dyn -> (b_prod_helicity b = false -> plain_resonances (b_decay b)) ->
  formulate b ref cl uc = Ok m ->
  (forall c, In c (d_chains (b_decay b)) -> parity_chain (b_prod_helicity b) (b_dec_helicity b) c) -> intrinsic_parity s p ->
  forall ev, parity_couplings (b_prod_helicity b) (b_dec_helicity b) s (b_decay b)
      ((if uc then coefficient else coupling_product) ev (b_prod_helicity b) (b_dec_helicity b)) ->
  forall l, helicity_tuple s l ->
    (forall k, In k [1; 2; 3] -> amp_value ev m k (reversed l) = (RtoC (reversal_sign s p l) * amp_value ev m k l)%C) /\
    (forall ks zeta, (forall k, In k ks -> In k [1; 2; 3]) ->
       aligned_amplitude s ks (amp_value ev m) zeta (reversed l)
       = (RtoC (reversal_sign s p l) * aligned_amplitude s ks (amp_value ev m) zeta l)%C /\
       Cmod (aligned_amplitude s ks (amp_value ev m) zeta (reversed l)) = Cmod (aligned_amplitude s ks (amp_value ev m) zeta l)).
Proof.
  intros D Y P F PC IP ev HC.
  assert (A : forall l k, helicity_tuple s l -> In k [1; 2; 3] ->
    amp_value ev m k (reversed l) = (RtoC (reversal_sign s p l) * amp_value ev m k l)%C).
  { intros l k Hl Hk. destruct (cyclic_ex k Hk) as (i & j & Cy).
    rewrite (amplitude_total b s dyn ref cl uc m D Y P F (reversed l) i j k ev (proj2 (reversed_tuple s l) Hl) Cy).
    rewrite (amplitude_total b s dyn ref cl uc m D Y P F l i j k ev Hl Cy).
    exact (dpd_reversed _ _ (b_decay b) s p D PC IP _ _ _ l i j k Cy Hl HC). }
  intros l Hl. split; [intros k; apply A; exact Hl|]. intros ks zeta Hks.
  assert (X : aligned_amplitude s ks (amp_value ev m) zeta (reversed l)
       = (RtoC (reversal_sign s p l) * aligned_amplitude s ks (amp_value ev m) zeta l)%C).
  { apply (aligned_reversed s p ks _ zeta l Hl). intros k l' Hk Hl'. apply A; auto. }
  split; [exact X|]. rewrite X, Cmod_mult, Cmod_R, (reversal_sign_unit s p IP). ring.
Qed.
