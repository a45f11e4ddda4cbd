(** Chains with even and odd total orbital angular momentum do not interfere (C101). *)
From Coq Require Import String ZArith QArith Qcanon Qreals List Bool Reals Lia Lra Permutation Sorted.
From Coquelicot Require Import Complex.
From Verif Require Import Prelude Spin Decay Expr Angles Sums Wigner CG CExpr SpecKin SpecDPD Builder
  SpinFacts DecayFacts AnglesFacts WignerFacts CExprFacts BuilderFacts ModelFacts RefFacts CGFacts CGComplete LSBasis SpecLS LSProofs
  SpecParity ChainProofs ParityProofs.
Import ListNotations.
Local Open Scope string_scope.
Local Open Scope Z_scope.
Local Open Scope list_scope.

Definition osign (e : bool) : Z := if e then 1 else -1.
Lemma ls_reversed c J j1 j2 l1 l2 :
  ls_factor J c j1 (- l1) j2 (- l2) = (IZR (osign (Z.even (ls_L c))) * parity_sign (J - j1 - j2) * ls_factor J c j1 l1 j2 l2)%R /\
  (ls_factor J c j1 l1 j2 l2 = 0%R \/ Z.even (J - j1 - j2) = true).
Proof.
  pose proof (conserves_flip c J j1 j2 l1 l2 (osign (Z.even (ls_L c))) 1 1) as H.
  replace (osign (Z.even (ls_L c)) * 1 * 1) with (osign (Z.even (ls_L c))) in H by ring. apply H.
  - unfold osign, is_parity. destruct (Z.even _); auto.
  - left; reflexivity.
  - left; reflexivity.
  - unfold osign. destruct (Z.even _); reflexivity.
Qed.
Lemma osign_mult a b : (IZR (osign (Z.even a)) * IZR (osign (Z.even b)) = IZR (osign (Z.even (a + b))))%R.
Proof. rewrite <- mult_IZR, Z.even_add. destruct (Z.even a), (Z.even b); reflexivity. Qed.

Section Orbital.
  Variables (d : decay) (s : Z -> state) (e : bool).
  Hypothesis D : std_decay d s.
  Hypothesis OP : forall c, In c (d_chains d) -> orbital_parity c e.

  Lemma dpd_orbital scal X theta l i j k : cyclic i j k -> helicity_tuple s l ->
    (forall c r r', scal c r = scal c r') ->
    dpd_amplitude false false s (d_chains d) scal X theta (at4 (reversed l)) i j k
    = (RtoC (reversal_sign s (osign e) l) * dpd_amplitude false false s (d_chains d) scal X theta (at4 l) i j k)%C.
  Proof.
    intros Cy Hl HS. unfold dpd_amplitude. rewrite <- Csum_scal_l. apply Csum_ext. intros c Hc.
    destruct (subsystem_chains d s D k c Hc) as (Ic & Esp & Hk).
    destruct (cyclic_in _ _ _ Cy) as (Hi & Hj & _).
    destruct (OP c Ic) as (lsp & lsd & Lp & Ld & Ee).
    assert (Hn : forall n, In n [1; 2; 3] -> Z.even (p_spin (s n) - at4 l n) = true).
    { intros n Hn. apply (helicity_even s l n Hl). right. exact Hn. }
    rewrite helicities_rev, <- Csum_scal_l. apply Csum_ext. intros r Hr. rewrite !at4_reversed.
    replace (- at4 l 0 =? - r - - at4 l k) with (at4 l 0 =? r - at4 l k).
    2:{ destruct (Z.eqb_spec (at4 l 0) (r - at4 l k)), (Z.eqb_spec (- at4 l 0) (- r - - at4 l k)); try reflexivity; lia. }
    destruct (Z.eqb_spec (at4 l 0) (r - at4 l k)) as [H0|]; [|ring].
    replace (- at4 l i - - at4 l j) with (- (at4 l i - at4 l j)) by lia. rewrite wigner_d_flip, (HS c (- r) r).
    replace (p_spin (s k) - - at4 l k) with (p_spin (s k) + at4 l k) by lia.
    replace (p_spin (s j) - - at4 l j) with (p_spin (s j) + at4 l j) by lia.
    assert (FP : prod_factor false c (- r) (- at4 l k) = (IZR (osign (Z.even (ls_L lsp))) * parity_sign (p_spin (s 0) - p_spin (ch_resonance c) - p_spin (s k)) * prod_factor false c r (at4 l k))%R /\
       (prod_factor false c r (at4 l k) = 0%R \/ Z.even (p_spin (s 0) - p_spin (ch_resonance c) - p_spin (s k)) = true)).
    { unfold prod_factor. rewrite Lp, Esp, (std_parent d s D c Ic). cbv zeta. destruct (resonance_first c).
      - apply ls_reversed.
      - replace (p_spin (s 0) - p_spin (ch_resonance c) - p_spin (s k)) with (p_spin (s 0) - p_spin (s k) - p_spin (ch_resonance c)) by lia.
        apply ls_reversed. }
    assert (FD : dec_factor false c (at4 (reversed l)) = (IZR (osign (Z.even (ls_L lsd))) * parity_sign (p_spin (ch_resonance c) - p_spin (s i) - p_spin (s j)) * dec_factor false c (at4 l))%R /\
       (dec_factor false c (at4 l) = 0%R \/ Z.even (p_spin (ch_resonance c) - p_spin (s i) - p_spin (s j)) = true)).
    { unfold dec_factor. rewrite Ld.
      destruct (std_products d s D k i j c Ic Esp Cy) as [E|E]; rewrite E; rewrite !at4_reversed.
      - apply ls_reversed.
      - replace (p_spin (ch_resonance c) - p_spin (s i) - p_spin (s j)) with (p_spin (ch_resonance c) - p_spin (s j) - p_spin (s i)) by lia.
        apply ls_reversed. }
    destruct FP as [FP [ZP|EP]].
    { rewrite FP, ZP, !Rmult_0_r, !Rmult_0_l. ring. }
    destruct FD as [FD [ZD|ED]].
    { rewrite FD, ZD, !Rmult_0_r. ring. }
    rewrite FP, FD.
    assert (Er : Z.even (p_spin (ch_resonance c) - r) = true).
    { rewrite helicities_range, <- is_projection_In, is_projection_spec in Hr. tauto. }
    pose proof (sign_identity (p_spin (s 0)) (p_spin (s i)) (p_spin (s j)) (p_spin (s k)) (p_spin (ch_resonance c))
      (at4 l 0) (at4 l i) (at4 l j) (at4 l k) r H0 (Hn i Hi) (Hn j Hj) (Hn k Hk) EP ED Er) as SI.
    assert (RS : reversal_sign s (osign e) l = (IZR (osign e) * (parity_sign (p_spin (s 0%Z) + at4 l 0) * parity_sign (p_spin (s i) + at4 l i)
       * parity_sign (p_spin (s j) + at4 l j) * parity_sign (p_spin (s k) + at4 l k)))%R).
    { unfold reversal_sign. destruct Cy as [Y|[Y|[Y|[]]]]; inversion Y; subst i j k; ring. }
    rewrite RS, <- Ee, <- osign_mult.
    set (w := wigner_d _ _ _ _). set (fp := prod_factor _ _ _ _). set (fd := dec_factor _ _ _).
    transitivity (RtoC (IZR (osign (Z.even (ls_L lsp))) * IZR (osign (Z.even (ls_L lsd))) *
      (parity_sign (p_spin (s k) + at4 l k) * parity_sign (p_spin (s j) + at4 l j) *
       parity_sign (r - (at4 l i - at4 l j)) * parity_sign (p_spin (s 0) - p_spin (ch_resonance c) - p_spin (s k)) *
       parity_sign (p_spin (ch_resonance c) - p_spin (s i) - p_spin (s j)))) * (X c * RtoC w * scal c r * RtoC (fp * fd)))%C.
    { rewrite !RtoC_mult. ring. }
    rewrite SI. rewrite !RtoC_mult. ring.
  Qed.
End Orbital.

Lemma amp_orbital b s dyn ref cl uc m e :
  std_decay (b_decay b) s -> dynamics_of b dyn -> plain_resonances (b_decay b) ->
  b_prod_helicity b = false -> b_dec_helicity b = false -> formulate b ref cl uc = Ok m ->
  (forall c, In c (d_chains (b_decay b)) -> orbital_parity c e) ->
  forall ev l k, helicity_tuple s l -> In k [1; 2; 3] ->
    amp_value ev m k (reversed l) = (RtoC (reversal_sign s (osign e) l) * amp_value ev m k l)%C.
Proof.
  intros D Y PR E1 E2 F OP ev l k Hl Hk. destruct (cyclic_ex k Hk) as (i & j & Cy).
  assert (P : b_prod_helicity b = false -> plain_resonances (b_decay b)) by auto.
  rewrite (amplitude_total b s dyn ref cl uc m D Y P F (reversed l) i j k ev (proj2 (reversed_tuple s l) Hl) Cy).
  rewrite (amplitude_total b s dyn ref cl uc m D Y P F l i j k ev Hl Cy).
  rewrite E1, E2.
  rewrite <- (dpd_orbital (b_decay b) s e D OP _ _ _ l i j k Cy Hl).
  - destruct uc; reflexivity.
  - intros c r r'. destruct uc; reflexivity.
Qed.

(** ** The intensity in terms of all subsystems *)
Lemma intensity_all b s dyn ref cl uc m r : std_decay (b_decay b) s -> dynamics_of b dyn ->
  (b_prod_helicity b = false -> plain_resonances (b_decay b)) -> formulate b ref cl uc = Ok m ->
  resolve_reference (b_decay b) ref = Ok r ->
  forall ev, full_value ev m = RtoC (intensity_value s [1; 2; 3] (amp_value ev m) (fun i k => Re (e_sym ev (zeta_symbol i k r)))).
Proof.
  intros D Dyn PR F Hr ev. destruct (intensity_formula b s D ref cl uc m F) as (r1 & ks & E1 & S1 & V1).
  assert (r1 = r) by congruence. subst r1. rewrite V1. f_equal.
  assert (I1 : forall k, In k ks <-> In k (get_subsystem_ids (b_decay b))) by (intros; apply ids_123; exact S1).
  assert (N : NoDup ks).
  { destruct (sorted_Z (get_subsystem_ids (b_decay b))) as (ks' & X' & Pm). assert (ks' = ks) by congruence. subst ks'.
    eapply Permutation_NoDup; [exact Pm|]. apply to_set_NoDup. }
  assert (Pm : Permutation ks (filter (fun k => if in_dec Z.eq_dec k ks then true else false) [1; 2; 3])).
  { apply NoDup_Permutation; [exact N|apply NoDup_filter; repeat constructor; cbn; intuition discriminate|].
    intros k. rewrite filter_In. destruct (in_dec Z.eq_dec k ks) as [I|I]; [|intuition discriminate].
    split; [|tauto]. intros _. split; [|reflexivity]. apply (ids_range b s D), I1. exact I. }
  unfold intensity_value, aligned_amplitude. apply Rsum_ext. intros l _. do 2 f_equal.
  apply Csum_ext. intros l' Hl'. apply tuples_In in Hl'. rewrite (Csum_perm ks _ _ Pm), Csum_filter.
  apply Csum_ext. intros k Hk. destruct (in_dec Z.eq_dec k ks) as [I|I]; [reflexivity|].
  destruct (cyclic_ex k Hk) as (i & j & Cy). rewrite (amplitude_total b s dyn ref cl uc m D Dyn PR F l' i j k ev Hl' Cy).
  unfold dpd_amplitude. rewrite no_subsystem by (intros X; apply I, I1; exact X). cbn [Csum]. symmetry. apply Cmult_0_l.
Qed.

Lemma aligned_sum s ks A A1 A2 zeta l : (forall k l', In k ks -> helicity_tuple s l' -> A k l' = (A1 k l' + A2 k l')%C) ->
  aligned_amplitude s ks A zeta l = (aligned_amplitude s ks A1 zeta l + aligned_amplitude s ks A2 zeta l)%C.
Proof.
  intros E. unfold aligned_amplitude. rewrite <- Csum_plus. apply Csum_ext. intros l' Hl'. apply tuples_In in Hl'.
  rewrite <- Csum_plus. apply Csum_ext. intros k Hk. rewrite E by auto. ring.
Qed.
Lemma tuples_reversed s : Permutation (tuples s) (map reversed (tuples s)).
Proof.
  assert (Inv : forall x, reversed (reversed x) = x).
  { intros [[[a b] c] e]. cbn [reversed]. rewrite !Z.opp_involutive. reflexivity. }
  apply NoDup_Permutation.
  - apply tuples_NoDup.
  - apply FinFun.Injective_map_NoDup; [|apply tuples_NoDup]. intros x y E. rewrite <- (Inv x), E. apply Inv.
  - intros x. rewrite in_map_iff. split.
    + intros I. exists (reversed x). split; [apply Inv|]. apply tuples_In, reversed_tuple, tuples_In. exact I.
    + intros (y & <- & I). apply tuples_In, reversed_tuple, tuples_In. exact I.
Qed.
Lemma Cmod_sum (x y : C) : (Cmod (x + y)%C ^ 2 = Cmod x ^ 2 + Cmod y ^ 2 + 2 * (Re x * Re y + Im x * Im y))%R.
Proof. rewrite !Cmod_sq. destruct x, y. cbn [Re Im fst snd Cplus]. ring. Qed.
Lemma opposite_sum s (f g : Z * Z * Z * Z -> C) :
  (forall l, helicity_tuple s l -> exists c, f (reversed l) = (RtoC c * f l)%C /\ g (reversed l) = (RtoC (- c) * g l)%C /\ (c * c = 1)%R) ->
  Rsum (tuples s) (fun l => Cmod (f l + g l)%C ^ 2)%R = (Rsum (tuples s) (fun l => Cmod (f l) ^ 2) + Rsum (tuples s) (fun l => Cmod (g l) ^ 2))%R.
Proof.
  intros H. set (x := fun l => (Re (f l) * Re (g l) + Im (f l) * Im (g l))%R).
  assert (X : Rsum (tuples s) x = 0%R).
  { assert (Y : Rsum (tuples s) x = (- Rsum (tuples s) x)%R).
    { rewrite (Rsum_perm _ _ _ (tuples_reversed s)) at 1. rewrite Rsum_map.
      transitivity (Rsum (tuples s) (fun l => (-1) * x l)%R); [|rewrite Rsum_scal_l; ring].
      apply Rsum_ext. intros l Hl. apply tuples_In in Hl. destruct (H l Hl) as (c & Ef & Eg & Hc). unfold x. rewrite Ef, Eg.
      destruct (f l) as [a b], (g l) as [a' b']. cbn [Re Im fst snd Cmult RtoC].
      transitivity (- (c * c) * (a * a' + b * b'))%R; [ring|rewrite Hc; ring]. }
    lra. }
  transitivity (Rsum (tuples s) (fun l => (Cmod (f l) ^ 2 + Cmod (g l) ^ 2) + 2 * x l)%R).
  { apply Rsum_ext. intros l _. rewrite Cmod_sum. unfold x. ring. }
  rewrite Rsum_plus, Rsum_plus, Rsum_scal_l, X. ring.
Qed.

Lemma c101 b b1 b2 s dyn uc ref cl m ref1 cl1 m1 ref2 cl2 m2 r :
  std_decay (b_decay b) s -> std_decay (b_decay b1) s -> std_decay (b_decay b2) s ->
  dynamics_of b dyn -> dynamics_of b1 dyn -> dynamics_of b2 dyn -> plain_resonances (b_decay b) ->
  b_prod_helicity b = false -> b_dec_helicity b = false ->
  b_prod_helicity b1 = false -> b_dec_helicity b1 = false ->
  b_prod_helicity b2 = false -> b_dec_helicity b2 = false ->
  formulate b ref cl uc = Ok m -> formulate b1 ref1 cl1 uc = Ok m1 -> formulate b2 ref2 cl2 uc = Ok m2 ->
  resolve_reference (b_decay b) ref = Ok r -> resolve_reference (b_decay b1) ref1 = Ok r ->
  resolve_reference (b_decay b2) ref2 = Ok r ->
  Permutation (d_chains (b_decay b)) (d_chains (b_decay b1) ++ d_chains (b_decay b2)) ->
  (forall c, In c (d_chains (b_decay b1)) -> orbital_parity c true) ->
  (forall c, In c (d_chains (b_decay b2)) -> orbital_parity c false) ->
  forall ev, full_value ev m = (full_value ev m1 + full_value ev m2)%C.
Proof.
  intros D D1 D2 Y Y1 Y2 PR P H P1 H1 P2 H2 F F1 F2 R R1 R2 Pm O1 O2 ev.
  assert (PR1 : plain_resonances (b_decay b1)).
  { intros c Hc. apply PR. apply (Permutation_in _ (Permutation_sym Pm)), in_or_app. auto. }
  assert (PR2 : plain_resonances (b_decay b2)).
  { intros c Hc. apply PR. apply (Permutation_in _ (Permutation_sym Pm)), in_or_app. auto. }
  rewrite (intensity_all b s dyn ref cl uc m r D Y (fun _ => PR) F R ev).
  rewrite (intensity_all b1 s dyn ref1 cl1 uc m1 r D1 Y1 (fun _ => PR1) F1 R1 ev).
  rewrite (intensity_all b2 s dyn ref2 cl2 uc m2 r D2 Y2 (fun _ => PR2) F2 R2 ev).
  rewrite <- RtoC_plus. f_equal. set (z := fun i k => Re (e_sym ev (zeta_symbol i k r))).
  assert (A : forall k l, In k [1; 2; 3] -> helicity_tuple s l -> amp_value ev m k l = (amp_value ev m1 k l + amp_value ev m2 k l)%C).
  { apply (c83_additive b b1 b2 s dyn uc ref cl m ref1 cl1 m1 ref2 cl2 m2); auto; congruence. }
  unfold intensity_value. rewrite <- opposite_sum.
  - apply Rsum_ext. intros l _. rewrite (aligned_sum s _ _ _ _ z l A). reflexivity.
  - intros l Hl. exists (reversal_sign s 1 l). split; [|split].
    + apply (aligned_reversed s 1 _ _ z l Hl). intros k l' Hk Hl'.
      exact (amp_orbital b1 s dyn ref1 cl1 uc m1 true D1 Y1 PR1 P1 H1 F1 O1 ev l' k Hl' Hk).
    + replace (- reversal_sign s 1 l)%R with (reversal_sign s (-1) l) by (unfold reversal_sign; cbn [IZR]; ring).
      apply (aligned_reversed s (-1) _ _ z l Hl). intros k l' Hk Hl'.
      exact (amp_orbital b2 s dyn ref2 cl2 uc m2 false D2 Y2 PR2 P2 H2 F2 O2 ev l' k Hl' Hk).
    + assert (U : forall n, (parity_sign n * parity_sign n = 1)%R) by (intros n; unfold parity_sign; destruct (Z.even _); ring).
      unfold reversal_sign. transitivity ((parity_sign (p_spin (s 0%Z) + at4 l 0) * parity_sign (p_spin (s 0%Z) + at4 l 0))
        * (parity_sign (p_spin (s 1%Z) + at4 l 1) * parity_sign (p_spin (s 1%Z) + at4 l 1))
        * (parity_sign (p_spin (s 2%Z) + at4 l 2) * parity_sign (p_spin (s 2%Z) + at4 l 2))
        * (parity_sign (p_spin (s 3%Z) + at4 l 3) * parity_sign (p_spin (s 3%Z) + at4 l 3)))%R; [ring|]. rewrite !U. ring.
Qed.
