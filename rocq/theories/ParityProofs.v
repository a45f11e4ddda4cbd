(** Parity-conserving models: reversing all helicities. *)
From Coq Require Import String ZArith QArith Qcanon Qreals List Bool Reals Lia Lra Permutation Sorted.
From Coquelicot Require Import Complex.
From Verif Require Import Prelude Spin Decay Expr Angles Sums Wigner CG CExpr SpecKin SpecDPD Builder
  SpinFacts DecayFacts AnglesFacts WignerFacts CExprFacts BuilderFacts ModelFacts RefFacts CGFacts CGComplete LSBasis SpecLS LSProofs
  SpecParity ChainProofs.
Import ListNotations.
Local Open Scope string_scope.
Local Open Scope Z_scope.
Local Open Scope list_scope.

(** ** d^j_{-m,-m'} = (-1)^(m-m') d^j_{m,m'} *)
Lemma Rsum_reindex n m (f g : nat -> R) : (m <= n)%nat ->
  (forall i, (i + m <= n)%nat -> f i = g (i + m)%nat) ->
  (forall i, (n < i + m)%nat -> f i = 0%R) -> (forall i, (i < m)%nat -> g i = 0%R) ->
  Rsum (seq 0 (S n)) f = Rsum (seq 0 (S n)) g.
Proof.
  intros L E Zf Zg.
  replace (S n) with (S (n - m) + m)%nat at 1 by lia. replace (S n) with (m + S (n - m))%nat by lia.
  rewrite !seq_app, !Rsum_app. rewrite (Rsum_zero (seq (0 + S (n - m)) m) f).
  2:{ intros i Hi. apply in_seq in Hi. apply Zf. lia. }
  rewrite (Rsum_zero (seq 0 m) g).
  2:{ intros i Hi. apply in_seq in Hi. apply Zg. lia. }
  rewrite Rplus_0_r, Rplus_0_l. rewrite (Rsum_seq_shift (0 + m)). apply Rsum_ext. intros i Hi. apply in_seq in Hi.
  rewrite E by lia. f_equal. lia.
Qed.
Lemma wd_flip_le n a b x : (a <= n)%nat -> (b <= n)%nat -> (a + b <= n)%nat ->
  wd n (n - a) (n - b) x = ((-1) ^ (a + b) * wd n a b x)%R.
Proof.
  intros Ha Hb Hab. unfold wd.
  replace (n - (n - a))%nat with a by lia. replace (n - (n - b))%nat with b by lia.
  replace (INR (fact (n - a)) * INR (fact a) * INR (fact (n - b)) * INR (fact b))%R
    with (INR (fact a) * INR (fact (n - a)) * INR (fact b) * INR (fact (n - b)))%R by ring.
  set (sq := sqrt _). transitivity (sq * ((-1) ^ (a + b) * Rsum (seq 0 (S n)) (wd_term n a b (cos (x / 2)) (sin (x / 2)))))%R; [|ring].
  f_equal. rewrite <- Rsum_scal_l. symmetry.
  apply (Rsum_reindex n (n - a - b)); [lia| | |].
  - intros i Hi. unfold wd_term.
    replace ((i + (n - a - b) <=? n - a) && (i + (n - a - b) <=? n - b) && (n - a + (n - b) <=? n + (i + (n - a - b))))%nat
      with ((i <=? b)%nat && (i <=? a)%nat && true)%bool.
    2:{ f_equal; [f_equal|].
        - destruct (Nat.leb_spec i b), (Nat.leb_spec (i + (n - a - b)) (n - a)); try reflexivity; lia.
        - destruct (Nat.leb_spec i a), (Nat.leb_spec (i + (n - a - b)) (n - b)); try reflexivity; lia.
        - symmetry. apply Nat.leb_le. lia. }
    rewrite andb_true_r. destruct (Nat.leb_spec i a) as [H1|H1]; [|rewrite andb_false_r; cbn [andb]; ring].
    destruct (Nat.leb_spec i b) as [H2|H2]; [|cbn [andb]; ring]. cbn [andb].
    replace ((a + b <=? n + i))%nat with true by (symmetry; apply Nat.leb_le; lia).
    replace (n - a - (i + (n - a - b)))%nat with (b - i)%nat by lia.
    replace (n - b - (i + (n - a - b)))%nat with (a - i)%nat by lia.
    replace (2 * (i + (n - a - b)) + n - (n - a) - (n - b))%nat with (2 * i + n - a - b)%nat by lia.
    replace (n - a + (n - b) - 2 * (i + (n - a - b)))%nat with (a + b - 2 * i)%nat by lia.
    replace (n + (i + (n - a - b)) - (n - a) - (n - b))%nat with i by lia.
    replace (i + (n - a - b))%nat with (n + i - a - b)%nat by lia.
    replace ((-1) ^ (b - i))%R with ((-1) ^ (a + b) * (-1) ^ (a - i))%R.
    + unfold Rdiv.
      replace (INR (fact (n + i - a - b)) * INR (fact (b - i)) * INR (fact (a - i)) * INR (fact i))%R
        with (INR (fact i) * INR (fact (a - i)) * INR (fact (b - i)) * INR (fact (n + i - a - b)))%R by ring. ring.
    + rewrite <- pow_add. apply minus_one_pow_parity. apply Nat.even_spec. exists (a + b - i)%nat. lia.
  - intros i Hi. unfold wd_term. destruct (Nat.leb_spec i a) as [H1|H1]; [|cbn [andb]; ring].
    destruct (Nat.leb_spec i b) as [H2|H2]; [|cbn [andb]; ring]. lia.
  - intros i Hi. unfold wd_term. 
    destruct (Nat.leb_spec (n - a + (n - b)) (n + i)) as [H3|H3]; [lia|]. rewrite andb_false_r. reflexivity.
Qed.
Lemma wd_flip n a b x : (a <= n)%nat -> (b <= n)%nat ->
  wd n (n - a) (n - b) x = ((-1) ^ (a + b) * wd n a b x)%R.
Proof.
  intros Ha Hb. destruct (Nat.le_gt_cases (a + b) n) as [H|H]; [apply wd_flip_le; assumption|].
  pose proof (wd_flip_le n (n - a) (n - b) x ltac:(lia) ltac:(lia) ltac:(lia)) as E.
  replace (n - (n - a))%nat with a in E by lia. replace (n - (n - b))%nat with b in E by lia.
  rewrite E, <- Rmult_assoc, <- pow_add.
  replace ((-1) ^ (a + b + (n - a + (n - b))))%R with 1%R; [ring|].
  replace (a + b + (n - a + (n - b)))%nat with (2 * n)%nat by lia. rewrite pow_1_even. reflexivity.
Qed.
Lemma wigner_d_flip j m m' x : wigner_d j (- m) (- m') x = (parity_sign (m - m') * wigner_d j m m' x)%R.
Proof.
  destruct (is_projection j m) eqn:E.
  2:{ rewrite !wigner_d_out_l; [ring|exact E|rewrite is_projection_opp; exact E]. }
  destruct (is_projection j m') eqn:E'.
  2:{ rewrite !wigner_d_out_r; [ring|exact E'|rewrite is_projection_opp; exact E']. }
  rewrite !wigner_d_in by (rewrite ?is_projection_opp; assumption).
  destruct (is_projection_ex j m E) as (a & Ha & Em & Pa & Hj).
  destruct (is_projection_ex j m' E') as (b & Hb & Em' & Pb & _).
  assert (Na : pidx j (- m) = (Z.to_nat j - a)%nat).
  { unfold pidx. rewrite Em. replace (j + - (2 * Z.of_nat a - j)) with (2 * (j - Z.of_nat a)) by lia. rewrite half_2. lia. }
  assert (Nb : pidx j (- m') = (Z.to_nat j - b)%nat).
  { unfold pidx. rewrite Em'. replace (j + - (2 * Z.of_nat b - j)) with (2 * (j - Z.of_nat b)) by lia. rewrite half_2. lia. }
  rewrite Pa, Pb, Na, Nb, wd_flip by assumption. f_equal. rewrite Em, Em'.
  rewrite <- (parity_sign_pow (2 * Z.of_nat (a + b)) (a + b) eq_refl).
  replace (2 * Z.of_nat (a + b)) with (4 * Z.of_nat b + (2 * Z.of_nat a - j - (2 * Z.of_nat b - j))) by lia.
  rewrite parity_sign_add by (rewrite Z.even_mul; reflexivity).
  replace (parity_sign (4 * Z.of_nat b)) with 1%R; [ring|]. unfold parity_sign.
  replace (4 * Z.of_nat b) with (2 * (2 * Z.of_nat b)) by lia. rewrite half_2, Z.even_mul. reflexivity.
Qed.

(** ** Signs *)
Lemma parity_sign_4 x y z : x = y + 4 * z -> parity_sign x = parity_sign y.
Proof.
  intros ->. unfold parity_sign. replace (y + 4 * z) with (y + (2 * z) * 2) by lia. rewrite Z.div_add by lia.
  rewrite Z.even_add, Z.even_mul. cbn [Z.even orb]. destruct (Z.even (y / 2)); reflexivity.
Qed.
Lemma ls_factor_unphysical J j1 j2 c l1 l2 : triangle j1 j2 (ls_S c) = false \/ triangle (ls_S c) J (2 * ls_L c) = false ->
  ls_factor J c j1 l1 j2 l2 = 0%R.
Proof.
  intros H. unfold ls_factor.
  assert (Z0 : cg (2 * ls_L c) 0 (ls_S c) (l1 - l2) J (l1 - l2) = 0%R \/ cg j1 l1 j2 (- l2) (ls_S c) (l1 - l2) = 0%R).
  { destruct H as [H|H]; [right|left]; apply cg_out; unfold cg_couples.
    - rewrite H. apply andb_false_r.
    - rewrite triangle_rot, H. apply andb_false_r. }
  destruct Z0 as [-> | ->]; ring.
Qed.
Lemma conserves_flip c J j1 j2 l1 l2 : forall P Pa Pb,
  is_parity P -> is_parity Pa -> is_parity Pb -> P = Pa * Pb * (if Z.even (ls_L c) then 1 else -1) ->
  ls_factor J c j1 (- l1) j2 (- l2) = (IZR (P * Pa * Pb) * parity_sign (J - j1 - j2) * ls_factor J c j1 l1 j2 l2)%R /\
  (ls_factor J c j1 l1 j2 l2 = 0%R \/ Z.even (J - j1 - j2) = true).
Proof.
  intros P Pa Pb H Ha Hb E.
  destruct (triangle j1 j2 (ls_S c)) eqn:T1.
  2:{ rewrite !ls_factor_unphysical by auto. split; [ring|auto]. }
  destruct (triangle (ls_S c) J (2 * ls_L c)) eqn:T2.
  2:{ rewrite !ls_factor_unphysical by auto. split; [ring|auto]. }
  assert (Ev : Z.even (J + j1 + j2) = true /\ Z.even (J - j1 - j2) = true).
  { apply triangle_spec in T1, T2. destruct T1 as [_ T1], T2 as [_ T2]. apply even_half in T1, T2.
    destruct T1 as [x T1], T2 as [y T2]. split; apply Z.even_spec; [exists (y + x + ls_L c)|exists (y - x + ls_L c - ls_S c)]; lia. }
  split; [|tauto]. apply ls_flip_parity; auto.
  - split; [exact T1|rewrite triangle_rot; exact T2].
  - tauto.
  - apply Z.eqb_eq. exact E.
Qed.

(** ** Amplitudes *)
Lemma helicities_opp j l : In (- l) (helicities j) <-> In l (helicities j).
Proof. rewrite !helicities_range, <- !is_projection_In, is_projection_opp. tauto. Qed.
Lemma helicities_rev j f : Csum (helicities j) f = Csum (helicities j) (fun r => f (- r)).
Proof.
  rewrite <- Csum_map with (g := Z.opp). apply Csum_perm. apply NoDup_Permutation.
  - rewrite helicities_range. apply spin_range2_NoDup.
  - apply FinFun.Injective_map_NoDup; [intros x y E; lia|]. rewrite helicities_range. apply spin_range2_NoDup.
  - intros x. rewrite in_map_iff. split.
    + intros I. exists (- x). split; [lia|]. apply helicities_opp. exact I.
    + intros (y & <- & I). apply helicities_opp. exact I.
Qed.
Lemma at4_reversed l i : at4 (reversed l) i = - at4 l i.
Proof. destruct l as [[[l0 l1] l2] l3]. cbn [reversed at4]. destruct i as [|[p|[p|p|]|]|p]; reflexivity. Qed.
Lemma reversed_tuple s l : helicity_tuple s (reversed l) <-> helicity_tuple s l.
Proof. destruct l as [[[l0 l1] l2] l3]. cbn [reversed helicity_tuple]. rewrite !helicities_opp. tauto. Qed.

(** the sign identity *)
Lemma sign_identity j0 ji jj jk jR l0 li lj lk r :
  l0 = r - lk -> Z.even (ji - li) = true -> Z.even (jj - lj) = true -> Z.even (jk - lk) = true ->
  Z.even (j0 - jR - jk) = true -> Z.even (jR - ji - jj) = true -> Z.even (jR - r) = true ->
  (parity_sign (jk + lk) * parity_sign (jj + lj) * parity_sign (r - (li - lj)) * parity_sign (j0 - jR - jk) * parity_sign (jR - ji - jj)
   = parity_sign (j0 + l0) * parity_sign (ji + li) * parity_sign (jj + lj) * parity_sign (jk + lk)
     * (parity_sign (jk - lk) * parity_sign (jj - lj)))%R.
Proof.
  intros E0 Ei Ej Ek E1 E2 E3.
  assert (X : (parity_sign (r - (li - lj)) * parity_sign (j0 - jR - jk) * parity_sign (jR - ji - jj)
     = parity_sign (j0 + l0) * parity_sign (ji + li) * (parity_sign (jk - lk) * parity_sign (jj - lj)))%R).
  { apply even_half in Ei, Ej, Ek, E1, E2, E3.
    destruct Ei as [a Ei], Ej as [b Ej], Ek as [c Ek], E1 as [d E1], E2 as [e E2], E3 as [f E3].
    assert (X : Z.even (r - (li - lj)) = true) by (apply Z.even_spec; exists (e + jj - f + a - b); lia).
    assert (X0 : Z.even (j0 + l0) = true) by (apply Z.even_spec; exists (d + jR - f + c); lia).
    assert (Xi : Z.even (ji + li) = true) by (apply Z.even_spec; exists (ji - a); lia).
    assert (Xk : Z.even (jk - lk) = true) by (apply Z.even_spec; exists c; lia).
    assert (X1 : Z.even (j0 - jR - jk) = true) by (apply Z.even_spec; exists d; lia).
    assert (Q : r - (li - lj) + (j0 - jR - jk) + (jR - ji - jj) = j0 + l0 + (ji + li) + (jk - lk + (jj - lj)) + 4 * (- c - b - ji + a)) by lia.
    revert X X0 Xi Xk X1 Q. generalize (r - (li - lj)) (j0 + l0) (ji + li) (jk - lk) (j0 - jR - jk) (jR - ji - jj) (jj - lj).
    intros x1 x2 x3 x4 x5 x6 x7 H1 H2 H3 H4 H5 Q.
    rewrite <- (parity_sign_add x1 x5), <- (parity_sign_add (x1 + x5) x6), <- (parity_sign_add x2 x3), <- (parity_sign_add x4 x7),
      <- (parity_sign_add (x2 + x3)) by (rewrite ?Z.even_add, ?H1, ?H2, ?H3, ?H5; auto).
    exact (parity_sign_4 _ _ _ Q). }
  transitivity (parity_sign (jk + lk) * parity_sign (jj + lj) * (parity_sign (r - (li - lj)) * parity_sign (j0 - jR - jk) * parity_sign (jR - ji - jj)))%R;
    [ring|]. rewrite X. ring.
Qed.

Section Reversal.
  Variables (d : decay) (s : Z -> state) (p : Z).
  Hypothesis D : std_decay d s.
  Hypothesis PC : forall c, In c (d_chains d) -> parity_conserving_chain c.
  Hypothesis IP : intrinsic_parity s p.

  Lemma dpd_reversed scal X theta l i j k : cyclic i j k -> helicity_tuple s l ->
    (forall c r r', scal c r = scal c r') ->
    dpd_amplitude false false s (d_chains d) scal X theta (at4 (reversed l)) i j k
    = (RtoC (reversal_sign s p l) * dpd_amplitude false false s (d_chains d) scal X theta (at4 l) i j k)%C.
  Proof.
    intros Cy Hl HS. unfold dpd_amplitude. rewrite <- Csum_scal_l. apply Csum_ext. intros c Hc.
    destruct (subsystem_chains d s D k c Hc) as (Ic & Esp & Hk).
    destruct (cyclic_in _ _ _ Cy) as (Hi & Hj & _).
    destruct (PC c Ic) as [(P0 & PR & Pk & lsp & E0 & ER & Ek & I0 & IR & Ik & Lp & Q1) (PR' & Pa & Pb & lsd & ER' & Ea & Eb & _ & Ia & Ib & Ld & Q2)].
    assert (PR' = PR) by congruence. subst PR'. clear ER'.
    rewrite (std_parent d s D c Ic) in E0. rewrite Esp in Ek.
    assert (Hn : forall n, In n [1; 2; 3] -> Z.even (p_spin (s n) - at4 l n) = true).
    { intros n Hn. apply (helicity_even s l n Hl). right. exact Hn. }
    rewrite helicities_rev, <- Csum_scal_l. apply Csum_ext. intros r Hr. rewrite !at4_reversed.
    replace (- at4 l 0 =? - r - - at4 l k) with (at4 l 0 =? r - at4 l k).
    2:{ destruct (Z.eqb_spec (at4 l 0) (r - at4 l k)), (Z.eqb_spec (- at4 l 0) (- r - - at4 l k)); try reflexivity; lia. }
    destruct (Z.eqb_spec (at4 l 0) (r - at4 l k)) as [H0|]; [|ring].
    replace (- at4 l i - - at4 l j) with (- (at4 l i - at4 l j)) by lia. rewrite wigner_d_flip, (HS c (- r) r).
    replace (p_spin (s k) - - at4 l k) with (p_spin (s k) + at4 l k) by lia.
    replace (p_spin (s j) - - at4 l j) with (p_spin (s j) + at4 l j) by lia.
    (* the production *)
    assert (FP : prod_factor false c (- r) (- at4 l k) = (IZR (P0 * PR * Pk) * parity_sign (p_spin (s 0) - p_spin (ch_resonance c) - p_spin (s k)) * prod_factor false c r (at4 l k))%R /\
       (prod_factor false c r (at4 l k) = 0%R \/ Z.even (p_spin (s 0) - p_spin (ch_resonance c) - p_spin (s k)) = true)).
    { unfold prod_factor. rewrite Lp, Esp, (std_parent d s D c Ic). cbv zeta. destruct (resonance_first c).
      - apply conserves_flip; auto.
      - replace (P0 * PR * Pk) with (P0 * Pk * PR) by ring.
        replace (p_spin (s 0) - p_spin (ch_resonance c) - p_spin (s k)) with (p_spin (s 0) - p_spin (s k) - p_spin (ch_resonance c)) by lia.
        apply conserves_flip; auto. rewrite (Z.mul_comm Pk PR). exact Q1. }
    (* the decay *)
    assert (FD : dec_factor false c (at4 (reversed l)) = (IZR (PR * Pa * Pb) * parity_sign (p_spin (ch_resonance c) - p_spin (s i) - p_spin (s j)) * dec_factor false c (at4 l))%R /\
       (dec_factor false c (at4 l) = 0%R \/ Z.even (p_spin (ch_resonance c) - p_spin (s i) - p_spin (s j)) = true)).
    { unfold dec_factor. rewrite Ld.
      destruct (std_products d s D k i j c Ic Esp Cy) as [E|E]; rewrite E; rewrite !at4_reversed.
      - apply conserves_flip; auto.
      - replace (p_spin (ch_resonance c) - p_spin (s i) - p_spin (s j)) with (p_spin (ch_resonance c) - p_spin (s j) - p_spin (s i)) by lia.
        apply conserves_flip; auto. }
    destruct FP as [FP [ZP|EP]].
    { rewrite FP, ZP, !Rmult_0_r, !Rmult_0_l. ring. }
    destruct FD as [FD [ZD|ED]].
    { rewrite FD, ZD, !Rmult_0_r. ring. }
    rewrite FP, FD.
    assert (Er : Z.even (p_spin (ch_resonance c) - r) = true).
    { rewrite helicities_range, <- is_projection_In, is_projection_spec in Hr. tauto. }
    pose proof (sign_identity (p_spin (s 0)) (p_spin (s i)) (p_spin (s j)) (p_spin (s k)) (p_spin (ch_resonance c))
      (at4 l 0) (at4 l i) (at4 l j) (at4 l k) r H0 (Hn i Hi) (Hn j Hj) (Hn k Hk) EP ED Er) as SI.
    (* the parities *)
    assert (PP : (IZR (P0 * PR * Pk) * IZR (PR * Pa * Pb) = IZR p)%R).
    { destruct IP as (p0 & p1 & p2 & p3 & G0 & G1 & G2 & G3 & _ & _ & _ & _ & ->). assert (EP0 : P0 = p0) by congruence. rewrite EP0.
      assert (XP : Pa * Pb * Pk = p1 * p2 * p3).
      { destruct (std_products d s D k i j c Ic Esp Cy) as [E|E]; rewrite E in Ea, Eb; cbn [fst snd] in Ea, Eb;
          destruct Cy as [Y|[Y|[Y|[]]]]; inversion Y; subst i j k;
          repeat match goal with
          | H : p_parity (st_particle ?x) = Some ?a, H' : p_parity (st_particle ?x) = Some ?b |- _ =>
              let E := fresh in assert (E : a = b) by congruence; rewrite E; clear H E
          end; ring. }
      rewrite <- mult_IZR. apply (f_equal IZR). transitivity (p0 * (PR * PR) * (Pa * Pb * Pk)); [ring|]. rewrite XP.
      destruct IR as [-> | ->]; ring. }
    assert (RS : reversal_sign s p l = (IZR p * (parity_sign (p_spin (s 0%Z) + at4 l 0) * parity_sign (p_spin (s i) + at4 l i)
       * parity_sign (p_spin (s j) + at4 l j) * parity_sign (p_spin (s k) + at4 l k)))%R).
    { unfold reversal_sign. destruct Cy as [Y|[Y|[Y|[]]]]; inversion Y; subst i j k; ring. }
    rewrite RS, <- PP.
    set (w := wigner_d _ _ _ _). set (fp := prod_factor _ _ _ _). set (fd := dec_factor _ _ _).
    transitivity (RtoC (IZR (P0 * PR * Pk) * IZR (PR * Pa * Pb) *
      (parity_sign (p_spin (s k) + at4 l k) * parity_sign (p_spin (s j) + at4 l j) *
       parity_sign (r - (at4 l i - at4 l j)) * parity_sign (p_spin (s 0) - p_spin (ch_resonance c) - p_spin (s k)) *
       parity_sign (p_spin (ch_resonance c) - p_spin (s i) - p_spin (s j)))) * (X c * RtoC w * scal c r * RtoC (fp * fd)))%C.
    { rewrite !RtoC_mult. ring. }
    rewrite SI. rewrite !RtoC_mult. ring.
  Qed.

  Lemma parity_sign_even_sq a b : Z.even a = true -> Z.even (a - b) = true -> (parity_sign (a - b) * parity_sign a = parity_sign b)%R.
  Proof.
    intros Ea Eb. rewrite <- parity_sign_add by exact Eb.
    apply even_half in Ea, Eb. destruct Ea as [x Ea], Eb as [y Eb]. apply (parity_sign_4 _ _ y). lia.
  Qed.
  Lemma alignment_reversed z l l' : helicity_tuple s l -> helicity_tuple s l' ->
    (alignment s z (reversed l) (reversed l') * reversal_sign s p l' = reversal_sign s p l * alignment s z l l')%R.
  Proof.
    intros Hl Hl'. unfold alignment. rewrite !at4_reversed, !wigner_d_flip. unfold reversal_sign.
    assert (T : forall i a b, In i [0; 1; 2; 3] -> Z.even (p_spin (s i) - a) = true -> Z.even (p_spin (s i) - b) = true ->
      (parity_sign (a - b) * parity_sign (p_spin (s i) + b) = parity_sign (p_spin (s i) + a))%R).
    { intros i a b Hi Ea Eb. apply even_half in Ea, Eb. destruct Ea as [x Ea], Eb as [y Eb]. rewrite <- parity_sign_add.
      - f_equal. lia.
      - apply Z.even_spec. exists (y - x). lia. }
    assert (T' : forall i a b, In i [0; 1; 2; 3] -> Z.even (p_spin (s i) - a) = true -> Z.even (p_spin (s i) - b) = true ->
      (parity_sign (b - a) * parity_sign (p_spin (s i) + b) = parity_sign (p_spin (s i) + a))%R).
    { intros i a b Hi Ea Eb. rewrite <- (T i a b Hi Ea Eb). f_equal. apply even_half in Ea, Eb. destruct Ea as [x Ea], Eb as [y Eb].
      replace (b - a) with (- (a - b)) by lia. apply parity_sign_opp. apply Z.even_spec. exists (y - x). lia. }
    pose proof (helicity_even s l) as H. pose proof (helicity_even s l') as H'.
    rewrite <- (T 0 (at4 l 0) (at4 l' 0)), <- (T' 1 (at4 l 1) (at4 l' 1)), <- (T' 2 (at4 l 2) (at4 l' 2)), <- (T' 3 (at4 l 3) (at4 l' 3));
      try (simpl; tauto); try (apply H; [exact Hl|simpl; tauto]); try (apply H'; [exact Hl'|simpl; tauto]).
    ring.
  Qed.
  Lemma aligned_reversed ks A zeta l : helicity_tuple s l ->
    (forall k l', In k ks -> helicity_tuple s l' -> A k (reversed l') = (RtoC (reversal_sign s p l') * A k l')%C) ->
    aligned_amplitude s ks A zeta (reversed l) = (RtoC (reversal_sign s p l) * aligned_amplitude s ks A zeta l)%C.
  Proof.
    intros Hl HA. unfold aligned_amplitude.
    assert (Pm : Permutation (tuples s) (map reversed (tuples s))).
    { assert (Inv : forall x, reversed (reversed x) = x).
      { intros [[[a b] c] e]. cbn [reversed]. rewrite !Z.opp_involutive. reflexivity. }
      apply NoDup_Permutation.
      - apply tuples_NoDup.
      - apply FinFun.Injective_map_NoDup; [|apply tuples_NoDup]. intros x y E. rewrite <- (Inv x), E. apply Inv.
      - intros x. rewrite in_map_iff. split.
        + intros I. exists (reversed x). split; [apply Inv|]. apply tuples_In, reversed_tuple, tuples_In. exact I.
        + intros (y & <- & I). apply tuples_In, reversed_tuple, tuples_In. exact I. }
    rewrite (Csum_perm _ _ _ Pm), Csum_map, <- Csum_scal_l. apply Csum_ext. intros l' Hl'. apply tuples_In in Hl'.
    rewrite <- Csum_scal_l. apply Csum_ext. intros k Hk. rewrite (HA k l' Hk Hl').
    pose proof (alignment_reversed (fun i => zeta i k) l l' Hl Hl') as E.
    transitivity (RtoC (alignment s (fun i => zeta i k) (reversed l) (reversed l') * reversal_sign s p l') * A k l')%C.
    - rewrite RtoC_mult. ring.
    - rewrite E, RtoC_mult. ring.
  Qed.
  Lemma reversal_sign_unit l : Rabs (reversal_sign s p l) = 1%R.
  Proof.
    assert (U : forall z, Rabs (parity_sign z) = 1%R).
    { intros z. unfold parity_sign. destruct (Z.even (z / 2)); [apply Rabs_R1|]. rewrite Rabs_left; lra. }
    unfold reversal_sign. rewrite !Rabs_mult, !U.
    destruct IP as (p0 & p1 & p2 & p3 & _ & _ & _ & _ & P0 & P1 & P2 & P3 & ->).
    destruct P0 as [-> | ->], P1 as [-> | ->], P2 as [-> | ->], P3 as [-> | ->]; cbn [Z.mul Pos.mul];
      rewrite ?Rabs_R1; try lra; rewrite Rabs_left; lra.
  Qed.
End Reversal.

Lemma c85 b s dyn ref cl uc m p :
  std_decay (b_decay b) s -> dynamics_of b dyn -> plain_resonances (b_decay b) ->
  b_prod_helicity b = false -> b_dec_helicity b = false -> formulate b ref cl uc = Ok m ->
  (forall c, In c (d_chains (b_decay b)) -> parity_conserving_chain c) -> intrinsic_parity s p ->
  forall ev l, helicity_tuple s l ->
    (forall k, In k [1; 2; 3] -> amp_value ev m k (reversed l) = (RtoC (reversal_sign s p l) * amp_value ev m k l)%C) /\
    (forall ks zeta, (forall k, In k ks -> In k [1; 2; 3]) ->
       aligned_amplitude s ks (amp_value ev m) zeta (reversed l)
       = (RtoC (reversal_sign s p l) * aligned_amplitude s ks (amp_value ev m) zeta l)%C /\
       Cmod (aligned_amplitude s ks (amp_value ev m) zeta (reversed l)) = Cmod (aligned_amplitude s ks (amp_value ev m) zeta l)).
Proof.
  intros D Y PR E1 E2 F PC IP ev.
  assert (A : forall l k, helicity_tuple s l -> In k [1; 2; 3] ->
    amp_value ev m k (reversed l) = (RtoC (reversal_sign s p l) * amp_value ev m k l)%C).
  { intros l k Hl Hk. destruct (cyclic_ex k Hk) as (i & j & Cy).
    assert (P : b_prod_helicity b = false -> plain_resonances (b_decay b)) by auto.
    rewrite (amplitude_total b s dyn ref cl uc m D Y P F (reversed l) i j k ev (proj2 (reversed_tuple s l) Hl) Cy).
    rewrite (amplitude_total b s dyn ref cl uc m D Y P F l i j k ev Hl Cy).
    rewrite E1, E2.
    rewrite <- (dpd_reversed (b_decay b) s p D PC IP _ _ _ l i j k Cy Hl).
    - destruct uc; reflexivity.
    - intros c r r'. destruct uc; reflexivity. }
  intros l Hl. split; [intros k; apply A; exact Hl|]. intros ks zeta Hks.
  assert (X : aligned_amplitude s ks (amp_value ev m) zeta (reversed l)
       = (RtoC (reversal_sign s p l) * aligned_amplitude s ks (amp_value ev m) zeta l)%C).
  { apply (aligned_reversed s p ks _ zeta l Hl). intros k l' Hk Hl'. apply A; auto. }
  split; [exact X|]. rewrite X, Cmod_mult, Cmod_R, (reversal_sign_unit s p IP). ring.
Qed.
