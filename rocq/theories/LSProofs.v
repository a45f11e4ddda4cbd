(** Change of basis between LS couplings and helicity couplings. *)
From Coq Require Import ZArith QArith Qcanon List Bool Reals Arith Lra Lia Permutation.
From Coquelicot Require Import Complex.
From Verif Require Import Prelude Spin SpinFacts SpinProofs Sums Wigner CG WignerFacts CGFacts CGOrth CGComplete Decay
  Expr CExpr SpecDPD SpecLS LSBasis.
From Verif Require Import CExprFacts Builder BuilderFacts BuilderProofs.
From Verif Require QrulesConvert.
Import ListNotations.
Local Open Scope Z_scope.

(** ** The generated couplings *)
Lemma spin_value_half z : spin_value (half z) = Ok z.
Proof.
  apply QrulesConvert.spin_value_spec. rewrite half_of_Z.
  transitivity (half z + half z)%Qc; [rewrite half_add; f_equal; lia|].
  replace (Qc_of_Z 2) with (1 + 1)%Qc by (apply Qc_is_canon; reflexivity). ring.
Qed.
Definition phi (c : ls_coupling) : Z * Qc := (ls_L c, half (ls_S c)).
Lemma phi_inj c c' : phi c = phi c' -> c = c'.
Proof.
  unfold phi. intros H. apply pair_equal_spec in H. destruct H as [H1 H2]. apply half_inj in H2.
  destruct c, c'. cbn in *. congruence.
Qed.
Lemma map_phi_inj cs cs' : map phi cs = map phi cs' -> cs = cs'.
Proof.
  revert cs'. induction cs as [|c cs IH]; intros [|d cs'] E; try discriminate; [reflexivity|].
  cbn [map] in E. pose proof (f_equal (hd (phi c)) E) as E1. pose proof (f_equal (@tl _) E) as E2. cbn [hd tl] in E1, E2.
  apply phi_inj in E1. subst d. f_equal. apply IH. exact E2.
Qed.
Lemma mapM_phi ls cs : (forall x, In x ls -> exists z, snd x = half z) ->
  mapM (fun x => mk_ls (fst x) (snd x)) ls = Ok cs <-> ls = map phi cs.
Proof.
  revert cs. induction ls as [|[L S] ls IH]; intros cs H.
  - cbn. split; [intros E; injection E as <-; reflexivity|]. destruct cs; [reflexivity|discriminate].
  - destruct (H _ (or_introl eq_refl)) as [z Hz]. cbn [snd] in Hz. subst S.
    cbn [mapM fst snd]. unfold mk_ls at 1. rewrite spin_value_half. cbn [bind].
    assert (I : forall cs, mapM (fun x => mk_ls (fst x) (snd x)) ls = Ok cs <-> ls = map phi cs).
    { intros. apply IH. intros x Hx. apply H. right. exact Hx. }
    clear IH H. destruct (mapM _ ls) as [bs|e] eqn:E; cbn [bind].
    + pose proof (proj1 (I bs) eq_refl) as ->. split.
      * intros X. injection X as <-. reflexivity.
      * destruct cs as [|c cs]; [discriminate|]. cbn [map]. intros X. change ((L, half z) :: map phi bs) with (map phi (LS L z :: bs)) in X.
        change (phi c :: map phi cs) with (map phi (c :: cs)) in X. apply map_phi_inj in X. rewrite <- X. reflexivity.
    + split; [discriminate|]. destruct cs as [|c cs]; [discriminate|]. cbn [map]. intros X. pose proof (f_equal (@tl _) X) as X3. cbn [tl] in X3.
      apply I in X3. discriminate.
Qed.
Lemma mapM_phi_ex ls : (forall x, In x ls -> exists z, snd x = half z) -> exists cs, ls = map phi cs.
Proof.
  induction ls as [|[L S] ls IH]; intros H; [exists []; reflexivity|].
  destruct IH as [cs ->]; [intros x Hx; apply H; right; exact Hx|].
  destruct (H _ (or_introl eq_refl)) as [z Hz]. cbn [snd] in Hz. subst S. exists (LS L z :: cs). reflexivity.
Qed.

Section Gen.
  Variables J j1 j2 max_L : Z.
  Hypothesis H1 : 0 <= j1.
  Hypothesis H2 : 0 <= j2.
  Hypothesis HJ : 0 <= J.
  Hypothesis Ev : Z.even (J + j1 + j2) = true.
  Hypothesis Big : J + j1 + j2 <= 2 * max_L.
  Lemma gen_spec : exists cs, generate_ls_couplings (half J) (half j1) (half j2) max_L = Ok (map phi cs) /\
    Permutation cs (ls_all J j1 j2).
  Proof.
    destruct (generate_ls_sound_complete J j1 j2 max_L H1 H2) as (ls & E & N & _ & I).
    destruct (mapM_phi_ex ls) as [cs ->].
    { intros [L S] Hx. apply I in Hx. destruct Hx as (S2 & -> & _). exists S2. reflexivity. }
    exists cs. split; [exact E|]. apply NoDup_Permutation.
    - eapply NoDup_map_inv; exact N.
    - apply ls_all_NoDup. exact Ev.
    - intros c. rewrite ls_all_In by exact Ev. unfold physical_ls. rewrite !triangle_spec. 
      transitivity (In (phi c) (map phi cs)).
      { rewrite in_map_iff. split; [intros; exists c; auto|]. intros (c' & Q & X). apply phi_inj in Q. subst. exact X. }
      unfold phi at 1. rewrite I. split.
      + intros (S2 & Q & B & T & V & W). apply half_inj in Q. subst S2. split; [split; [lia|exact V]|].
        split; [lia|]. apply even_half in V, Ev. destruct V as [a V], Ev as [b W']. apply (even_diff _ (ls_L c + b - J - a)). lia.
      + intros [[T V] [W U]]. exists (ls_S c). split; [reflexivity|]. split; [|split; [lia|split; [exact V|lia]]]. lia.
  Qed.
  Lemma gen_half x ls : generate_ls_couplings (half J) (half j1) (half j2) max_L = Ok ls -> In x ls -> exists z, snd x = half z.
  Proof.
    intros E I. destruct gen_spec as (cs & G & _). rewrite G in E. injection E as <-.
    apply in_map_iff in I. destruct I as (c & <- & _). exists (ls_S c). reflexivity.
  Qed.
  Lemma ls_couplings_perm cs : ls_couplings_of J j1 j2 max_L cs -> Permutation cs (ls_all J j1 j2).
  Proof.
    intros (ls & E & M). apply (mapM_phi ls cs) in M; [|intros x; apply (gen_half x ls E)].
    destruct gen_spec as (cs' & G & P). rewrite G in E. injection E as E. rewrite M in E.
    apply map_phi_inj in E. rewrite <- E. exact P.
  Qed.
  Lemma ls_couplings_ex : exists cs, ls_couplings_of J j1 j2 max_L cs.
  Proof.
    destruct gen_spec as (cs & G & _). exists cs, (map phi cs). split; [exact G|].
    apply mapM_phi; [|reflexivity]. intros x; apply (gen_half x _ G).
  Qed.
  Lemma filter_phi p p1 p2 cs : filter_parity_violating_ls (map phi cs) p p1 p2
    = map phi (filter (fun c => p =? p1 * p2 * minus_one_pow (ls_L c)) cs).
  Proof.
    unfold filter_parity_violating_ls. induction cs as [|c cs IH]; [reflexivity|]. cbn [map filter phi fst].
    destruct (p =? p1 * p2 * minus_one_pow (ls_L c)); cbn [map]; rewrite IH; reflexivity.
  Qed.
  Lemma parity_couplings_perm p p1 p2 cs : parity_couplings_of J j1 j2 max_L p p1 p2 cs ->
    Permutation cs (filter (fun c => p =? p1 * p2 * minus_one_pow (ls_L c)) (ls_all J j1 j2)).
  Proof.
    intros (ls & E & M). destruct gen_spec as (cs' & G & P). rewrite G in E. injection E as <-.
    rewrite filter_phi in M. apply mapM_phi in M.
    - assert (X : cs = filter (fun c => p =? p1 * p2 * minus_one_pow (ls_L c)) cs').
      { symmetry. apply map_phi_inj. exact M. }
      subst cs. clear -P. induction P; cbn [filter]; try constructor.
      + destruct (p =? p1 * p2 * minus_one_pow (ls_L x)); auto.
      + destruct (p =? p1 * p2 * minus_one_pow (ls_L x)), (p =? p1 * p2 * minus_one_pow (ls_L y)); auto; constructor.
      + eapply perm_trans; eauto.
    - intros x I. apply in_map_iff in I. destruct I as (c & <- & _). exists (ls_S c). reflexivity.
  Qed.
  Lemma parity_couplings_ex p p1 p2 : exists cs, parity_couplings_of J j1 j2 max_L p p1 p2 cs.
  Proof.
    destruct gen_spec as (cs & G & _).
    exists (filter (fun c => p =? p1 * p2 * minus_one_pow (ls_L c)) cs), (map phi cs). split; [exact G|].
    rewrite filter_phi. apply mapM_phi; [|reflexivity].
    intros x I. apply in_map_iff in I. destruct I as (c & <- & _). exists (ls_S c). reflexivity.
  Qed.
End Gen.

(** ** Counting *)
Lemma ls_factor_out J c j1 l1 j2 l2 : J < Z.abs (l1 - l2) -> ls_factor J c j1 l1 j2 l2 = 0%R.
Proof.
  intros H. unfold ls_factor. rewrite (cg_zero_l _ _ _ _ J (l1 - l2)); [ring|].
  destruct (is_projection J (l1 - l2)) eqn:E; [|reflexivity]. apply is_projection_spec in E. lia.
Qed.
Lemma Rsum_list_prod {A B} (l : list A) (l' : list B) f :
  Rsum (list_prod l l') f = Rsum l (fun x => Rsum l' (fun y => f (x, y))).
Proof. induction l; cbn [list_prod Rsum]; [reflexivity|]. rewrite Rsum_app, Rsum_map, IHl. reflexivity. Qed.
Lemma Rsum_pairs J j1 j2 f : (forall l1 l2, J < Z.abs (l1 - l2) -> f (l1, l2) = 0%R) ->
  Rsum (helicity_pairs J j1 j2) f = Rsum (helicities j1) (fun l1 => Rsum (helicities j2) (fun l2 => f (l1, l2))).
Proof.
  intros H. unfold helicity_pairs. rewrite Rsum_filter, Rsum_list_prod.
  apply Rsum_ext. intros l1 _. apply Rsum_ext. intros l2 _. cbn [fst snd].
  destruct (Z.leb_spec (Z.abs (l1 - l2)) J); [reflexivity|]. rewrite H by lia. reflexivity.
Qed.
Lemma helicity_pairs_In J j1 j2 l1 l2 : In (l1, l2) (helicity_pairs J j1 j2) <->
  In l1 (helicities j1) /\ In l2 (helicities j2) /\ Z.abs (l1 - l2) <= J.
Proof. unfold helicity_pairs. rewrite filter_In, in_prod_iff. cbn [fst snd]. rewrite Z.leb_le. tauto. Qed.
Lemma ls_orth_pairs J j1 j2 c c' : 0 <= J -> 0 <= j1 -> 0 <= j2 -> physical_ls J j1 j2 c -> physical_ls J j1 j2 c' ->
  Rsum (helicity_pairs J j1 j2) (fun p => ls_factor J c j1 (fst p) j2 (snd p) * ls_factor J c' j1 (fst p) j2 (snd p))%R
  = if eq_dec c c' then 1%R else 0%R.
Proof.
  intros. rewrite Rsum_pairs.
  - cbn [fst snd]. apply ls_orthonormal; auto.
  - intros l1 l2 L. cbn [fst snd]. rewrite ls_factor_out by exact L. ring.
Qed.
Lemma ls_count J j1 j2 : 0 <= J -> 0 <= j1 -> 0 <= j2 -> Z.even (J + j1 + j2) = true ->
  length (ls_all J j1 j2) = length (helicity_pairs J j1 j2).
Proof.
  intros HJ H1 H2 E. apply INR_eq.
  transitivity (Rsum (ls_all J j1 j2) (fun c => Rsum (helicity_pairs J j1 j2) (fun p =>
     ls_factor J c j1 (fst p) j2 (snd p) * ls_factor J c j1 (fst p) j2 (snd p))%R)).
  - transitivity (Rsum (ls_all J j1 j2) (fun _ => 1%R)); [rewrite Rsum_const; ring|].
    apply Rsum_ext. intros c Hc. apply ls_all_In in Hc; [|exact E]. rewrite ls_orth_pairs by auto.
    destruct (eq_dec c c); [reflexivity|contradiction].
  - rewrite Rsum_swap. rewrite (Rsum_ext _ _ (fun _ => 1%R)); [rewrite Rsum_const; ring|].
    intros [l1 l2] Hp. apply helicity_pairs_In in Hp. cbn [fst snd]. rewrite ls_complete by tauto.
    rewrite !Z.eqb_refl. reflexivity.
Qed.

(** ** Parity *)
Lemma parity_sign_pow z n : z = 2 * Z.of_nat n -> parity_sign z = ((-1) ^ n)%R.
Proof.
  intros ->. unfold parity_sign. rewrite half_2. induction n as [|n IH]; [reflexivity|].
  rewrite Nat2Z.inj_succ, Z.even_succ, <- Z.negb_even. cbn [pow]. rewrite <- IH.
  destruct (Z.even (Z.of_nat n)); cbn [negb]; lra.
Qed.
Lemma parity_sign_add a b : Z.even a = true -> parity_sign (a + b) = (parity_sign a * parity_sign b)%R.
Proof.
  intros E. apply even_half in E. destruct E as [q ->]. unfold parity_sign.
  rewrite half_2. replace (2 * q + b) with (b + q * 2) by lia. rewrite Z.div_add by lia. rewrite Z.even_add.
  destruct (Z.even (b / 2)), (Z.even q); simpl; lra.
Qed.
Lemma parity_sign_sq z : (parity_sign z * parity_sign z = 1)%R.
Proof. unfold parity_sign. destruct (Z.even (z / 2)); lra. Qed.
Lemma parity_sign_opp z : Z.even z = true -> parity_sign (- z) = parity_sign z.
Proof.
  intros E. apply even_half in E. destruct E as [q ->]. unfold parity_sign.
  replace (- (2 * q)) with (2 * - q) by lia. rewrite !half_2, Z.even_opp. reflexivity.
Qed.
Lemma cg_sign_parity j1 j2 J : triangle j1 j2 J = true -> cg_sign j1 j2 J = parity_sign (j1 + j2 - J).
Proof.
  rewrite triangle_spec. intros [B E]. apply even_half in E. destruct E as [q Hq]. unfold cg_sign. rewrite Hq, half_2.
  symmetry. apply parity_sign_pow. lia.
Qed.
Lemma ls_factor_flip J j1 j2 c l1 l2 : physical_ls J j1 j2 c ->
  ls_factor J c j1 (- l1) j2 (- l2) = (parity_sign (2 * ls_L c + j1 + j2 - J) * ls_factor J c j1 l1 j2 l2)%R.
Proof.
  intros [T1 T2]. unfold ls_factor. replace (- l1 - - l2) with (- (l1 - l2)) by lia.
  rewrite (cg_flip j1 l1 j2 (- l2) (ls_S c) (l1 - l2)).
  replace (cg (2 * ls_L c) 0 (ls_S c) (- (l1 - l2)) J (- (l1 - l2)))
    with (cg (2 * ls_L c) (- 0) (ls_S c) (- (l1 - l2)) J (- (l1 - l2))) by reflexivity.
  rewrite cg_flip, !cg_sign_parity by auto.
  replace (2 * ls_L c + j1 + j2 - J) with ((2 * ls_L c + ls_S c - J) + (j1 + j2 - ls_S c)) by lia.
  rewrite parity_sign_add; [ring|]. apply triangle_spec in T2. tauto.
Qed.
Lemma parity_sign_L L : parity_sign (2 * L) = IZR (minus_one_pow L).
Proof. unfold parity_sign, minus_one_pow. rewrite half_2. destruct (Z.even L); reflexivity. Qed.
Lemma parity_filter p p1 p2 L : is_parity p -> is_parity p1 -> is_parity p2 ->
  (p =? p1 * p2 * minus_one_pow L) = (minus_one_pow L =? p * p1 * p2).
Proof.
  unfold minus_one_pow. intros [-> | ->] [-> | ->] [-> | ->]; destruct (Z.even L); reflexivity.
Qed.
(** the sign of all vertex factors under reversal of the helicities *)
Lemma ls_flip_parity J j1 j2 c p p1 p2 l1 l2 : is_parity p -> is_parity p1 -> is_parity p2 ->
  physical_ls J j1 j2 c -> Z.even (J + j1 + j2) = true -> (p =? p1 * p2 * minus_one_pow (ls_L c)) = true ->
  ls_factor J c j1 (- l1) j2 (- l2) = (IZR (p * p1 * p2) * parity_sign (J - j1 - j2) * ls_factor J c j1 l1 j2 l2)%R.
Proof.
  intros P P1 P2 Ph E F. rewrite ls_factor_flip by exact Ph. f_equal.
  rewrite parity_filter in F by auto. apply Z.eqb_eq in F. rewrite <- F, <- parity_sign_L.
  rewrite <- (parity_sign_opp (J - j1 - j2)), <- parity_sign_add.
  - f_equal. lia.
  - rewrite Z.even_mul. reflexivity.
  - apply even_half in E. destruct E as [q E]. apply (even_diff _ (q - j1 - j2)). lia.
Qed.
Lemma Rsum_if {A} (l : list A) (P : A -> bool) : Rsum l (fun x => if P x then 1%R else 0%R) = INR (length (filter P l)).
Proof. induction l; cbn [Rsum filter]; [reflexivity|]. rewrite IHl. destruct (P a); cbn [length]; rewrite ?S_INR; lra. Qed.
Lemma helicity_pairs_NoDup J j1 j2 : NoDup (helicity_pairs J j1 j2).
Proof.
  unfold helicity_pairs. apply NoDup_filter. rewrite !helicities_range.
  assert (G : forall (l l' : list Z), NoDup l -> NoDup l' -> NoDup (list_prod l l')).
  { induction l as [|x l IH]; intros l' N N'; [constructor|]. inversion_clear N. cbn [list_prod].
    apply ModelFacts.NoDup_app2; auto.
    - apply FinFun.Injective_map_NoDup; [intros a b X; congruence|exact N'].
    - intros [a b] I I'. apply in_map_iff in I. destruct I as (y & X & _). apply in_prod_iff in I'. 
      injection X as -> _. tauto. }
  apply G; apply spin_range2_NoDup.
Qed.
Lemma parity_count J j1 j2 p p1 p2 : is_parity p -> is_parity p1 -> is_parity p2 ->
  0 <= J -> 0 <= j1 -> 0 <= j2 -> Z.even (J + j1 + j2) = true ->
  (2 * INR (length (filter (fun c => p =? p1 * p2 * minus_one_pow (ls_L c)) (ls_all J j1 j2)))
  = INR (length (helicity_pairs J j1 j2))
    + IZR (p * p1 * p2) * parity_sign (J - j1 - j2) * (if Z.even j1 && Z.even j2 then 1 else 0))%R.
Proof.
  intros P P1 P2 HJ H1 H2 E.
  set (eta := (IZR (p * p1 * p2) * parity_sign (J - j1 - j2))%R).
  assert (EJ : Z.even (J - j1 - j2) = true).
  { pose proof E as E'. apply even_half in E'. destruct E' as [q E']. apply (even_diff _ (q - j1 - j2)). lia. }
  (* sum of the signs of all couplings *)
  assert (T : Rsum (ls_all J j1 j2) (fun c => parity_sign (2 * ls_L c + j1 + j2 - J)) = (if Z.even j1 && Z.even j2 then 1 else 0)%R).
  { transitivity (Rsum (ls_all J j1 j2) (fun c => Rsum (helicity_pairs J j1 j2) (fun q =>
       ls_factor J c j1 (fst q) j2 (snd q) * ls_factor J c j1 (- fst q) j2 (- snd q)))%R).
    - apply Rsum_ext. intros c Hc. apply ls_all_In in Hc; [|exact E].
      rewrite (Rsum_ext _ _ (fun q => parity_sign (2 * ls_L c + j1 + j2 - J) *
        (ls_factor J c j1 (fst q) j2 (snd q) * ls_factor J c j1 (fst q) j2 (snd q)))%R).
      + rewrite Rsum_scal_l, ls_orth_pairs by auto. destruct (eq_dec c c); [ring|contradiction].
      + intros q _. rewrite ls_factor_flip by exact Hc. ring.
    - rewrite Rsum_swap.
      rewrite (Rsum_ext _ _ (fun q => if (fst q =? 0) && (snd q =? 0) then 1%R else 0%R)).
      + destruct (Z.even j1 && Z.even j2) eqn:Z0.
        * apply andb_true_iff in Z0. destruct Z0 as [Z1 Z2]. rewrite (Rsum_single _ (0, 0)).
          -- reflexivity.
          -- apply helicity_pairs_NoDup.
          -- apply helicity_pairs_In. rewrite !helicities_range, <- !is_projection_In, !is_projection_spec, !Z.sub_0_r. repeat split; auto; lia.
          -- intros [a b] _ N. cbn [fst snd]. destruct (Z.eqb_spec a 0), (Z.eqb_spec b 0); try reflexivity. congruence.
        * apply Rsum_zero. intros [a b] I. apply helicity_pairs_In in I. cbn [fst snd].
          destruct (Z.eqb_spec a 0), (Z.eqb_spec b 0); try reflexivity. subst.
          destruct I as (I1 & I2 & _). rewrite helicities_range, <- is_projection_In, is_projection_spec, Z.sub_0_r in I1, I2.
          destruct I1 as [_ I1], I2 as [_ I2]. rewrite I1, I2 in Z0. discriminate.
      + intros [l1 l2] I. apply helicity_pairs_In in I. cbn [fst snd]. destruct I as (I1 & I2 & B).
        rewrite ls_complete; auto.
        * destruct (Z.eqb_spec l1 (- l1)), (Z.eqb_spec l2 (- l2)), (Z.eqb_spec l1 0), (Z.eqb_spec l2 0); simpl; try reflexivity; lia.
        * rewrite helicities_range, <- is_projection_In, is_projection_opp, is_projection_In, <- helicities_range. exact I1.
        * rewrite helicities_range, <- is_projection_In, is_projection_opp, is_projection_In, <- helicities_range. exact I2.
        * lia. }
  rewrite <- T, <- ls_count by auto. rewrite <- Rsum_if, <- Rsum_scal_l, <- Rsum_scal_l.
  replace (INR (length (ls_all J j1 j2))) with (Rsum (ls_all J j1 j2) (fun _ => 1%R)) by (rewrite Rsum_const; ring).
  rewrite <- Rsum_plus. apply Rsum_ext. intros c _. unfold eta.
  rewrite parity_filter by auto.
  replace (2 * ls_L c + j1 + j2 - J) with (2 * ls_L c + - (J - j1 - j2)) by lia.
  rewrite parity_sign_add by (rewrite Z.even_mul; reflexivity). rewrite parity_sign_opp by exact EJ.
  rewrite parity_sign_L. pose proof (parity_sign_sq (J - j1 - j2)) as Q.
  set (s := parity_sign (J - j1 - j2)) in *.
  assert (R : (IZR (p * p1 * p2) * s * (IZR (minus_one_pow (ls_L c)) * s) = IZR (p * p1 * p2) * IZR (minus_one_pow (ls_L c)))%R).
  { transitivity (IZR (p * p1 * p2) * IZR (minus_one_pow (ls_L c)) * (s * s))%R; [ring|]. rewrite Q. ring. }
  rewrite R. unfold minus_one_pow.
  destruct P as [-> | ->], P1 as [-> | ->], P2 as [-> | ->], (Z.even (ls_L c)); simpl; lra.
Qed.

(** ** Vertices *)
Lemma vertex_value_factor parent c1 c2 c l1 l2 v : to_particle c1 <> to_particle c2 ->
  vertex_value parent c1 c2 c l1 l2 v <->
  v = RtoC (ls_factor (p_spin (pobj_particle parent)) c (spin_of c1) l1 (spin_of c2) l2).
Proof.
  intros N.
  assert (D1 : dget (to_particle c1) [(to_particle c1, HVal l1); (to_particle c2, HVal l2)] = Some (HVal l1)).
  { cbn [dget]. destruct (eq_dec (to_particle c1) (to_particle c1)); [reflexivity|contradiction]. }
  assert (D2 : dget (to_particle c2) [(to_particle c1, HVal l1); (to_particle c2, HVal l2)] = Some (HVal l2)).
  { cbn [dget]. destruct (eq_dec (to_particle c2) (to_particle c1)); [congruence|].
    destruct (eq_dec (to_particle c2) (to_particle c2)); [reflexivity|contradiction]. }
  assert (F : exists e, formulate_clebsch_gordan_factors (Node parent c1 c2 (Some c))
     [(to_particle c1, HVal l1); (to_particle c2, HVal l2)] = Ok e).
  { unfold formulate_clebsch_gordan_factors.
    rewrite (proj2 (dgetitem_ok _ _ _) D1), (proj2 (dgetitem_ok _ _ _) D2). cbn [bind]. eexists. reflexivity. }
  assert (W : forall ev h e, formulate_clebsch_gordan_factors (Node parent c1 c2 (Some c))
     [(to_particle c1, HVal l1); (to_particle c2, HVal l2)] = Ok e ->
     ceval ev h e = RtoC (ls_factor (p_spin (pobj_particle parent)) c (spin_of c1) l1 (spin_of c2) l2)).
  { intros ev h e E. rewrite (cg_value' ev h parent c1 c2 c _ _ _ e E D1 D2). reflexivity. }
  split.
  - intros (e & E & V). rewrite <- (V (Env (fun _ => RtoC 0) (fun _ _ => RtoC 0)) (fun _ => 0)). apply W. exact E.
  - intros ->. destruct F as [e E]. exists e. split; [exact E|]. intros ev h. apply W. exact E.
Qed.

Section Vertex.
  Variables (parent : pobj) (c1 c2 : tree) (max_L : Z).
  Hypothesis Vx : is_vertex parent c1 c2.
  Hypothesis Big : large_L parent c1 c2 max_L.
  Notation J := (p_spin (pobj_particle parent)).
  Notation j1 := (spin_of c1).
  Notation j2 := (spin_of c2).
  Notation T := (fun c l1 l2 => ls_factor J c j1 l1 j2 l2).
  Lemma vx_pos : 0 <= J /\ 0 <= j1 /\ 0 <= j2.
  Proof. destruct Vx as (_ & A & B & C & _). auto. Qed.
  Lemma vx_even : Z.even (J + j1 + j2) = true.
  Proof. destruct Vx as (_ & _ & _ & _ & E). exact E. Qed.
  Lemma vx_neq : to_particle c1 <> to_particle c2.
  Proof. destruct Vx. auto. Qed.

  Lemma all_physical cs c : ls_couplings_of J j1 j2 max_L cs -> In c cs <-> physical_ls J j1 j2 c.
  Proof.
    intros G. destruct vx_pos as (PJ & P1 & P2).
    assert (P := ls_couplings_perm J j1 j2 max_L P1 P2 PJ vx_even Big cs G).
    rewrite <- (ls_all_In J j1 j2 c vx_even). split; intros I; [eapply Permutation_in; eauto|].
    eapply Permutation_in; [apply Permutation_sym|]; eauto.
  Qed.

  Lemma c80_basis : exists cs, ls_couplings_of J j1 j2 max_L cs /\ NoDup cs /\
    length cs = length (helicity_pairs J j1 j2) /\
    exists V : ls_coupling -> Z -> Z -> R,
      (forall c l1 l2, vertex_value parent c1 c2 c l1 l2 (RtoC (V c l1 l2))) /\
      (forall c l1 l2, J < Z.abs (l1 - l2) -> V c l1 l2 = 0%R) /\
      (forall c c', In c cs -> In c' cs ->
         Rsum (helicity_pairs J j1 j2) (fun q => V c (fst q) (snd q) * V c' (fst q) (snd q))%R
         = if eq_dec c c' then 1%R else 0%R) /\
      (forall q q', In q (helicity_pairs J j1 j2) -> In q' (helicity_pairs J j1 j2) ->
         Rsum cs (fun c => V c (fst q) (snd q) * V c (fst q') (snd q'))%R = if eq_dec q q' then 1%R else 0%R).
  Proof.
    destruct vx_pos as (PJ & P1 & P2). pose proof vx_even as E.
    destruct (ls_couplings_ex J j1 j2 max_L P1 P2 PJ vx_even Big) as [cs G].
    assert (P := ls_couplings_perm J j1 j2 max_L P1 P2 PJ vx_even Big cs G).
    exists cs. split; [exact G|]. split; [|split; [|exists T; split; [|split; [|split]]]].
    - eapply Permutation_NoDup; [apply Permutation_sym, P|]. apply ls_all_NoDup. exact E.
    - rewrite (Permutation_length P). apply ls_count; auto.
    - intros c l1 l2. apply vertex_value_factor; [exact vx_neq|reflexivity].
    - intros. apply ls_factor_out. auto.
    - intros c c' I I'. rewrite all_physical in I, I' by exact G. apply ls_orth_pairs; auto.
    - intros [l1 l2] [l1' l2'] I I'. rewrite helicity_pairs_In in I, I'. cbn [fst snd].
      rewrite (Rsum_perm _ _ _ P). rewrite ls_complete by tauto.
      destruct (Z.eqb_spec l1 l1'), (Z.eqb_spec l2 l2'), (eq_dec (l1, l2) (l1', l2')); simpl; congruence.
  Qed.

  (** the coefficients of given helicity couplings *)
  Definition coef (H : Z * Z -> C) (c : ls_coupling) : C :=
    Csum (helicity_pairs J j1 j2) (fun q => RtoC (T c (fst q) (snd q)) * H q)%C.
  Lemma coef_expand cs H q : ls_couplings_of J j1 j2 max_L cs -> In q (helicity_pairs J j1 j2) ->
    H q = Csum cs (fun c => coef H c * RtoC (T c (fst q) (snd q)))%C.
  Proof.
    destruct vx_pos as (PJ & P1 & P2). pose proof vx_even as E. intros G I.
    assert (P := ls_couplings_perm J j1 j2 max_L P1 P2 PJ vx_even Big cs G).
    rewrite (Csum_perm _ _ _ P). unfold coef.
    rewrite (Csum_ext _ _ (fun c => Csum (helicity_pairs J j1 j2) (fun q' =>
      RtoC (T c (fst q) (snd q) * T c (fst q') (snd q')) * H q'))%C).
    - rewrite Csum_swap.
      rewrite (Csum_single _ q); [|apply helicity_pairs_NoDup|exact I|].
      + rewrite Csum_scal_r, Csum_RtoC. destruct q as [l1 l2]. pose proof I as I'. rewrite helicity_pairs_In in I'.
        cbn [fst snd]. rewrite ls_complete by tauto. rewrite !Z.eqb_refl. cbn [andb]. rewrite Cmult_1_l. reflexivity.
      + intros q' I' N. rewrite Csum_scal_r, Csum_RtoC. destruct q as [l1 l2], q' as [l1' l2'].
        rewrite helicity_pairs_In in I, I'. cbn [fst snd]. rewrite ls_complete by tauto.
        destruct (Z.eqb_spec l1 l1'), (Z.eqb_spec l2 l2'); cbn [andb]; try apply Cmult_0_l. congruence.
    - intros c _. rewrite <- Csum_scal_r. apply Csum_ext. intros q' _. rewrite RtoC_mult. ring.
  Qed.
  Lemma coef_unique cs H a : ls_couplings_of J j1 j2 max_L cs ->
    (forall q, In q (helicity_pairs J j1 j2) -> H q = Csum cs (fun c => a c * RtoC (T c (fst q) (snd q)))%C) ->
    forall c, In c cs -> a c = coef H c.
  Proof.
    destruct vx_pos as (PJ & P1 & P2). pose proof vx_even as E. intros G A c I. unfold coef.
    assert (N : NoDup cs).
    { eapply Permutation_NoDup; [apply Permutation_sym, (ls_couplings_perm J j1 j2 max_L P1 P2 PJ vx_even Big cs G)|].
      apply ls_all_NoDup. exact E. }
    rewrite (Csum_ext _ _ (fun q => Csum cs (fun c' => a c' * RtoC (T c (fst q) (snd q) * T c' (fst q) (snd q))))%C).
    - rewrite Csum_swap. rewrite (Csum_single _ c); [|exact N|exact I|].
      + rewrite Csum_scal_l, Csum_RtoC, ls_orth_pairs by (auto; apply (all_physical cs); auto).
        destruct (eq_dec c c); [|contradiction]. rewrite Cmult_1_r. reflexivity.
      + intros c' I' N'. rewrite Csum_scal_l, Csum_RtoC, ls_orth_pairs by (auto; apply (all_physical cs); auto).
        destruct (eq_dec c c'); [congruence|]. apply Cmult_0_r.
    - intros q Iq. rewrite (A q Iq), <- Csum_scal_l. apply Csum_ext. intros c' _. rewrite RtoC_mult. ring.
  Qed.
  Lemma Cconj_sum {A} (l : list A) f : Cconj (Csum l f) = Csum l (fun x => Cconj (f x)).
  Proof.
    induction l; cbn [Csum].
    - unfold Cconj, RtoC. cbn [fst snd]. apply injective_projections; cbn [fst snd]; [reflexivity|apply Ropp_0].
    - rewrite <- IHl. unfold Cconj, Cplus. apply injective_projections; cbn [fst snd]; ring.
  Qed.
  Lemma Cmod2_mult z : RtoC (Cmod z ^ 2) = (z * Cconj z)%C.
  Proof.
    destruct z as [x y]. unfold Cmod. rewrite <- Rsqr_pow2, Rsqr_sqrt.
    - unfold Cmult, Cconj, RtoC. apply injective_projections; cbn [fst snd]; ring.
    - cbn [fst snd]. pose proof (pow2_ge_0 x). pose proof (pow2_ge_0 y). lra.
  Qed.
  Lemma coef_norm cs H : ls_couplings_of J j1 j2 max_L cs ->
    Rsum cs (fun c => Cmod (coef H c) ^ 2)%R = Rsum (helicity_pairs J j1 j2) (fun q => Cmod (H q) ^ 2)%R.
  Proof.
    intros G. apply RtoC_inj. rewrite <- !Csum_RtoC.
    rewrite (Csum_ext (helicity_pairs J j1 j2) _ (fun q => Csum cs (fun c => coef H c * (RtoC (T c (fst q) (snd q)) * Cconj (H q))))%C).
    - rewrite Csum_swap. apply Csum_ext. intros c _. rewrite Csum_scal_l, Cmod2_mult. f_equal.
      unfold coef. rewrite Cconj_sum. apply Csum_ext. intros q _.
      unfold Cconj, Cmult, RtoC. cbn [fst snd]. f_equal; ring.
    - intros q I. rewrite Cmod2_mult. rewrite (coef_expand cs H q G I) at 1. rewrite <- Csum_scal_r.
      apply Csum_ext. intros c _. ring.
  Qed.

  Lemma c80_change cs V H : ls_couplings_of J j1 j2 max_L cs ->
    (forall c l1 l2, In c cs -> vertex_value parent c1 c2 c l1 l2 (V c l1 l2)) ->
    exists a : ls_coupling -> C,
      (forall l1 l2, In (l1, l2) (helicity_pairs J j1 j2) -> H l1 l2 = Csum cs (fun c => a c * V c l1 l2)%C) /\
      Rsum cs (fun c => Cmod (a c) ^ 2)%R = Rsum (helicity_pairs J j1 j2) (fun q => Cmod (H (fst q) (snd q)) ^ 2)%R /\
      (forall a' : ls_coupling -> C,
        (forall l1 l2, In (l1, l2) (helicity_pairs J j1 j2) -> H l1 l2 = Csum cs (fun c => a' c * V c l1 l2)%C) ->
        forall c, In c cs -> a' c = a c).
  Proof.
    intros G HV. set (H' := fun q : Z * Z => H (fst q) (snd q)). exists (coef H').
    assert (X : forall (a : ls_coupling -> C) l1 l2, Csum cs (fun c => a c * V c l1 l2)%C = Csum cs (fun c => a c * RtoC (T c l1 l2))%C).
    { intros a l1 l2. apply Csum_ext. intros c I. f_equal. apply vertex_value_factor; [exact vx_neq|]. apply HV. exact I. }
    split; [|split].
    - intros l1 l2 I. rewrite X. exact (coef_expand cs H' (l1, l2) G I).
    - exact (coef_norm cs H' G).
    - intros a' A. apply (coef_unique cs H' a' G). intros [l1 l2] I. unfold H'. cbn [fst snd]. rewrite (A l1 l2 I). apply X.
  Qed.

  (** ** Parity *)
  Variables p p1 p2 : Z.
  Hypothesis P : is_parity p.
  Hypothesis P1 : is_parity p1.
  Hypothesis P2 : is_parity p2.
  Notation eta := (vertex_parity parent c1 c2 p p1 p2).
  Lemma c81_sign cs c l1 l2 v v' : parity_couplings_of J j1 j2 max_L p p1 p2 cs -> In c cs ->
    vertex_value parent c1 c2 c l1 l2 v -> vertex_value parent c1 c2 c (- l1) (- l2) v' -> v' = (RtoC eta * v)%C.
  Proof.
    destruct vx_pos as (PJ & Q1 & Q2). intros G I E E'.
    apply vertex_value_factor in E, E'; try exact vx_neq. subst.
    eapply Permutation_in in I; [|apply (parity_couplings_perm J j1 j2 max_L Q1 Q2 PJ vx_even Big); exact G].
    apply filter_In in I. destruct I as [I F]. apply ls_all_In in I; [|exact vx_even].
    rewrite (ls_flip_parity J j1 j2 c p p1 p2) by (auto; apply vx_even). unfold vertex_parity. rewrite RtoC_mult. reflexivity.
  Qed.
  Lemma c81_count : exists cs, parity_couplings_of J j1 j2 max_L p p1 p2 cs /\ NoDup cs /\
    (2 * INR (length cs) = INR (length (helicity_pairs J j1 j2)) + eta * zero_pairs c1 c2)%R.
  Proof.
    destruct vx_pos as (PJ & Q1 & Q2).
    destruct (parity_couplings_ex J j1 j2 max_L Q1 Q2 PJ vx_even Big p p1 p2) as [cs G].
    assert (Pm := parity_couplings_perm J j1 j2 max_L Q1 Q2 PJ vx_even Big p p1 p2 cs G).
    exists cs. split; [exact G|]. split.
    - eapply Permutation_NoDup; [apply Permutation_sym, Pm|]. apply NoDup_filter, ls_all_NoDup, vx_even.
    - rewrite (Permutation_length Pm). rewrite parity_count by (auto; apply vx_even). reflexivity.
  Qed.
  Lemma flip_pairs : Permutation (map (fun q => (- fst q, - snd q)) (helicity_pairs J j1 j2)) (helicity_pairs J j1 j2).
  Proof.
    apply NoDup_Permutation.
    - apply FinFun.Injective_map_NoDup; [|apply helicity_pairs_NoDup]. intros [a b] [a' b'] X. cbn [fst snd] in X.
      injection X as X Y. f_equal; lia.
    - apply helicity_pairs_NoDup.
    - intros [a b]. rewrite in_map_iff, helicity_pairs_In.
      assert (O : forall j l, In (- l) (helicities j) <-> In l (helicities j)).
      { intros j l. rewrite !helicities_range, <- !is_projection_In, is_projection_opp. tauto. }
      split.
      + intros ([a' b'] & X & I). cbn [fst snd] in X. injection X as <- <-. apply helicity_pairs_In in I. rewrite !O.
        destruct I as (I1 & I2 & B). split; [exact I1|split; [exact I2|lia]].
      + intros (I1 & I2 & B). exists (- a, - b). cbn [fst snd]. rewrite !Z.opp_involutive. split; [reflexivity|].
        apply helicity_pairs_In. rewrite !O. split; [exact I1|split; [exact I2|lia]].
  Qed.
  Lemma eta_sq : (eta * eta = 1)%R.
  Proof.
    unfold vertex_parity. pose proof (parity_sign_sq (J - j1 - j2)) as Q. set (s := parity_sign (J - j1 - j2)) in *.
    destruct P as [-> | ->], P1 as [-> | ->], P2 as [-> | ->]; cbn; lra.
  Qed.
  Lemma c81_complete cs V H : parity_couplings_of J j1 j2 max_L p p1 p2 cs ->
    (forall c l1 l2, In c cs -> vertex_value parent c1 c2 c l1 l2 (V c l1 l2)) ->
    (forall l1 l2, In (l1, l2) (helicity_pairs J j1 j2) -> H (- l1) (- l2) = (RtoC eta * H l1 l2)%C) ->
    exists a : ls_coupling -> C,
      forall l1 l2, In (l1, l2) (helicity_pairs J j1 j2) -> H l1 l2 = Csum cs (fun c => a c * V c l1 l2)%C.
  Proof.
    destruct vx_pos as (PJ & Q1 & Q2). intros G HV HH. pose proof vx_even as E.
    set (H' := fun q : Z * Z => H (fst q) (snd q)). exists (coef H'). intros l1 l2 I.
    destruct (ls_couplings_ex J j1 j2 max_L Q1 Q2 PJ vx_even Big) as [all Ga].
    assert (Pa := ls_couplings_perm J j1 j2 max_L Q1 Q2 PJ vx_even Big all Ga).
    assert (Pm := parity_couplings_perm J j1 j2 max_L Q1 Q2 PJ vx_even Big p p1 p2 cs G).
    transitivity (Csum cs (fun c => coef H' c * RtoC (T c l1 l2))%C).
    2:{ apply Csum_ext. intros c Ic. f_equal. symmetry. apply vertex_value_factor; [exact vx_neq|]. apply HV. exact Ic. }
    rewrite (Csum_perm _ _ _ Pm), Csum_filter.
    change (H l1 l2) with (H' (l1, l2)). rewrite (coef_expand all H' (l1, l2) Ga I), (Csum_perm _ _ _ Pa).
    apply Csum_ext. intros c Ic. cbn [fst snd].
    destruct (p =? p1 * p2 * minus_one_pow (ls_L c)) eqn:F; [reflexivity|].
    assert (Z0 : coef H' c = (- coef H' c)%C).
    { unfold coef at 1. rewrite <- (Csum_perm _ _ _ flip_pairs), Csum_map. unfold coef. rewrite <- Csum_opp.
      apply Csum_ext. intros [a b] Iq. cbn [fst snd]. unfold H' at 1. cbn [fst snd]. rewrite (HH a b Iq).
      apply ls_all_In in Ic; [|exact E]. rewrite ls_factor_flip by exact Ic.
      assert (S : (parity_sign (2 * ls_L c + j1 + j2 - J) * eta = -1)%R).
      { unfold vertex_parity. rewrite parity_filter in F by auto.
        assert (EJ : Z.even (J - j1 - j2) = true).
        { pose proof E as E'. apply even_half in E'. destruct E' as [q E']. apply (even_diff _ (q - j1 - j2)). lia. }
        replace (2 * ls_L c + j1 + j2 - J) with (2 * ls_L c + - (J - j1 - j2)) by lia.
        rewrite parity_sign_add by (rewrite Z.even_mul; reflexivity). rewrite parity_sign_opp by exact EJ.
        rewrite parity_sign_L. pose proof (parity_sign_sq (J - j1 - j2)) as Q. set (s := parity_sign (J - j1 - j2)) in *.
        unfold minus_one_pow in *. destruct P as [-> | ->], P1 as [-> | ->], P2 as [-> | ->], (Z.even (ls_L c)); cbn in *; try discriminate; lra. }
      unfold H'. cbn [fst snd].
      transitivity (RtoC (parity_sign (2 * ls_L c + j1 + j2 - J) * eta) * (RtoC (T c a b) * H a b))%C.
      - rewrite !RtoC_mult. ring.
      - rewrite S. replace (RtoC (-1)) with (- RtoC 1)%C by (unfold Copp, RtoC; cbn [fst snd]; f_equal; ring). ring. }
    assert (Z1 : coef H' c = RtoC 0).
    { destruct (coef H' c) as [x y]. unfold Copp in Z0. cbn [fst snd] in Z0. injection Z0 as X Y. unfold RtoC. f_equal; lra. }
    rewrite Z1. apply Cmult_0_l.
  Qed.
End Vertex.

(** ** A smaller [max_L] excludes couplings. *)
Lemma c80_max_L parent c1 c2 max_L cs : is_vertex parent c1 c2 -> ~ large_L parent c1 c2 max_L ->
  ls_couplings_of (p_spin (pobj_particle parent)) (spin_of c1) (spin_of c2) max_L cs ->
  (length cs < length (helicity_pairs (p_spin (pobj_particle parent)) (spin_of c1) (spin_of c2)))%nat.
Proof.
  intros (_ & HJ & H1 & H2 & Ev) NL (ls & E & M). unfold large_L in NL.
  set (J := p_spin (pobj_particle parent)) in *. set (j1 := spin_of c1) in *. set (j2 := spin_of c2) in *.
  destruct (generate_ls_sound_complete J j1 j2 max_L H1 H2) as (ls' & E' & N & _ & I).
  rewrite E in E'. injection E' as <-.
  apply mapM_phi in M.
  2:{ intros [L S] Hx. apply I in Hx. destruct Hx as (S2 & -> & _). exists S2. reflexivity. }
  subst ls. pose proof Ev as Ev'. apply even_half in Ev'. destruct Ev' as [q Q].
  rewrite <- ls_count by auto. change (length (LS q (j1 + j2) :: cs) <= length (ls_all J j1 j2))%nat.
  assert (B : forall c, In c cs -> ls_L c <= max_L /\ physical_ls J j1 j2 c).
  { intros c Hc. assert (X : In (phi c) (map phi cs)) by (apply in_map; exact Hc). unfold phi at 1 in X. apply I in X.
    destruct X as (S2 & Y & B & T & V & W). apply half_inj in Y. subst S2. split; [lia|].
    unfold physical_ls. rewrite !triangle_spec. split; [split; [lia|exact V]|]. split; [lia|].
    apply even_half in V. destruct V as [a V]. apply (even_diff _ (ls_L c + q - J - a)). lia. }
  apply NoDup_incl_length.
  - constructor; [|eapply NoDup_map_inv; exact N]. intros X. apply B in X. cbn [ls_L] in X. lia.
  - intros c [<- | Hc]; apply ls_all_In; auto; [|apply B; exact Hc].
    unfold physical_ls. cbn [ls_L ls_S]. rewrite !triangle_spec. split; (split; [lia|]).
    + apply (even_diff _ 0). lia.
    + apply (even_diff _ (j1 + j2)). lia.
Qed.
