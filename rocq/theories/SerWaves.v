(** Resonances with different spins in the mass distributions of model files (proofs for C157) *)
From Coq Require Import String ZArith List Bool Reals Lia Lra Psatz Permutation Classical.
From Coquelicot Require Import Coquelicot.
From Verif Require Import Prelude AnglesFacts Spin Decay Expr Angles Sums Wigner CExpr SpecKin SpecDPD Builder
  SpinFacts DecayFacts CExprFacts BuilderFacts ModelFacts KinFacts AnglesProofs RefFacts ParityProofs RelabelFacts BoundedProofs LSProofs SpecObs ObsKin ObsProofs EffectProofs
  SerFormat SerDynamics SpecSerial SerModel SerProofs SerDyn SerFormal SerTotal SpecWeights SerWeights SerPoints SerSymbols SpecSerMassless SpecSerEffect SerEffectProofs SpecSerChain SerChain SpecSerWaves.
From Verif Require SerAmplitude SerDecay WignerFacts JacobiFacts.
Import ListNotations.
Local Open Scope R_scope.

Lemma Cmod_cross a b : Cmod (a + b)%C ^ 2 = Cmod a ^ 2 + Cmod b ^ 2 + 2 * (Re a * Re b + Im a * Im b).
Proof. rewrite !Cmod_sq. destruct a, b. cbn. ring. Qed.
Lemma Im_sum {A} (l : list A) f : Im (Csum l f) = Rsum l (fun x => Im (f x)).
Proof. induction l as [|y l IH]; cbn [Csum Rsum]; [reflexivity|]. rewrite <- IH. reflexivity. Qed.

Section Model.
  Variables (m : model_def) (d : distribution) (s : Z -> state) (r : Z)
    (tl : string -> string) (additional : option (dict string prop_builder))
    (x : chain_def -> content) (w : chain_def -> symbol) (dyn : chain_def -> defexpr).
  Hypothesis H : helicity_definition m d s r tl additional x w dyn.
  Variables (cl : bool) (M : model).
  Hypothesis F : SerAmplitude.formulate m cl tl additional = Ok M.
  Hypothesis W : weights_only w dyn (di_chains d).
  Variables (i j k : Z) (c0 : chain_def).
  Hypothesis Hc0 : In c0 (di_chains d).
  Hypothesis K0 : ct_k (x c0) = k.
  Hypothesis Cy : cyclic i j k.

  Lemma sub_value ev : (forall c l, In c (di_chains d) -> ct_k (x c) <> k -> helicity_tuple s l -> chain_contribution x w dyn ev l c = RtoC 0) ->
    full_value ev M = RtoC (Rsum (tuples s) (fun l => Cmod (Csum (chains_in x d k) (chain_contribution x w dyn ev l)) ^ 2)).
  Proof.
    intros Z0.
    assert (Ik : In k [1; 2; 3]%Z) by (rewrite <- K0; apply (hd_k m d s r tl additional x w dyn H); exact Hc0).
    rewrite (serial_one m d s r tl additional x w dyn H cl M F c0 Hc0 k ev (eq_sym K0)).
    - f_equal. apply Rsum_ext. intros l Hl. apply tuples_In in Hl.
      rewrite (serial_amplitude_value m d s r tl additional x w dyn H cl M F) by assumption. reflexivity.
    - intros k' l Ik' N' Hl. rewrite (serial_amplitude_value m d s r tl additional x w dyn H cl M F) by assumption.
      apply Csum_zero. intros c' I'. apply in_chains_in in I'. destruct I' as [I' E']. apply Z0; [exact I'|congruence|exact Hl].
  Qed.

  Variables (base : symbol -> C) (cpl : string -> list ival -> C) (lo hi : R).
  Hypothesis BT : between_thresholds base i j k.
  Hypothesis Rg : dalitz_range base i j k lo hi.
  Let ev (t : R) := at_point (m_variables M) (dalitz_line base i j k t) cpl.
  Let D (c : chain_def) (t : R) := wigner_d (ct_spin (x c)) (ct_r (x c)) (difference_at i (x c)) (acos (line_N base i j k t / line_root base i j k)).
  Let X c := ceval (Env base cpl) (fun _ => 0%Z) (de_expr (dyn c)).
  Let sgn c := if (ct_i (x c) =? i)%Z then 1 else parity_sign (ct_spin (x c) + ct_r (x c)).

  Lemma waves_wigner t c : In c (di_chains d) -> ct_k (x c) = k ->
    wigner_d (ct_spin (x c)) (ct_r (x c)) (ct_li (x c) - ct_lj (x c)) (Re (e_sym (ev t) (theta_name (ct_i (x c)) (ct_j (x c))))) = sgn c * D c t.
  Proof.
    intros Hc Kc. pose proof (hd_perm m d s r tl additional x w dyn H c Hc) as P. rewrite Kc in P. unfold sgn, D, difference_at.
    destruct (proj1 (serial_angles m d s r tl additional x w dyn H cl M F) c Hc) as (th & T & G).
    set (a := ct_i (x c)) in *. set (b := ct_j (x c)) in *.
    assert (Ord : (a = i /\ b = j) \/ (a = j /\ b = i)).
    { apply SerDecay.perm_123 in P. clear - P Cy. clearbody a b. cbn [In] in P.
      destruct Cy as [E|[E|[E|[]]]]; apply pair_equal_spec in E; destruct E as [E E3]; apply pair_equal_spec in E; destruct E as [E1 E2]; subst i j k;
        repeat destruct P as [P|P]; try contradiction; apply pair_equal_spec in P; destruct P as [P P3]; apply pair_equal_spec in P; destruct P as [P1 P2];
        subst a b; try discriminate P3; auto. }
    assert (TV : Re (e_sym (ev t) (theta_name a b)) = rv (fun y => Re (dalitz_line base i j k t y)) (formulate_scattering_angle a b)).
    { unfold ev, at_point. cbn [e_sym]. rewrite G, T. reflexivity. }
    rewrite TV. pose proof (line_theta base i j k Cy BT t) as LT. unfold line_env in LT.
    destruct Ord as [[Ea Eb]|[Ea Eb]]; rewrite Ea, Eb in *.
    - rewrite Z.eqb_refl, LT. ring.
    - assert (Nij : j <> i) by (destruct Cy as [Q|[Q|[Q|[]]]]; injection Q as <- <- _; discriminate).
      replace (j =? i)%Z with false by (symmetry; apply Z.eqb_neq; exact Nij).
      rewrite (line_angle base i j k t Cy), LT.
      replace (ct_li (x c) - ct_lj (x c))%Z with (- (ct_lj (x c) - ct_li (x c)))%Z by lia. apply wigner_d_pi_minus.
  Qed.
  Let amp (l : Z * Z * Z * Z) c : C := (RtoC (coupling_of (ct_fp (x c)) (ct_r (x c)) (at4 l (ct_k (x c))) (ct_r (x c)) (ct_lk (x c))
     * coupling_of (ct_fd (x c)) (at4 l (ct_i (x c))) (at4 l (ct_j (x c))) (ct_li (x c)) (ct_lj (x c)) * sgn c) * (base (w c) * X c))%C.
  Hypothesis Act : forall c, active w (di_chains d) base c -> in_subsystem x dyn i j k c.

  Lemma waves_weight t c : In c (di_chains d) -> e_sym (ev t) (w c) = base (w c).
  Proof. unfold ev. rewrite <- K0. apply (line_weight m d s r tl additional x w dyn H cl M F c0). Qed.
  Lemma waves_zero t l c : In c (di_chains d) -> base (w c) = RtoC 0 -> chain_contribution x w dyn (ev t) l c = RtoC 0.
  Proof. intros I E. unfold chain_contribution, serial_term. rewrite waves_weight, E by exact I. ring. Qed.
  Lemma waves_contribution t l c : In c (di_chains d) -> chain_contribution x w dyn (ev t) l c = (RtoC (D c t) * amp l c)%C.
  Proof.
    intros I. destruct (classic (base (w c) = RtoC 0)) as [E|N].
    - rewrite waves_zero by assumption. unfold amp. rewrite E. ring.
    - destruct (Act c (conj I N)) as (Kc & _ & Ni & Nj). unfold chain_contribution, serial_term. rewrite waves_weight by exact I.
      rewrite (waves_wigner t c I Kc).
      assert (L : ceval (ev t) (fun _ => 0%Z) (de_expr (dyn c)) = X c).
      { unfold ev. rewrite <- Kc. apply (line_dyn m d s r tl additional x w dyn H cl M F c I i j base cpl Ni Nj). }
      rewrite L. unfold amp. rewrite !RtoC_mult. ring.
  Qed.
  Lemma waves_value t : full_value (ev t) M = RtoC (Rsum (tuples s) (fun l => Cmod (Csum (chains_in x d k) (chain_contribution x w dyn (ev t) l)) ^ 2)).
  Proof.
    apply sub_value. intros c l I N _. apply waves_zero; [exact I|]. apply NNPP. intros Q. exact (N (proj1 (Act c (conj I Q)))).
  Qed.

  Lemma scaled_line base' f t : weights_scaled w (di_chains d) f base base' ->
    weights_scaled w (di_chains d) f (dalitz_line base i j k t) (dalitz_line base' i j k t).
  Proof.
    intros [S1 S2].
    assert (Q : forall y, sassume y = ANonneg -> base y = base' y).
    { intros y A. apply S2. intros N. apply (weight_none m d s r tl additional x w dyn H) in N. congruence. }
    split.
    - intros c I. pose proof (weight_none m d s r tl additional x w dyn H (w c) (ex_intro _ c (conj I eq_refl))) as A. unfold dalitz_line.
      destruct (eqb (w c) (sigma_at j)) eqn:E1; [apply (proj1 (Prelude.eqb_eq _ _)) in E1; rewrite E1 in A; discriminate A|].
      destruct (eqb (w c) (sigma_at i)) eqn:E2; [apply (proj1 (Prelude.eqb_eq _ _)) in E2; rewrite E2 in A; discriminate A|]. apply S1. exact I.
    - intros y N. unfold dalitz_line. destruct (eqb y (sigma_at j)); [reflexivity|].
      destruct (eqb y (sigma_at i)); [|apply S2; exact N]. unfold square_at. rewrite !Q by reflexivity. reflexivity.
  Qed.
  Lemma scaled_value base' keep t : weights_scaled w (di_chains d) (kept keep) base base' ->
    full_value (at_point (m_variables M) (dalitz_line base' i j k t) cpl) M
    = RtoC (Rsum (tuples s) (fun l => Cmod (Csum (chains_in x d k) (fun c => kept keep c * (RtoC (D c t) * amp l c))%C) ^ 2)).
  Proof.
    intros Sc. pose proof (scaled_line base' _ t Sc) as Sl.
    assert (E : forall l c, In c (di_chains d) -> chain_contribution x w dyn (at_point (m_variables M) (dalitz_line base' i j k t) cpl) l c
      = (kept keep c * (RtoC (D c t) * amp l c))%C).
    { intros l c I. rewrite <- waves_contribution by exact I.
      exact (contribution_point m m d d s r r tl additional x w dyn H H (Permutation_refl _) cl cl M M F F _ _ cpl (kept keep) W Sl l c I). }
    rewrite sub_value.
    - f_equal. apply Rsum_ext. intros l _. do 2 f_equal. apply Csum_ext. intros c I. apply in_chains_in in I. apply E. apply I.
    - intros c l I N _. rewrite E by exact I.
      assert (B : base (w c) = RtoC 0) by (apply NNPP; intros Q; exact (N (proj1 (Act c (conj I Q))))).
      unfold amp. rewrite B. ring.
  Qed.

  Lemma overlap_zero c c' : active w (di_chains d) base c -> active w (di_chains d) base c' -> ct_spin (x c) <> ct_spin (x c') ->
    same_helicities i (x c) (x c') -> is_RInt (fun t => D c t * D c' t) lo hi 0.
  Proof.
    intros A A' Nj Sh. destruct (Act c A) as (_ & (R1 & R2) & _). destruct (Act c' A') as (_ & (R1' & R2') & _).
    assert (Pd : forall q, In (ct_li q - ct_lj q)%Z (helicities (ct_spin q)) -> In (difference_at i q) (helicities (ct_spin q))).
    { intros q I. unfold difference_at. destruct (ct_i q =? i)%Z; [exact I|]. apply (proj1 (hel_opposite _ _)) in I.
      replace (ct_lj q - ct_li q)%Z with (- (ct_li q - ct_lj q))%Z by lia. exact I. }
    apply Pd in R2. apply Pd in R2'. unfold same_helicities in Sh.
    set (J := ct_spin (x c)) in *. set (J' := ct_spin (x c')) in *. set (a := ct_r (x c)) in *. set (b := difference_at i (x c)) in *.
    assert (P : forall n h, In h (helicities n) -> is_projection n h = true) by (intros n h I; rewrite is_projection_hel; apply memb_In; exact I).
    assert (Q : exists e, forall t, D c' t = e * wigner_d J' a b (acos (line_N base i j k t / line_root base i j k))).
    { unfold D. destruct Sh as [[E1 E2]|[E1 E2]].
      - exists 1. intros t. fold J'. rewrite <- E1, <- E2. fold a b. ring.
      - exists (parity_sign (a - b)). intros t. fold J'. replace (ct_r (x c')) with (- a)%Z by lia. replace (difference_at i (x c')) with (- b)%Z by lia.
        rewrite wigner_d_flip. ring. }
    assert (R3 : In a (helicities J') /\ In b (helicities J')).
    { destruct Sh as [[E1 E2]|[E1 E2]].
      - rewrite E1, E2. auto.
      - rewrite E1, E2. split; apply (proj1 (hel_opposite _ _)); assumption. }
    destruct Q as (e & Q).
    pose proof (JacobiFacts.wigner_d_overlap J J' a b (P _ _ R1) (P _ _ R2) (P _ _ (proj1 R3)) (P _ _ (proj2 R3))) as I0.
    pose proof (line_integral base i j k Cy BT lo hi _ _ Rg I0) as I1. cbv beta in I1.
    apply (is_RInt_scal (V := R_NormedModule) _ _ _ e) in I1. unfold scal in I1; cbn in I1; unfold mult in I1; cbn in I1.
    unfold JacobiFacts.d_norm in I1. replace (J =? J')%Z with false in I1 by (symmetry; apply Z.eqb_neq; exact Nj).
    replace (e * ((hi - lo) / 2 * 0)) with 0 in I1 by ring.
    eapply is_RInt_ext; [|exact I1]. intros t _. cbv beta. rewrite Q. unfold D. fold J a b.
    match goal with |- @eq _ ?l ?r => change (@eq R l r) end. ring.
  Qed.

  Theorem waves_incoherent base1 base2 keep : weights_scaled w (di_chains d) (kept keep) base base1 ->
    weights_scaled w (di_chains d) (kept (fun c => negb (keep c))) base base2 ->
    (forall c c', active w (di_chains d) base c -> active w (di_chains d) base c' -> keep c = true -> keep c' = false ->
       ct_spin (x c) <> ct_spin (x c') /\ same_helicities i (x c) (x c')) ->
    forall v1 v2,
    is_RInt (fun t => Re (full_value (at_point (m_variables M) (dalitz_line base1 i j k t) cpl) M)) lo hi v1 ->
    is_RInt (fun t => Re (full_value (at_point (m_variables M) (dalitz_line base2 i j k t) cpl) M)) lo hi v2 ->
    is_RInt (fun t => Re (full_value (at_point (m_variables M) (dalitz_line base i j k t) cpl) M)) lo hi (v1 + v2).
  Proof.
    intros S1 S2 Df v1 v2 I1 I2.
    set (u := fun l c => (kept keep c * amp l c)%C). set (v := fun l c => (kept (fun c => negb (keep c)) c * amp l c)%C).
    set (cs := chains_in x d k).
    assert (Cross : is_RInt (fun t => Rsum (tuples s) (fun l => Rsum cs (fun c => Rsum cs (fun c' =>
      (2 * (Re (u l c) * Re (v l c') + Im (u l c) * Im (v l c'))) * (D c t * D c' t))))) lo hi 0).
    { replace 0 with (Rsum (tuples s) (fun _ => Rsum cs (fun _ => Rsum cs (fun _ => 0)))).
      2:{ apply Sums.Rsum_zero. intros l _. apply Sums.Rsum_zero. intros c _. apply Sums.Rsum_zero. reflexivity. }
      apply JacobiFacts.is_RInt_Rsum. intros l _. apply JacobiFacts.is_RInt_Rsum. intros c Hc. apply JacobiFacts.is_RInt_Rsum. intros c' Hc'.
      apply in_chains_in in Hc. apply in_chains_in in Hc'. destruct Hc as [Hc _]. destruct Hc' as [Hc' _].
      assert (Zr : (u l c = RtoC 0 \/ v l c' = RtoC 0) \/ is_RInt (fun t => D c t * D c' t) lo hi 0).
      { unfold u, v, kept. destruct (keep c) eqn:E; [|left; left; ring]. destruct (keep c') eqn:E'; [left; right; cbn [negb]; ring|].
        destruct (classic (base (w c) = RtoC 0)) as [B|B]; [left; left; unfold amp; rewrite B; ring|].
        destruct (classic (base (w c') = RtoC 0)) as [B'|B']; [left; right; unfold amp; rewrite B'; ring|]. right.
        destruct (Df c c' (conj Hc B) (conj Hc' B') E E') as [N Sh]. exact (overlap_zero c c' (conj Hc B) (conj Hc' B') N Sh). }
      destruct Zr as [Zr|I].
      - eapply is_RInt_ext; [|apply (JacobiFacts.is_RInt_zero lo hi)]. intros t _. cbv beta.
        match goal with |- @eq _ ?l ?r => change (@eq R l r) end.
        destruct Zr as [-> | ->]; cbn [Re Im RtoC fst snd]; ring.
      - apply (is_RInt_scal (V := R_NormedModule) _ _ _ (2 * (Re (u l c) * Re (v l c') + Im (u l c) * Im (v l c')))) in I.
        unfold scal in I; cbn [AbelianGroup.sort] in I. rewrite <- (Rmult_0_r (2 * (Re (u l c) * Re (v l c') + Im (u l c) * Im (v l c')))). exact I. }
    pose proof (is_RInt_plus (V := R_NormedModule) _ _ _ _ _ _ (is_RInt_plus (V := R_NormedModule) _ _ _ _ _ _ I1 I2) Cross) as I.
    replace (v1 + v2) with (plus (plus v1 v2) 0) by (unfold plus; cbn; ring).
    eapply is_RInt_ext; [|exact I]. intros t _. cbv beta. fold (ev t).
    rewrite (scaled_value base1 keep t S1), (scaled_value base2 _ t S2), waves_value.
    change (Rsum (tuples s) (fun l => Cmod (Csum (chains_in x d k) (fun c => kept keep c * (RtoC (D c t) * amp l c))%C) ^ 2)
      + Rsum (tuples s) (fun l => Cmod (Csum (chains_in x d k) (fun c => kept (fun c0 => negb (keep c0)) c * (RtoC (D c t) * amp l c))%C) ^ 2)
      + Rsum (tuples s) (fun l => Rsum cs (fun c => Rsum cs (fun c' => (2 * (Re (u l c) * Re (v l c') + Im (u l c) * Im (v l c'))) * (D c t * D c' t))))
      = Rsum (tuples s) (fun l => Cmod (Csum (chains_in x d k) (chain_contribution x w dyn (ev t) l)) ^ 2)).
    rewrite <- !Rsum_plus. apply Rsum_ext. intros l _. fold cs.
    rewrite (Csum_ext cs (chain_contribution x w dyn (ev t) l) (fun c => kept keep c * (RtoC (D c t) * amp l c) + kept (fun c0 => negb (keep c0)) c * (RtoC (D c t) * amp l c))%C).
    2:{ intros c Hc. apply in_chains_in in Hc. destruct Hc as [Hc _]. rewrite waves_contribution by exact Hc. unfold kept. destruct (keep c); cbn [negb]; ring. }
    rewrite Csum_plus, Cmod_cross. f_equal. rewrite !Csum_Re, !Im_sum.
    rewrite <- !Rsum_scal_r.
    rewrite <- Rsum_plus, <- Rsum_scal_l. apply Rsum_ext. intros c _.
    rewrite <- !Rsum_scal_l, <- Rsum_plus, <- Rsum_scal_l. apply Rsum_ext. intros c' _.
    unfold u, v, kept. destruct (keep c), (keep c'); cbn [negb]; destruct (amp l c), (amp l c'); cbn; ring.
  Qed.
End Model.
