(** Resonances of opposite parity in one subsystem of a model file (proofs for C158) *)
From Coq Require Import String ZArith List Bool Reals Lia Lra Psatz Permutation Classical.
From Coquelicot Require Import Complex Hierarchy RInt.
From Verif Require Import Prelude AnglesFacts Spin Decay Expr Angles Sums Wigner CExpr SpecKin SpecDPD Builder
  SpinFacts DecayFacts CExprFacts BuilderFacts ModelFacts RefFacts ParityProofs SpecEnvelope EnvelopeFacts SpecObs
  SerFormat SerDynamics SpecSerial SerModel SerProofs SerDyn SerFormal SerTotal SpecWeights SerWeights SerPoints SerSymbols EnvelopeSerial SpecSerMassless
  SerExamples LcModel LcProofs PartExamples SpecSerEffect SerEffectProofs SerEffectShapes LcEffect
  SpecSerChain SerChain SerChainExamples SpecSerWaves SerWaves SerWavesExamples SpecSerOpposite.
From Verif Require SerAmplitude SerDecay.
Import ListNotations.
Local Open Scope R_scope.

Lemma helicities_rev_R n f : Rsum (helicities n) f = Rsum (helicities n) (fun r => f (- r)%Z).
Proof.
  rewrite <- (Rsum_map (helicities n) Z.opp f). apply Rsum_perm. apply NoDup_Permutation.
  - apply helicities_NoDup.
  - apply FinFun.Injective_map_NoDup; [intros x y E; lia|apply helicities_NoDup].
  - intros z. rewrite in_map_iff. split.
    + intros I. exists (- z)%Z. split; [lia|]. apply helicities_opp. exact I.
    + intros (y & <- & I). apply helicities_opp. exact I.
Qed.
Lemma coupling_odd q q' a b : opposite_parity q q' ->
  coupling_of (ct_fd q) (- a) (- b) (ct_li q) (ct_lj q) * coupling_of (ct_fd q') (- a) (- b) (ct_li q') (ct_lj q')
  = - (coupling_of (ct_fd q) a b (ct_li q) (ct_lj q) * coupling_of (ct_fd q') a b (ct_li q') (ct_lj q')).
Proof.
  intros (_ & _ & Sg & N & P). unfold coupling_of.
  assert (E : (ct_fd q = 1 /\ ct_fd q' = -1)%Z \/ (ct_fd q = -1 /\ ct_fd q' = 1)%Z) by (assert (Q : (ct_fd q * - ct_fd q' = 1)%Z) by lia; apply Z.eq_mul_1 in Q; destruct Q as [Q|Q]; rewrite Q in P; [left|right]; lia).
  set (f := ct_fd q) in *. set (f' := ct_fd q') in *. set (u := ct_li q) in *. set (v := ct_lj q) in *. clearbody f f' u v.
  assert (Cp : forall g, (if ((- a =? u) && (- b =? v))%Z then 1 else 0) + IZR g * (if ((- a =? - u) && (- b =? - v))%Z then 1 else 0)
    = (if ((a =? - u) && (b =? - v))%Z then 1 else 0) + IZR g * (if ((a =? u) && (b =? v))%Z then 1 else 0)).
  { intros g. replace (- a =? u)%Z with (a =? - u)%Z by (destruct (Z.eqb_spec a (- u)), (Z.eqb_spec (- a) u); lia).
    replace (- b =? v)%Z with (b =? - v)%Z by (destruct (Z.eqb_spec b (- v)), (Z.eqb_spec (- b) v); lia).
    replace (- a =? - u)%Z with (a =? u)%Z by (destruct (Z.eqb_spec a u), (Z.eqb_spec (- a) (- u)); lia).
    replace (- b =? - v)%Z with (b =? v)%Z by (destruct (Z.eqb_spec b v), (Z.eqb_spec (- b) (- v)); lia). reflexivity. }
  assert (D : ((a =? u) && (b =? v))%Z = true -> ((a =? - u) && (b =? - v))%Z = true -> False).
  { intros A B. apply andb_true_iff in A. apply andb_true_iff in B. rewrite !Z.eqb_eq in A, B. apply N. lia. }
  destruct Sg as [[E1 E2]|[E1 E2]].
  - rewrite <- E1, <- E2. rewrite !Cp. destruct ((a =? u) && (b =? v))%Z, ((a =? - u) && (b =? - v))%Z; try (destruct (D eq_refl eq_refl));
      destruct E as [[-> ->]|[-> ->]]; ring.
  - replace (ct_li q') with (- u)%Z by lia. replace (ct_lj q') with (- v)%Z by lia. rewrite !Z.opp_involutive. rewrite !Cp.
    rewrite (Rplus_comm (if ((- a =? - u) && (- b =? - v))%Z then 1 else 0)).
    replace (- a =? u)%Z with (a =? - u)%Z by (destruct (Z.eqb_spec a (- u)), (Z.eqb_spec (- a) u); lia).
    replace (- b =? v)%Z with (b =? - v)%Z by (destruct (Z.eqb_spec b (- v)), (Z.eqb_spec (- b) v); lia).
    replace (- a =? - u)%Z with (a =? u)%Z by (destruct (Z.eqb_spec a u), (Z.eqb_spec (- a) (- u)); lia).
    replace (- b =? - v)%Z with (b =? v)%Z by (destruct (Z.eqb_spec b v), (Z.eqb_spec (- b) (- v)); lia).
    destruct ((a =? u) && (b =? v))%Z, ((a =? - u) && (b =? - v))%Z; try (destruct (D eq_refl eq_refl)); destruct E as [[-> ->]|[-> ->]]; ring.
Qed.
Lemma decay_opposite (s : Z -> state) (i j : Z) q q' : opposite_parity q q' ->
  Rsum (helicities (p_spin (s i))) (fun a => Rsum (helicities (p_spin (s j))) (fun b =>
    coupling_of (ct_fd q) a b (ct_li q) (ct_lj q) * coupling_of (ct_fd q') a b (ct_li q') (ct_lj q'))) = 0.
Proof.
  intros O. set (v := Rsum _ _). assert (E : v = - v); [|lra]. unfold v at 1. rewrite helicities_rev_R.
  rewrite (Rsum_ext _ _ (fun a => - 1 * Rsum (helicities (p_spin (s j))) (fun b =>
    coupling_of (ct_fd q) a b (ct_li q) (ct_lj q) * coupling_of (ct_fd q') a b (ct_li q') (ct_lj q')))).
  - rewrite Rsum_scal_l. fold v. ring.
  - intros a _. rewrite helicities_rev_R, <- Rsum_scal_l. apply Rsum_ext. intros b _. rewrite (coupling_odd q q' a b O). ring.
Qed.

Section Model.
  Variables (m : model_def) (d : distribution) (s : Z -> state) (r : Z)
    (tl : string -> string) (additional : option (dict string prop_builder))
    (x : chain_def -> content) (w : chain_def -> symbol) (dyn : chain_def -> defexpr).
  Hypothesis H : helicity_definition m d s r tl additional x w dyn.
  Variables (cl : bool) (M : model).
  Hypothesis F : SerAmplitude.formulate m cl tl additional = Ok M.
  Hypothesis W : weights_only w dyn (di_chains d).
  Variables (k : Z) (c0 : chain_def).
  Hypothesis Hc0 : In c0 (di_chains d).
  Hypothesis K0 : ct_k (x c0) = k.

  Let cf (l : Z * Z * Z * Z) c := coupling_of (ct_fp (x c)) (ct_r (x c)) (at4 l (ct_k (x c))) (ct_r (x c)) (ct_lk (x c))
    * coupling_of (ct_fd (x c)) (at4 l (ct_i (x c))) (at4 l (ct_j (x c))) (ct_li (x c)) (ct_lj (x c)).
  Lemma opposite_sum c c' : In c (di_chains d) -> ct_k (x c) = k -> ct_k (x c') = k -> opposite_parity (x c) (x c') ->
    Rsum (tuples s) (fun l => cf l c * cf l c') = 0.
  Proof.
    intros Hc Kc Kc' O. pose proof (hd_perm m d s r tl additional x w dyn H c Hc) as P. rewrite Kc in P.
    rewrite tuples_final.
    set (f := fun b => coupling_of (ct_fp (x c)) (ct_r (x c)) b (ct_r (x c)) (ct_lk (x c)) * coupling_of (ct_fp (x c')) (ct_r (x c')) b (ct_r (x c')) (ct_lk (x c'))).
    set (g := fun a b => coupling_of (ct_fd (x c)) a b (ct_li (x c)) (ct_lj (x c)) * coupling_of (ct_fd (x c')) a b (ct_li (x c')) (ct_lj (x c'))).
    pose proof O as (Ei & Ej & _).
    assert (E : forall l, cf l c * cf l c' = f (at4 l k) * g (at4 l (ct_i (x c))) (at4 l (ct_j (x c)))).
    { intros l. unfold cf, f, g. rewrite Kc, Kc', <- Ei, <- Ej. ring. }
    rewrite (Rsum_ext (final_tuples s) _ (fun l => Rsum (helicities (p_spin (s 0%Z))) (fun _ => 1) * (f (at4 l k) * g (at4 l (ct_i (x c))) (at4 l (ct_j (x c)))))).
    - rewrite Rsum_scal_l, (final_factors_perm s (ct_i (x c)) (ct_j (x c)) k f g P). unfold g. rewrite (decay_opposite s _ _ (x c) (x c') O). ring.
    - intros l _. rewrite <- Rsum_scal_r. apply Rsum_ext. intros z _. rewrite E.
      assert (A : forall q, In q [1; 2; 3]%Z -> at4 (with_parent l z) q = at4 l q).
      { intros q Hq. destruct l as [[[l0 l1] l2] l3]. destruct Hq as [<-|[<-|[<-|[]]]]; reflexivity. }
      rewrite !A by (eapply Permutation_in; [exact P|simpl; auto]). ring.
  Qed.

  Theorem opposite_incoherent base cpl : (forall c, active w (di_chains d) base c -> ct_k (x c) = k) ->
    forall base1 base2 keep, weights_scaled w (di_chains d) (kept keep) base base1 ->
    weights_scaled w (di_chains d) (kept (fun c => negb (keep c))) base base2 ->
    (forall c c', active w (di_chains d) base c -> active w (di_chains d) base c' -> keep c = true -> keep c' = false -> opposite_parity (x c) (x c')) ->
    full_value (at_point (m_variables M) base cpl) M
    = (full_value (at_point (m_variables M) base1 cpl) M + full_value (at_point (m_variables M) base2 cpl) M)%C.
  Proof.
    intros Act base1 base2 keep S1 S2 Df. set (ev := at_point (m_variables M) base cpl).
    set (B := fun c => (e_sym ev (w c) * RtoC (wigner_d (ct_spin (x c)) (ct_r (x c)) (ct_li (x c) - ct_lj (x c)) (Re (e_sym ev (theta_name (ct_i (x c)) (ct_j (x c))))))
      * ceval ev (fun _ => 0%Z) (de_expr (dyn c)))%C).
    assert (G : forall l c, chain_contribution x w dyn ev l c = (RtoC (cf l c) * B c)%C).
    { intros l c. unfold chain_contribution, serial_term, B, cf. rewrite RtoC_mult. ring. }
    assert (Wt : forall c, In c (di_chains d) -> e_sym ev (w c) = base (w c)).
    { intros c I. unfold ev. apply (serial_weight_at m d s r tl additional x w dyn H cl M F). exact I. }
    assert (B0 : forall c, In c (di_chains d) -> base (w c) = RtoC 0 -> B c = RtoC 0).
    { intros c I E. unfold B. rewrite Wt, E by exact I. ring. }
    assert (Bk : forall c, In c (di_chains d) -> ct_k (x c) <> k -> B c = RtoC 0).
    { intros c I N. apply B0; [exact I|]. apply NNPP. intros Q. exact (N (Act c (conj I Q))). }
    assert (V : forall base' g, weights_scaled w (di_chains d) (kept g) base base' ->
      full_value (at_point (m_variables M) base' cpl) M = RtoC (Rsum (tuples s) (fun l => Cmod (Csum (chains_in x d k) (fun c => kept g c * (RtoC (cf l c) * B c))%C) ^ 2))).
    { intros base' g Sc.
      assert (E : forall l c, In c (di_chains d) -> chain_contribution x w dyn (at_point (m_variables M) base' cpl) l c = (kept g c * (RtoC (cf l c) * B c))%C).
      { intros l c I. rewrite <- G. exact (contribution_point m m d d s r r tl additional x w dyn H H (Permutation_refl _) cl cl M M F F _ _ cpl (kept g) W Sc l c I). }
      rewrite (sub_value m d s r tl additional x w dyn H cl M F k c0 Hc0 K0).
      - f_equal. apply Rsum_ext. intros l _. do 2 f_equal. apply Csum_ext. intros c I. apply in_chains_in in I. apply E. apply I.
      - intros c l I N _. rewrite E, (Bk c I N) by exact I. ring. }
    rewrite (V base1 keep S1), (V base2 _ S2), <- RtoC_plus.
    rewrite (sub_value m d s r tl additional x w dyn H cl M F k c0 Hc0 K0) by (intros c l I N _; rewrite G, (Bk c I N); ring).
    f_equal. set (cs := chains_in x d k).
    set (u := fun c => (kept keep c * B c)%C). set (v := fun c => (kept (fun c => negb (keep c)) c * B c)%C).
    assert (Cross : Rsum (tuples s) (fun l => Rsum cs (fun c => Rsum cs (fun c' =>
      (2 * (Re (u c) * Re (v c') + Im (u c) * Im (v c'))) * (cf l c * cf l c')))) = 0).
    { rewrite Rsum_swap. apply Sums.Rsum_zero. intros c Hc. rewrite Rsum_swap. apply Sums.Rsum_zero. intros c' Hc'.
      apply in_chains_in in Hc. apply in_chains_in in Hc'. destruct Hc as [Hc Kc]. destruct Hc' as [Hc' Kc']. rewrite Rsum_scal_l.
      assert (Zr : (u c = RtoC 0 \/ v c' = RtoC 0) \/ opposite_parity (x c) (x c')).
      { unfold u, v, kept. destruct (keep c) eqn:E; [|left; left; ring]. destruct (keep c') eqn:E'; [left; right; cbn [negb]; ring|].
        destruct (classic (base (w c) = RtoC 0)) as [Q|Q]; [left; left; rewrite (B0 c Hc Q); ring|].
        destruct (classic (base (w c') = RtoC 0)) as [Q'|Q']; [left; right; rewrite (B0 c' Hc' Q'); ring|]. right.
        exact (Df c c' (conj Hc Q) (conj Hc' Q') E E'). }
      destruct Zr as [Zr|O]; [destruct Zr as [-> | ->]; cbn [Re Im RtoC fst snd]; ring|].
      rewrite (opposite_sum c c' Hc Kc Kc' O). ring. }
    rewrite <- Rplus_0_r, <- Cross, <- !Rsum_plus. apply Rsum_ext. intros l _.
    rewrite (Csum_ext cs (chain_contribution x w dyn ev l) (fun c => kept keep c * (RtoC (cf l c) * B c) + kept (fun c1 => negb (keep c1)) c * (RtoC (cf l c) * B c))%C).
    2:{ intros c _. rewrite G. unfold kept. destruct (keep c); cbn [negb]; ring. }
    rewrite Csum_plus, Cmod_cross. f_equal. rewrite !Csum_Re, !Im_sum.
    rewrite <- !Rsum_scal_r.
    rewrite <- Rsum_plus, <- Rsum_scal_l. apply Rsum_ext. intros c _.
    rewrite <- !Rsum_scal_l, <- Rsum_plus, <- Rsum_scal_l. apply Rsum_ext. intros c' _.
    unfold u, v, kept. destruct (keep c), (keep c'); cbn [negb]; destruct (B c), (B c'); cbn; ring.
  Qed.
End Model.

(** ** /repo/docs/Lc2ppiK.json *)
Lemma lc_opposite c c' : In c lc_chains -> In c' lc_chains -> ct_k (lc_x c) = ct_k (lc_x c') -> ct_k (lc_x c) <> 1%Z ->
  ct_fd (lc_x c) = 1%Z -> ct_fd (lc_x c') <> 1%Z -> opposite_parity (lc_x c) (lc_x c').
Proof.
  intros Hc Hc' Ek N1 P1 P2.
  assert (B : forallb (fun c => forallb (fun c' => negb (ct_k (lc_x c) =? ct_k (lc_x c'))%Z || (ct_k (lc_x c) =? 1)%Z ||
    negb (ct_fd (lc_x c) =? 1)%Z || (ct_fd (lc_x c') =? 1)%Z ||
    ((ct_i (lc_x c) =? ct_i (lc_x c')) && (ct_j (lc_x c) =? ct_j (lc_x c')) && (ct_li (lc_x c) =? ct_li (lc_x c')) && (ct_lj (lc_x c) =? ct_lj (lc_x c'))
      && negb ((ct_li (lc_x c) =? 0) && (ct_lj (lc_x c) =? 0)) && (ct_fd (lc_x c') =? -1))%Z) lc_chains) lc_chains = true)
    by (vm_compute; reflexivity).
  rewrite forallb_forall in B. specialize (B c Hc). rewrite forallb_forall in B. specialize (B c' Hc').
  apply Z.eqb_eq in Ek. apply Z.eqb_neq in N1. pose proof P1 as P1'. apply Z.eqb_eq in P1. apply Z.eqb_neq in P2.
  rewrite Ek, N1, P1, P2 in B. cbn [negb orb] in B.
  repeat (apply andb_true_iff in B; let B' := fresh "B" in destruct B as [B B']).
  apply Z.eqb_eq in B. apply Z.eqb_eq in B0. apply Z.eqb_eq in B2. apply Z.eqb_eq in B3. apply Z.eqb_eq in B4. unfold opposite_parity.
  split; [exact B|]. split; [exact B4|]. split; [left; split; assumption|]. split; [|rewrite P1', B0; reflexivity].
  intros [E1 E2]. rewrite E1, E2 in B1. discriminate B1.
Qed.
Theorem lc_parity cl M : SerAmplitude.formulate lc_model cl lc_tl lc_builders = Ok M ->
  forall k base cpl, In k [2; 3]%Z -> (forall c, active lc_w lc_chains base c -> ct_k (lc_x c) = k) ->
  forall base1 base2, weights_scaled lc_w lc_chains (kept (fun c => ct_fd (lc_x c) =? 1)%Z) base base1 ->
  weights_scaled lc_w lc_chains (kept (fun c => negb (ct_fd (lc_x c) =? 1)%Z)) base base2 ->
  full_value (at_point (m_variables M) base cpl) M
  = (full_value (at_point (m_variables M) base1 cpl) M + full_value (at_point (m_variables M) base2 cpl) M)%C.
Proof.
  intros F k base cpl Ik Act base1 base2 S1 S2.
  assert (Ex : exists c0, In c0 lc_chains /\ ct_k (lc_x c0) = k).
  { assert (B : existsb (fun c => ct_k (lc_x c) =? k)%Z lc_chains = true) by (destruct Ik as [<-|[<-|[]]]; vm_compute; reflexivity).
    apply existsb_exists in B. destruct B as (c0 & I0 & E0). exists c0. split; [exact I0|]. apply Z.eqb_eq. exact E0. }
  destruct Ex as (c0 & Hc0 & K0).
  apply (opposite_incoherent lc_model lc_dist lc_s 2 lc_tl lc_builders lc_x lc_w lc_dyn lc_definition cl M F lc_weights k c0 Hc0 K0 base cpl Act base1 base2 _ S1 S2).
  intros c c' A A' E E'. pose proof (Act c A) as K. pose proof (Act c' A') as K'. apply lc_opposite; [exact (proj1 A)|exact (proj1 A')|congruence| |apply Z.eqb_eq; exact E|apply Z.eqb_neq; exact E'].
  rewrite K. destruct Ik as [<-|[<-|[]]]; discriminate.
Qed.
(** All L chains, with weight 1 *)
Definition lp_active (c : chain_def) : bool := (ct_k (lc_x c) =? 2)%Z.
Definition lp_keep (c : chain_def) : bool := (ct_fd (lc_x c) =? 1)%Z.
Lemma lp_example :
  (forall c, active lc_w lc_chains (lw_base lp_active) c -> ct_k (lc_x c) = 2%Z) /\
  weights_scaled lc_w lc_chains (kept lp_keep) (lw_base lp_active) (lw_base (fun c => lp_active c && lp_keep c)) /\
  weights_scaled lc_w lc_chains (kept (fun c => negb (lp_keep c))) (lw_base lp_active) (lw_base (fun c => lp_active c && negb (lp_keep c))) /\
  map lp_keep (filter lp_active lc_chains) = [true; true; false; false; false; false; true; true; false; false; true; true].
Proof.
  split; [|split; [apply lw_scaled|split; [apply lw_scaled|vm_compute; reflexivity]]].
  intros c [Hc N]. rewrite lw_weight in N by exact Hc. destruct (lp_active c) eqn:E; [|destruct N; reflexivity]. apply Z.eqb_eq. exact E.
Qed.
