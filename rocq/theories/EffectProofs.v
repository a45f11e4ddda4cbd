(** Which couplings have an effect on the intensity (C151) *)
From Coq Require Import String ZArith QArith Qcanon List Bool Reals Lia Lra Psatz Permutation Classical.
From Coquelicot Require Import Complex Hierarchy RInt.
From Verif Require Import Prelude Spin Decay Expr Angles Sums Wigner CG CExpr SpecKin SpecDPD Builder SpecBuilder
  SpinFacts DecayFacts AnglesFacts WignerFacts CExprFacts BuilderFacts ModelFacts OccFacts RefFacts LSBasis LSProofs BuilderProofs ChainProofs FormProofs HankelFacts SpecObs LegendreFacts ObsKin ObsProofs InterferenceFacts SpecReorder SpecEnvelope EnvelopeFacts SpecProjection ProjectionFacts SpecEffect.
Import ListNotations.
Local Open Scope Z_scope.

Section Keys.
  Variables (uc ph dh : bool).
  Notation keys := (coupling_keys uc ph dh).
  Notation scal ev := ((if uc then coefficient else coupling_product) ev ph dh).
  Lemma scal_zero ev c r lk li lj q : In q (keys c r lk li lj) -> e_idx ev (fst q) (snd q) = RtoC 0 ->
    scal ev c r lk li lj = RtoC 0.
  Proof.
    unfold coupling_keys, coefficient, coupling_product, coefficient_key, coupling_pair. destruct uc; cbn [fst snd].
    - intros [<-|[]] E. exact E.
    - intros [<-|[<-|[]]] E; cbn [fst snd] in E; rewrite E; ring.
  Qed.
  Lemma scal_one ev c r lk li lj : (forall q, In q (keys c r lk li lj) -> e_idx ev (fst q) (snd q) = RtoC 1) ->
    scal ev c r lk li lj = RtoC 1.
  Proof.
    unfold coupling_keys, coefficient, coupling_product. intros E.
    pose proof (fun q (H : In q (if uc then [coefficient_key ph dh c r lk li lj] else
      [fst (coupling_pair ph dh c r lk li lj); snd (coupling_pair ph dh c r lk li lj)])) => E q H) as E'. destruct uc.
    - exact (E _ (or_introl eq_refl)).
    - pose proof (E _ (or_introl eq_refl)) as E1. pose proof (E _ (or_intror (or_introl eq_refl))) as E2.
      unfold coupling_pair in E1, E2. cbn [fst snd] in E1, E2. rewrite E1, E2. ring.
  Qed.
  Lemma scal_ext ev ev' c r lk li lj : (forall q, In q (keys c r lk li lj) -> e_idx ev (fst q) (snd q) = e_idx ev' (fst q) (snd q)) ->
    scal ev c r lk li lj = scal ev' c r lk li lj.
  Proof.
    unfold coupling_keys, coefficient, coupling_product. intros E. destruct uc.
    - exact (E _ (or_introl eq_refl)).
    - pose proof (E _ (or_introl eq_refl)) as E1. pose proof (E _ (or_intror (or_introl eq_refl))) as E2.
      unfold coupling_pair in E1, E2. cbn [fst snd] in E1, E2. rewrite E1, E2. reflexivity.
  Qed.
  Lemma names_differ : production_name ph <> decay_name dh.
  Proof. destruct ph, dh; discriminate. Qed.
  Lemma keys_incl c r lk li lj c' r' lk' li' lj' : has_ls ph dh c -> has_ls ph dh c' ->
    incl (keys c' r' lk' li' lj') (keys c r lk li lj) ->
    coupling_pair ph dh c' r' lk' li' lj' = coupling_pair ph dh c r lk li lj.
  Proof.
    intros L L'. unfold coupling_keys. destruct uc; intros I.
    - destruct (I _ (or_introl eq_refl)) as [E|[]]. symmetry. apply coefficient_inj; assumption.
    - destruct (I _ (or_introl eq_refl)) as [E|[E|[]]]; destruct (I _ (or_intror (or_introl eq_refl))) as [E'|[E'|[]]].
      all: try (exfalso; apply names_differ; unfold coupling_pair in *; cbn [fst snd] in *; congruence).
      destruct (coupling_pair ph dh c' r' lk' li' lj'), (coupling_pair ph dh c r lk li lj). cbn [fst snd] in *. congruence.
  Qed.
  Lemma pair_key c r lk li lj c' r' lk' li' lj' : has_ls ph dh c -> has_ls ph dh c' ->
    coupling_pair ph dh c' r' lk' li' lj' = coupling_pair ph dh c r lk li lj -> chain_key ph dh c' = chain_key ph dh c.
  Proof.
    intros [P Q] [P' Q']. unfold coupling_pair, chain_key, coupling_index. intros E.
    pose proof (f_equal (fun q => snd (fst q)) E) as F1. pose proof (f_equal (fun q => snd (snd q)) E) as F2. cbn [fst snd] in F1, F2.
    assert (E1 : p_latex (ch_resonance c') = p_latex (ch_resonance c)) by congruence. rewrite E1. f_equal; [f_equal|].
    - destruct ph; [reflexivity|]. destruct (ch_incoming_ls c) as [[L S]|]; [|destruct (P eq_refl eq_refl)].
      destruct (ch_incoming_ls c') as [[L' S']|]; [|destruct (P' eq_refl eq_refl)]. cbn [ls_L ls_S] in F1.
      assert (A : 2 * L' = 2 * L) by congruence. assert (B : S' = S) by congruence. rewrite B. replace L' with L by lia. reflexivity.
    - destruct dh; [reflexivity|]. destruct (ch_outgoing_ls c) as [[L S]|]; [|destruct (Q eq_refl eq_refl)].
      destruct (ch_outgoing_ls c') as [[L' S']|]; [|destruct (Q' eq_refl eq_refl)]. cbn [ls_L ls_S] in F2.
      assert (A : 2 * L' = 2 * L) by congruence. assert (B : S' = S) by congruence. rewrite B. replace L' with L by lia. reflexivity.
  Qed.
  Lemma pair_keys c r lk li lj c' r' lk' li' lj' : coupling_pair ph dh c' r' lk' li' lj' = coupling_pair ph dh c r lk li lj ->
    keys c' r' lk' li' lj' = keys c r lk li lj.
  Proof.
    intros E. unfold coupling_keys. destruct uc; [|rewrite E; reflexivity].
    unfold coefficient_key. unfold coupling_pair in E. pose proof (f_equal (fun q => snd (fst q)) E) as F1. pose proof (f_equal (fun q => snd (snd q)) E) as F2. cbn [fst snd] in F1, F2. assert (E1 : p_latex (ch_resonance c') = p_latex (ch_resonance c)) by congruence.
    assert (E2 : coupling_index ph (ch_incoming_ls c') r' lk' = coupling_index ph (ch_incoming_ls c) r lk) by congruence.
    assert (E3 : coupling_index dh (ch_outgoing_ls c') li' lj' = coupling_index dh (ch_outgoing_ls c) li lj) by congruence.
    rewrite E1, E2, E3. reflexivity.
  Qed.
End Keys.

(** ** A model in which only one subsystem has amplitudes *)
Lemma one_amplitude b s dyn ref cl uc m k : std_decay (b_decay b) s -> dynamics_of b dyn ->
  (b_prod_helicity b = false -> plain_resonances (b_decay b)) -> formulate b ref cl uc = Ok m -> In k [1; 2; 3] ->
  forall ev, (forall k' l, In k' [1; 2; 3] -> k' <> k -> helicity_tuple s l -> amp_value ev m k' l = RtoC 0) ->
    full_value ev m = RtoC (Rsum (tuples s) (fun l => Cmod (amp_value ev m k l) ^ 2)%R).
Proof.
  intros D Dyn PR F Ik ev Z.
  destruct (intensity_formula b s D _ _ _ _ F) as (r & ks & Hr & _ & _).
  rewrite (intensity_all b s dyn ref cl uc m r D Dyn PR F Hr). f_equal. unfold intensity_value.
  set (z := fun i => Re (e_sym ev (zeta_symbol i k r))).
  rewrite <- (orthogonal_complex (tuples s) (rot s z) (amp_value ev m k) eq_dec (tuples_NoDup s) (rot_orthogonal s z)).
  apply Rsum_ext. intros l _. do 2 f_equal. unfold aligned_amplitude. apply Csum_ext. intros l' Hl'.
  rewrite (Csum_single [1; 2; 3] k).
  - rewrite Cmult_comm. reflexivity.
  - repeat constructor; cbn; intuition discriminate.
  - exact Ik.
  - intros k' Hk' N. rewrite Z; [ring|exact Hk'|exact N|]. apply tuples_In. exact Hl'.
Qed.
Lemma no_amplitude b s dyn ref cl uc m : std_decay (b_decay b) s -> dynamics_of b dyn ->
  (b_prod_helicity b = false -> plain_resonances (b_decay b)) -> formulate b ref cl uc = Ok m ->
  forall ev, (forall k' l, In k' [1; 2; 3] -> helicity_tuple s l -> amp_value ev m k' l = RtoC 0) -> full_value ev m = RtoC 0.
Proof.
  intros D Dyn PR F ev Z. rewrite (one_amplitude b s dyn ref cl uc m 1 D Dyn PR F) by (try (left; reflexivity); intros; apply Z; assumption).
  f_equal. apply Rsum_zero. intros l Hl. rewrite Z; [rewrite Cmod_0; ring|left; reflexivity|apply tuples_In; exact Hl].
Qed.

(** ** A d function does not vanish on a line *)
Lemma d_nonzero base i j k lo hi J M M' : cyclic i j k -> between_thresholds base i j k -> dalitz_range base i j k lo hi ->
  is_projection J M = true -> is_projection J M' = true ->
  exists x, (lo <= x <= hi)%R /\ wigner_d J M M' (acos (line_N base i j k x / line_root base i j k)) <> 0%R.
Proof.
  intros Cy BT Rg PM PM'. apply NNPP. intros N.
  set (w := fun J' : Z => if Z.eq_dec J' J then RtoC 1 else RtoC 0).
  assert (W : forall J', is_projection J' M && is_projection J' M' = false -> In J' [J] -> w J' = RtoC 0).
  { intros J' P [<-|[]]. rewrite PM, PM' in P. discriminate. }
  assert (W' : forall J', is_projection J' M && is_projection J' M' = false -> w J' = RtoC 0).
  { intros J' P. unfold w. destruct (Z.eq_dec J' J) as [->|]; [|reflexivity]. rewrite PM, PM' in P. discriminate. }
  assert (ND : NoDup [J]) by (repeat constructor; cbn; tauto).
  pose proof (line_integral base i j k Cy BT lo hi _ _ Rg (wave_integral [J] w M M' ND W')) as I.
  cbn beta in I.
  assert (L : (lo < hi)%R) by exact (line_lt base i j k Cy BT lo hi Rg).
  assert (I0 : is_RInt (fun _ : R => 0%R) lo hi ((hi - lo) / 2 * (2 * Rsum [J] (fun J => / IZR (J + 1) * Cmod (w J) ^ 2)))%R).
  { eapply is_RInt_ext; [|exact I]. intros x Hx. rewrite Rmin_left, Rmax_right in Hx by lra. cbn [Csum].
    assert (E : wigner_d J M M' (acos (line_N base i j k x / line_root base i j k)) = 0%R).
    { apply NNPP. intros E. apply N. exists x. split; [lra|exact E]. }
    rewrite E. replace (RtoC 0 * w J + RtoC 0)%C with (RtoC 0) by ring. rewrite Cmod_0. match goal with |- @eq _ ?l ?r => change (@eq R l r) end. ring. }
  assert (Iz : ((hi - lo) / 2 * (2 * Rsum [J] (fun J => / IZR (J + 1) * Cmod (w J) ^ 2)) = 0)%R).
  { pose proof (is_RInt_unique (V := R_CompleteNormedModule) _ _ _ _ I0) as U1.
    pose proof (is_RInt_unique (V := R_CompleteNormedModule) _ _ _ _ (is_RInt_const (V := R_CompleteNormedModule) lo hi 0%R)) as U2.
    rewrite U1 in U2. rewrite U2. unfold scal; cbn; unfold mult; cbn. ring. }
  cbn [Rsum] in Iz. rewrite Rplus_0_r in Iz.
  unfold w in Iz. destruct (Z.eq_dec J J) as [_|Q]; [|destruct (Q eq_refl)]. rewrite Cmod_1 in Iz.
  replace ((hi - lo) / 2 * (2 * (/ IZR (J + 1) * 1 ^ 2)))%R with ((hi - lo) * / IZR (J + 1))%R in Iz by (unfold Rdiv; generalize (/ IZR (J + 1))%R; intros; field).
  apply is_projection_spec in PM. assert (P : (0 < IZR (J + 1))%R) by (apply IZR_lt; lia). apply Rinv_0_lt_compat in P.
  assert (Q : (0 < (hi - lo) * / IZR (J + 1))%R) by (apply Rmult_lt_0_compat; lra).
  lra.
Qed.

(** ** Couplings with an effect *)
Lemma Rsum_term_le {A} (l : list A) (f : A -> R) x : (forall y, In y l -> (0 <= f y)%R) -> In x l -> (f x <= Rsum l f)%R.
Proof.
  intros P. induction l as [|y l IH]; [intros []|]. intros [->|I]; cbn [Rsum].
  - assert (Q : (0 <= Rsum l f)%R).
    { clear IH. induction l as [|z l IH]; [cbn [Rsum]; lra|]. cbn [Rsum]. pose proof (P z (or_intror (or_introl eq_refl))).
      assert (0 <= Rsum l f)%R; [|lra]. apply IH. intros u [<-|Hu]; apply P; [left; reflexivity|right; right; exact Hu]. }
    lra.
  - pose proof (P y (or_introl eq_refl)). assert (f x <= Rsum l f)%R; [|lra]. apply IH; [|exact I]. intros u Hu. apply P. right. exact Hu.
Qed.
Lemma Csum_only {A} (l : list A) x f : (forall y, In y l -> y <> x -> f y = RtoC 0) -> NoDup l -> In x l -> Csum l f = f x.
Proof. intros Z ND I. apply Csum_single; assumption. Qed.
Lemma chain_dec (x y : chain) : {x = y} + {x <> y}.
Proof. apply eq_dec. Qed.

Section Effect.
  Context (b : builder) (s : Z -> state) (dyn : chain -> defexpr) (ref : option Z) (cl uc : bool) (m : model).
  Context (D : std_decay (b_decay b) s) (Dyn : dynamics_of b dyn) (PR : b_prod_helicity b = false -> plain_resonances (b_decay b))
    (F : formulate b ref cl uc = Ok m) (ND : NoDup (map (chain_key (b_prod_helicity b) (b_dec_helicity b)) (d_chains (b_decay b)))).
  Let ph := b_prod_helicity b.
  Let dh := b_dec_helicity b.
  Let d := b_decay b.
  Notation keys := (coupling_keys uc ph dh).
  Notation scal ev := ((if uc then coefficient else coupling_product) ev ph dh).

  Lemma ls_of c : In c (d_chains d) -> has_ls ph dh c.
  Proof. intros I. exact (c63_ls b s dyn ref cl uc m D Dyn F c I). Qed.
  Lemma key_inj c c' : In c (d_chains d) -> In c' (d_chains d) -> chain_key ph dh c' = chain_key ph dh c -> c' = c.
  Proof.
    intros I I' E. destruct (chain_dec c' c) as [|N]; [assumption|exfalso]. clear - ND I I' E N.
    unfold d, ph, dh in *. induction (d_chains (b_decay b)) as [|y ys IH]; [destruct I|].
    cbn [map] in ND. inversion ND as [|? ? Ny ND']; subst. destruct I as [->|I], I' as [->|I'].
    - congruence.
    - apply Ny. rewrite <- E. apply (in_map _ _ _ I').
    - apply Ny. rewrite E. apply (in_map _ _ _ I).
    - exact (IH ND' I I').
  Qed.

  (** The couplings of one term are 1 and all others are 0, except for one that is z. *)
  Definition probe (ks : list (string * list ival)) (key : string * list ival) (z : C) (n : string) (v : list ival) : C :=
    if eqb (n, v) key then z else if memb (n, v) ks then RtoC 1 else RtoC 0.
  Lemma probe_same ks key z z' : same_but key (probe ks key z) (probe ks key z').
  Proof.
    intros n v N. unfold probe. destruct (eqb (n, v) key) eqn:E; [|reflexivity].
    apply (proj1 (Prelude.eqb_eq _ _)) in E. contradiction.
  Qed.
  Context (c : chain) (Ic : In c (d_chains d)) (l : Z * Z * Z * Z) (Hl : helicity_tuple s l).
  Context (i j k : Z) (Cy : cyclic i j k) (Hk : st_index (ch_spectator c) = k).
  Let J := p_spin (ch_resonance c).
  Let r := at4 l 0 + at4 l k.
  Let ks := keys c r (at4 l k) (at4 l i) (at4 l j).
  Context (key : string * list ival) (Kk : In key ks).

  (** other chains, and other terms of this chain, do not contribute *)
  Lemma probe_other sym z c' r' lk' li' lj' : In c' (d_chains d) -> z = RtoC 0 \/ c' <> c ->
    scal (Env sym (probe ks key z)) c' r' lk' li' lj' = RtoC 0.
  Proof.
    intros I' Z. destruct (classic (incl (keys c' r' lk' li' lj') ks)) as [Inc|NI].
    - apply keys_incl in Inc; [|apply ls_of; assumption|apply ls_of; assumption].
      destruct Z as [->|N].
      + apply (scal_zero uc ph dh _ c' r' lk' li' lj' key).
        * rewrite (pair_keys uc ph dh _ _ _ _ _ _ _ _ _ _ Inc). exact Kk.
        * cbn [e_idx]. unfold probe. destruct key as [n v]. cbn [fst snd]. rewrite (proj2 (Prelude.eqb_eq _ _) eq_refl). reflexivity.
      + exfalso. apply N, key_inj; [exact Ic|exact I'|]. eapply pair_key; [| |exact Inc]; apply ls_of; assumption.
    - assert (X : exists q, In q (keys c' r' lk' li' lj') /\ ~ In q ks).
      { apply NNPP. intros X. apply NI. intros q Hq. apply NNPP. intros Nq. apply X. exists q. split; assumption. }
      destruct X as (q & Hq & Nq). apply (scal_zero uc ph dh _ c' r' lk' li' lj' q Hq). cbn [e_idx]. unfold probe.
      destruct q as [n v]. cbn [fst snd]. destruct (eqb (n, v) key) eqn:E.
      { apply (proj1 (Prelude.eqb_eq _ _)) in E. rewrite E in Nq. contradiction. }
      destruct (memb (n, v) ks) eqn:M; [|reflexivity]. apply memb_In in M. contradiction.
  Qed.
  Lemma probe_one sym : scal (Env sym (probe ks key (RtoC 1))) c r (at4 l k) (at4 l i) (at4 l j) = RtoC 1.
  Proof.
    apply scal_one. intros [n v] Hq. cbn [e_idx fst snd]. unfold probe. destruct (eqb (n, v) key); [reflexivity|].
    rewrite (proj2 (memb_In _ _) Hq). reflexivity.
  Qed.
  Lemma probe_amp_zero sym z k' l' : In k' [1; 2; 3] -> z = RtoC 0 \/ k' <> k -> helicity_tuple s l' ->
    amp_value (Env sym (probe ks key z)) m k' l' = RtoC 0.
  Proof.
    intros Ik' Z Hl'. destruct (cyclic_ex k' Ik') as (i' & j' & Cy').
    rewrite (amplitude_total b s dyn ref cl uc m D Dyn PR F l' i' j' k' _ Hl' Cy'). fold ph dh d. unfold dpd_amplitude.
    apply Csum_zero. intros c' Hc'. apply filter_In in Hc'. destruct Hc' as [I' E]. apply Z.eqb_eq in E.
    apply Csum_zero. intros r' _. destruct (at4 l' 0 =? r' - at4 l' k'); [|reflexivity].
    rewrite probe_other; [ring|exact I'|]. destruct Z as [Z|Z]; [left; exact Z|right]. intros ->. congruence.
  Qed.
  Lemma probe_amp sym : In r (helicities J) ->
    amp_value (Env sym (probe ks key (RtoC 1))) m k l =
      (RtoC (parity_sign (p_spin (s k) - at4 l k) * parity_sign (p_spin (s j) - at4 l j))
       * ceval (Env sym (probe ks key (RtoC 1))) (fun _ => 0) (de_expr (dyn c))
       * RtoC (wigner_d J r (at4 l i - at4 l j) (Re (sym (theta_name i j))))
       * RtoC (prod_factor ph c r (at4 l k) * dec_factor dh c (at4 l)))%C.
  Proof.
    intros Hr. rewrite (amplitude_total b s dyn ref cl uc m D Dyn PR F l i j k _ Hl Cy). fold ph dh d. unfold dpd_amplitude.
    rewrite (Csum_only _ c).
    - rewrite (Csum_only _ r).
      + replace (at4 l 0 =? r - at4 l k) with true by (symmetry; apply Z.eqb_eq; unfold r; lia).
        rewrite probe_one. cbn [e_sym]. fold J. ring.
      + intros r' _ N. destruct (Z.eqb_spec (at4 l 0) (r' - at4 l k)) as [E|]; [|reflexivity]. exfalso. apply N. unfold r. lia.
      + apply helicities_NoDup.
      + exact Hr.
    - intros c' Hc' N. apply filter_In in Hc'. destruct Hc' as [I' _]. apply Csum_zero. intros r' _.
      destruct (at4 l 0 =? r' - at4 l k); [|reflexivity]. rewrite probe_other; [ring|exact I'|right; exact N].
    - apply NoDup_filter. exact (NoDup_map_inv _ _ ND).
    - apply filter_In. split; [exact Ic|]. apply Z.eqb_eq. exact Hk.
  Qed.

  Theorem coupling_effect : live dyn c -> In r (helicities J) -> In (at4 l i - at4 l j) (helicities J) ->
    prod_factor ph c r (at4 l k) <> 0%R -> dec_factor dh c (at4 l) <> 0%R -> has_effect m key.
  Proof.
    intros (base & i' & j' & Cy' & BT & N1 & N2 & X) Hr Hd Np Nd. rewrite Hk in Cy', BT.
    assert (E : i' = i /\ j' = j).
    { destruct Cy as [E|[E|[E|[]]]]; injection E as <- <- <-; destruct Cy' as [E'|[E'|[E'|[]]]]; inversion E'; auto. }
    destruct E as [-> ->]. clear Cy'.
    destruct (c94_range base i j k Cy BT) as (lo & hi & Lt & Rg).
    destruct (d_nonzero base i j k lo hi J r (at4 l i - at4 l j) Cy BT Rg) as (x & Hx & Nx).
    { rewrite is_projection_hel. apply memb_In. exact Hr. }
    { rewrite is_projection_hel. apply memb_In. exact Hd. }
    exists (dalitz_line base i j k x), (probe ks key (RtoC 1)), (probe ks key (RtoC 0)).
    split; [apply probe_same|]. split; [apply Rg; exact Hx|].
    destruct (cyclic_in _ _ _ Cy) as (_ & _ & Ik).
    unfold at_point. set (sym := fun x0 => _).
    rewrite (no_amplitude b s dyn ref cl uc m D Dyn PR F (Env sym (probe ks key (RtoC 0))))
      by (intros k' l' Ik' Hl'; apply probe_amp_zero; auto).
    rewrite (one_amplitude b s dyn ref cl uc m k D Dyn PR F Ik)
      by (intros k' l' Ik' N Hl'; apply probe_amp_zero; auto).
    intros E. apply RtoC_inj in E.
    assert (Z : (Cmod (amp_value (Env sym (probe ks key (RtoC 1))) m k l) ^ 2 <= 0)%R).
    { rewrite <- E. apply (Rsum_term_le (tuples s) (fun l => Cmod (amp_value (Env sym (probe ks key (RtoC 1))) m k l) ^ 2)%R).
      - intros y _. apply pow2_ge_0.
      - apply tuples_In. exact Hl. }
    assert (A0 : amp_value (Env sym (probe ks key (RtoC 1))) m k l = RtoC 0).
    { apply Cmod_eq_0. pose proof (Cmod_ge_0 (amp_value (Env sym (probe ks key (RtoC 1))) m k l)). nra. }
    rewrite probe_amp in A0 by exact Hr.
    replace (Re (sym (theta_name i j))) with (acos (line_N base i j k x / line_root base i j k)) in A0.
    2:{ destruct (amplitude_formula b s D dyn _ _ _ _ Dyn PR F l i j k Hl Cy (or_intror (proj2 (get_subsystem_ids_In _ _) (ex_intro _ c (conj Ic Hk)))))
          as (_ & (th & T & G) & _).
        rewrite <- (line_theta base i j k Cy BT). unfold sym. rewrite G, T. reflexivity. }
    assert (XE : ceval (Env sym (probe ks key (RtoC 1))) (fun _ => 0) (de_expr (dyn c))
      = ceval (Env base (probe ks key (RtoC 1))) (fun _ => 0) (de_expr (dyn c))).
    { destruct (Dyn c Ic) as [_ LS]. apply lineshape_eval; auto. intros y Hy Iy. cbn [e_sym]. unfold sym.
      rewrite (proj2 (dget_None y (m_variables m))) by (intros Hin; apply Hy; apply (variables_real b s D _ _ _ _ F y Hin)).
      unfold dalitz_line.
      destruct (eqb y (sigma_at j)) eqn:E1; [apply (proj1 (Prelude.eqb_eq _ _)) in E1; rewrite E1 in Iy; contradiction|].
      destruct (eqb y (sigma_at i)) eqn:E2; [apply (proj1 (Prelude.eqb_eq _ _)) in E2; rewrite E2 in Iy; contradiction|reflexivity]. }
    rewrite XE in A0. revert A0.
    assert (PS : forall z, parity_sign z <> 0%R) by (intros z; unfold parity_sign; destruct (Z.even _); lra).
    assert (P0 : forall x : R, x <> 0%R -> RtoC x <> RtoC 0) by (intros y Hy E0; apply Hy, RtoC_inj, E0).
    repeat apply Cmult_neq_0.
    - apply P0. apply Rmult_integral_contrapositive_currified; apply PS.
    - apply X.
    - apply P0. exact Nx.
    - apply P0. apply Rmult_integral_contrapositive_currified; assumption.
  Qed.
End Effect.

(** ** Couplings without an effect *)
Lemma dead_key uc ph c r lk li lj c' r' lk' li' lj' : has_ls ph true c -> has_ls ph true c' ->
  In (decay_key uc ph true c r lk li lj) (coupling_keys uc ph true c' r' lk' li' lj') ->
  p_latex (ch_resonance c) = p_latex (ch_resonance c') /\ li = li' /\ lj = lj'.
Proof.
  intros L L'. unfold decay_key, coupling_keys.
  assert (S : snd (coupling_pair ph true c r lk li lj) = snd (coupling_pair ph true c' r' lk' li' lj') ->
    p_latex (ch_resonance c) = p_latex (ch_resonance c') /\ li = li' /\ lj = lj').
  { unfold coupling_pair. cbn [snd coupling_index]. intros E.
    repeat split; congruence. }
  destruct uc.
  - intros [E|[]]. apply S. f_equal. symmetry. apply coefficient_inj; assumption.
  - intros [E|[E|[]]].
    + exfalso. apply (names_differ ph true). unfold coupling_pair in E. cbn [fst snd] in E. congruence.
    + apply S. symmetry. exact E.
Qed.
Theorem coupling_no_effect b s dyn ref cl uc m : std_decay (b_decay b) s -> dynamics_of b dyn ->
  (b_prod_helicity b = false -> plain_resonances (b_decay b)) -> formulate b ref cl uc = Ok m ->
  b_dec_helicity b = true -> labels_identify (b_decay b) ->
  forall c i j r lk li lj, In c (d_chains (b_decay b)) -> cyclic i j (st_index (ch_spectator c)) ->
    ~ In (li - lj) (helicities (p_spin (ch_resonance c))) ->
    no_effect m (decay_key uc (b_prod_helicity b) true c r lk li lj).
Proof.
  intros D Dyn PR F Hd Lab c i j r lk li lj Ic Cy N sym cpl cpl' Same.
  destruct (intensity_formula b s D _ _ _ _ F) as (rf & ks & Hr & _ & _).
  rewrite !(intensity_all b s dyn ref cl uc m rf D Dyn PR F Hr). f_equal. cbn [e_sym].
  apply intensity_amp_ext. intros k' l' Ik' Hl'. destruct (cyclic_ex k' Ik') as (i' & j' & Cy').
  rewrite !(amplitude_total b s dyn ref cl uc m D Dyn PR F l' i' j' k' _ Hl' Cy'). cbn [e_sym]. unfold dpd_amplitude.
  apply Csum_ext. intros c' Hc'. apply filter_In in Hc'. destruct Hc' as [I' E]. apply Z.eqb_eq in E.
  apply Csum_ext. intros r' _. destruct (at4 l' 0 =? r' - at4 l' k'); [|reflexivity].
  assert (XE : ceval (Env sym cpl) (fun _ => 0) (de_expr (dyn c')) = ceval (Env sym cpl') (fun _ => 0) (de_expr (dyn c'))).
  { destruct (Dyn c' I') as [_ LS]. apply lineshape_eval; auto. }
  rewrite XE. clear XE.
  pose proof (c63_ls b s dyn ref cl uc m D Dyn F c Ic) as L. pose proof (c63_ls b s dyn ref cl uc m D Dyn F c' I') as L'.
  rewrite Hd in *.
  destruct (classic (In (decay_key uc (b_prod_helicity b) true c r lk li lj)
    (coupling_keys uc (b_prod_helicity b) true c' r' (at4 l' k') (at4 l' i') (at4 l' j')))) as [Y|NY].
  - apply dead_key in Y; [|exact L|exact L']. destruct Y as (EL & Ei & Ej). destruct (Lab c c' Ic I' EL) as [EJ Ek].
    rewrite wigner_d_out_r; [ring|]. rewrite is_projection_hel, <- EJ, <- Ei, <- Ej.
    destruct (memb (li - lj) _) eqn:M; [|reflexivity]. apply memb_In in M. contradiction.
  - f_equal. f_equal. apply (scal_ext uc (b_prod_helicity b) true). intros q Hq. cbn [e_idx]. apply Same.
    intros Eq. apply NY. rewrite <- Eq. destruct q. exact Hq.
Qed.

(** ** The LS basis *)
Lemma vertex_nonzero J j1 j2 ls : 0 <= J -> 0 <= j1 -> 0 <= j2 -> allowed_ls J j1 j2 ls ->
  exists l1 l2, In l1 (helicities j1) /\ In l2 (helicities j2) /\ In (l1 - l2) (helicities J) /\ ls_factor J ls j1 l1 j2 l2 <> 0%R.
Proof.
  intros HJ H1 H2 A. apply NNPP. intros N.
  pose proof (ls_orthonormal J j1 j2 ls ls HJ H1 H2 (allowed_physical _ _ _ _ A) (allowed_physical _ _ _ _ A)) as O.
  destruct (eq_dec ls ls) as [_|X]; [|destruct (X eq_refl)].
  rewrite Rsum_zero in O; [lra|]. intros l1 I1. apply Rsum_zero. intros l2 I2.
  destruct (Req_dec (ls_factor J ls j1 l1 j2 l2) 0) as [->|X]; [ring|exfalso]. apply N. exists l1, l2. repeat split; try assumption.
  destruct (is_projection J (l1 - l2)) eqn:P.
  - rewrite is_projection_hel in P. apply memb_In. exact P.
  - apply (ls_factor_projection J ls j1 l1 j2 l2) in P. contradiction.
Qed.
Lemma tuple_of (s : Z -> state) i j k a0 ai aj ak : cyclic i j k -> In a0 (helicities (p_spin (s 0))) ->
  In ai (helicities (p_spin (s i))) -> In aj (helicities (p_spin (s j))) -> In ak (helicities (p_spin (s k))) ->
  exists l, helicity_tuple s l /\ at4 l 0 = a0 /\ at4 l i = ai /\ at4 l j = aj /\ at4 l k = ak.
Proof.
  intros Cy H0 Hi Hj Hk. destruct Cy as [E|[E|[E|[]]]]; injection E as <- <- <-.
  - exists (a0, ai, aj, ak). repeat split; assumption.
  - exists (a0, ak, ai, aj). repeat split; assumption.
  - exists (a0, aj, ak, ai). repeat split; assumption.
Qed.
Lemma hel_opp a J : In (- a) (helicities J) -> In a (helicities J).
Proof.
  rewrite !helicities_range, !spin_range2_In. intros [A B]. split; [lia|]. replace (J - a) with ((J - - a) + 2 * (- a)) by lia.
  rewrite Z.even_add, B, Z.even_mul. reflexivity.
Qed.

Section LS.
  Context (b : builder) (s : Z -> state) (dyn : chain -> defexpr) (ref : option Z) (cl uc : bool) (m : model).
  Context (D : std_decay (b_decay b) s) (Dyn : dynamics_of b dyn) (PR : plain_resonances (b_decay b))
    (F : formulate b ref cl uc = Ok m) (Hp : b_prod_helicity b = false) (Hd : b_dec_helicity b = false)
    (ND : NoDup (map (chain_key false false) (d_chains (b_decay b)))).
  Lemma ls_effect c : In c (d_chains (b_decay b)) -> allowed_chain c -> live dyn c ->
    forall key r lk li lj, In key (coupling_keys uc false false c r lk li lj) -> has_effect m key.
  Proof.
    intros Ic [(p & P & HP) (q & Q & HQ)] Lv key r lk li lj Kk.
    destruct (spectator_label b s D c Ic) as (K & E & _). set (k := st_index (ch_spectator c)) in *.
    destruct (cyclic_ex k K) as (i & j & Cy). pose proof (std_products _ _ D k i j c Ic E Cy) as Pr.
    destruct (cyclic_in _ _ _ Cy) as (Ii & Ij & _).
    assert (S0 : forall n, In n [0; 1; 2; 3] -> 0 <= p_spin (s n)) by (intros n Hn; exact (sd_spin _ _ D n Hn)).
    assert (Si : forall n, In n [1; 2; 3] -> st_index (s n) = n) by (intros n Hn; apply (sd_index _ _ D); right; exact Hn).
    set (J := p_spin (ch_resonance c)) in *.
    rewrite (std_parent _ _ D c Ic), E in HP.
    assert (HJ : 0 <= J).
    { destruct HP as [[[A1 A2] _] _]. destruct HQ as [[[A3 A4] _] [[A5 A6] _]].
      pose proof (Zabs_ind (fun z => 0 <= z)). lia. }
    assert (J0 : 0 <= p_spin (s 0)) by (apply S0; left; reflexivity).
    assert (Jk : 0 <= p_spin (s k)) by (apply S0; right; exact K).
    assert (VP : exists r lk, In r (helicities J) /\ In lk (helicities (p_spin (s k))) /\ In (r - lk) (helicities (p_spin (s 0))) /\
      prod_factor false c r lk <> 0%R).
    { unfold prod_factor. rewrite P, (std_parent _ _ D c Ic), E. fold J. destruct (resonance_first c).
      - destruct (vertex_nonzero _ J (p_spin (s k)) p J0 HJ Jk HP) as (l1 & l2 & A1 & A2 & A3 & A4). exists l1, l2. auto.
      - assert (HP' : allowed_ls (p_spin (s 0)) (p_spin (s k)) J p).
        { destruct HP as [[[B1 B2] B3] B4]. split; [|exact B4]. split; [lia|]. rewrite Z.add_comm. exact B3. }
        destruct (vertex_nonzero _ (p_spin (s k)) J p J0 Jk HJ HP') as (l1 & l2 & A1 & A2 & A3 & A4). exists l2, l1.
        repeat split; auto. apply hel_opp. replace (- (l2 - l1)) with (l1 - l2) by lia. exact A3. }
    assert (VD : exists li lj, In li (helicities (p_spin (s i))) /\ In lj (helicities (p_spin (s j))) /\ In (li - lj) (helicities J) /\
      forall lam, lam i = li -> lam j = lj -> dec_factor false c lam <> 0%R).
    { assert (Ji : 0 <= p_spin (s i)) by (apply S0; right; exact Ii). assert (Jj : 0 <= p_spin (s j)) by (apply S0; right; exact Ij).
      unfold dec_factor. rewrite Q. fold J. destruct Pr as [Pr|Pr]; rewrite Pr in *; cbn [fst snd] in HQ.
      - destruct (vertex_nonzero _ _ _ q HJ Ji Jj HQ) as (l1 & l2 & A1 & A2 & A3 & A4). exists l1, l2. repeat split; auto.
        intros lam E1 E2. rewrite !Si by assumption. rewrite E1, E2. exact A4.
      - destruct (vertex_nonzero _ _ _ q HJ Jj Ji HQ) as (l1 & l2 & A1 & A2 & A3 & A4). exists l2, l1. repeat split; auto.
        + apply hel_opp. replace (- (l2 - l1)) with (l1 - l2) by lia. exact A3.
        + intros lam E1 E2. rewrite !Si by assumption. rewrite E1, E2. exact A4. }
    destruct VP as (r' & lk' & R1 & R2 & R3 & R4). destruct VD as (li' & lj' & T1 & T2 & T3 & T4).
    destruct (tuple_of s i j k (r' - lk') li' lj' lk' Cy R3 T1 T2 R2) as (l & Hl & L0 & Li & Lj & Lk).
    assert (ER : at4 l 0 + at4 l k = r') by lia.
    apply (coupling_effect b s dyn ref cl uc m D Dyn (fun _ => PR) F) with (c := c) (l := l) (i := i) (j := j) (k := k); rewrite ?Hp, ?Hd.
    - exact ND.
    - exact Ic.
    - exact Hl.
    - exact Cy.
    - reflexivity.
    - replace (coupling_keys uc false false c (at4 l 0 + at4 l k) (at4 l k) (at4 l i) (at4 l j)) with (coupling_keys uc false false c r lk li lj)
        by (destruct uc; reflexivity). exact Kk.
    - exact Lv.
    - rewrite ER. exact R1.
    - rewrite Li, Lj. exact T3.
    - rewrite ER, Lk. exact R4.
    - apply T4; assumption.
  Qed.
  Theorem ls_all_effect : (forall c, In c (d_chains (b_decay b)) -> allowed_chain c /\ live dyn c) ->
    forall n v, occurs_in_amplitudes m (OIdx n v) -> has_effect m (n, v).
  Proof.
    intros A n v O. apply (amplitudes_occ b s dyn uc D Dyn ref cl m F) in O.
    destruct O as (l & i & j & k & c & r & T & Cp & [(y & _ & E)|[E|(p & Hpp & E)]]); try discriminate.
    pose proof (chains_of_In b _ _ (proj2 (proj2 T))) as Ic. destruct (A c Ic) as [Al Lv].
    rewrite Hp, Hd in Hpp. apply (ls_effect c Ic Al Lv (n, v) r (at4 l k) (at4 l i) (at4 l j)).
    replace (n, v) with p; [destruct uc; exact Hpp|]. destruct p as [n' v']. unfold okey_of in E. cbn [fst snd] in E. congruence.
  Qed.
End LS.

(** ** The helicity basis *)
Theorem helicity_effect b s dyn ref cl uc m : std_decay (b_decay b) s -> dynamics_of b dyn -> formulate b ref cl uc = Ok m ->
  b_prod_helicity b = true -> b_dec_helicity b = true -> NoDup (map (fun c => p_latex (ch_resonance c)) (d_chains (b_decay b))) ->
  forall c l i j k, In c (d_chains (b_decay b)) -> st_index (ch_spectator c) = k -> cyclic i j k -> helicity_tuple s l ->
    let J := p_spin (ch_resonance c) in let r := at4 l 0 + at4 l k in
    In r (helicities J) ->
    (forall key, In key (coupling_keys uc true true c r (at4 l k) (at4 l i) (at4 l j)) ->
       exists v, dget (KIdx (fst key) (snd key)) (m_params m) = Some v) /\
    (In (at4 l i - at4 l j) (helicities J) -> live dyn c ->
       forall key, In key (coupling_keys uc true true c r (at4 l k) (at4 l i) (at4 l j)) -> has_effect m key) /\
    (~ In (at4 l i - at4 l j) (helicities J) -> no_effect m (decay_key uc true true c r (at4 l k) (at4 l i) (at4 l j))).
Proof.
  intros D Dyn F Hp Hd NL c l i j k Ic Hk Cy Hl J r Hr.
  assert (PR : b_prod_helicity b = false -> plain_resonances (b_decay b)) by (rewrite Hp; discriminate).
  split; [|split].
  - intros key Kk. apply (proj1 (c23 b s dyn ref cl uc m D Dyn F)).
    apply (amplitudes_occ b s dyn uc D Dyn ref cl m F). exists l, i, j, k, c, r.
    split; [|split].
    + split; [exact Hl|]. split; [exact Cy|]. apply filter_In. split; [exact Ic|]. apply Z.eqb_eq. exact Hk.
    + split; [exact Hr|]. unfold r. lia.
    + right; right. exists key. rewrite Hp, Hd. split; [destruct uc; exact Kk|]. destruct key. reflexivity.
  - intros Hij Lv key Kk. apply (coupling_effect b s dyn ref cl uc m D Dyn PR F) with (c := c) (l := l) (i := i) (j := j) (k := k);
      rewrite ?Hp, ?Hd; try assumption; try (cbn; lra).
    apply (NoDup_map_inv (fun q => fst (fst q))). rewrite map_map. exact NL.
  - intros Hij. pose proof (coupling_no_effect b s dyn ref cl uc m D Dyn PR F Hd) as N. rewrite Hp in N.
    refine (N _ c i j r (at4 l k) (at4 l i) (at4 l j) Ic _ Hij).
    + intros c1 c2 I1 I2 E. assert (c1 = c2); [|subst; auto]. clear - NL I1 I2 E.
      induction (d_chains (b_decay b)) as [|y ys IH]; [destruct I1|]. cbn [map] in NL. inversion NL as [|? ? Ny NL']; subst.
      destruct I1 as [->|I1], I2 as [->|I2]; [reflexivity| | |exact (IH NL' I1 I2)]; exfalso; apply Ny.
      * rewrite E. apply (in_map (fun c => p_latex (ch_resonance c)) _ _ I2).
      * rewrite <- E. apply (in_map (fun c => p_latex (ch_resonance c)) _ _ I1).
    + rewrite Hk. exact Cy.
Qed.
