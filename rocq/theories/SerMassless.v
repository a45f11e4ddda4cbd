(** Massless final states in model files (proofs for C154) *)
From Coq Require Import String ZArith List Bool Reals Lia Lra Permutation.
From Coquelicot Require Import Complex.
From Verif Require Import Prelude Spin Decay Expr Angles Sums Wigner CExpr SpecSpin SpecKin SpecDPD SpecWigner Builder SpinFacts DecayFacts KinFacts AnglesFacts AnglesProofs
  CExprFacts BuilderFacts ModelFacts RefFacts MasslessFacts RateProofs UnitFacts SpecRename RenameProofs SerFormat SerDynamics SpecSerial SerModel SerProofs SerDyn SerFormal SpecWeights SerWeights SpecSerMassless.
From Verif Require SerAmplitude.
Import ListNotations.
Local Open Scope Z_scope.

Lemma coupling_given f a b a0 b0 : coupling_of f a b a0 b0 = 0%R \/ (a = a0 /\ b = b0) \/ (f <> 0 /\ a = - a0 /\ b = - b0).
Proof.
  unfold coupling_of. destruct (Z.eqb_spec a a0), (Z.eqb_spec b b0), (Z.eqb_spec a (- a0)), (Z.eqb_spec b (- b0)), (Z.eq_dec f 0); cbn [andb]; subst;
    try (right; left; split; reflexivity); try (right; right; repeat split; auto; fail); left; ring.
Qed.

Section Model.
  Variables (m : model_def) (d : distribution) (s : Z -> state) (r : Z)
    (tl : string -> string) (additional : option (dict string prop_builder))
    (x : chain_def -> content) (w : chain_def -> symbol) (dyn : chain_def -> defexpr).
  Hypothesis H : helicity_definition m d s r tl additional x w dyn.
  Variables (cl : bool) (M : model).
  Hypothesis F : SerAmplitude.formulate m cl tl additional = Ok M.
  Hypothesis W : weights_only w dyn (di_chains d).

  Lemma contribution_given ev l c n : In c (di_chains d) -> (1 <= n <= 3) -> chain_contribution x w dyn ev l c = RtoC 0 \/ gives (x c) n (at4 l n).
  Proof.
    intros Hc Hn. pose proof (hd_perm m d s r tl additional x w dyn H c Hc) as P.
    unfold chain_contribution, serial_term. set (q := x c) in *.
    assert (In n [ct_i q; ct_j q; ct_k q]) as In'.
    { apply (Permutation_in n (Permutation_sym P)). cbn. lia. }
    assert (ND : NoDup [ct_i q; ct_j q; ct_k q]) by (apply (Permutation_NoDup (Permutation_sym P)); repeat constructor; cbn; lia).
    assert (N : ct_i q <> ct_j q /\ ct_i q <> ct_k q /\ ct_j q <> ct_k q).
    { inversion ND as [|? ? A B]; subst. inversion B as [|? ? A' B']; subst. split; [|split]; intros Q; [apply A; rewrite Q; left|apply A; rewrite Q; right; left|apply A'; rewrite Q; left]; reflexivity. }
    destruct N as (N1 & N2 & N3). unfold gives, helicity_in.
    destruct (coupling_given (ct_fp q) (ct_r q) (at4 l (ct_k q)) (ct_r q) (ct_lk q)) as [->|A]; [left; ring|].
    destruct (coupling_given (ct_fd q) (at4 l (ct_i q)) (at4 l (ct_j q)) (ct_li q) (ct_lj q)) as [->|B]; [left; ring|]. right.
    destruct In' as [E|[E|[E|[]]]]; rewrite <- E.
    - rewrite Z.eqb_refl, (proj2 (Z.eqb_neq _ _) N2). destruct B as [(B & _)|(B0 & B & _)]; auto.
    - rewrite Z.eqb_refl, (proj2 (Z.eqb_neq _ _) N3), (proj2 (Z.eqb_neq _ _) (not_eq_sym N1)). destruct B as [(_ & B)|(B0 & _ & B)]; auto.
    - rewrite Z.eqb_refl, (proj2 (Z.eqb_neq _ _) (not_eq_sym N2)), (proj2 (Z.eqb_neq _ _) (not_eq_sym N3)). destruct A as [(_ & A)|(A0 & _ & A)]; auto.
  Qed.

  Variables (base : symbol -> C) (cpl : string -> list ival -> C) (n : Z).
  Hypothesis (Ph : physical (fun y => Re (base y))) (Ns : nonsingular (fun y => Re (base y))) (Hn : 1 <= n <= 3) (M0 : mass_at (fun y => Re (base y)) n = 0%R).

  Lemma kept_amplitude base' keep Hs : weights_scaled w (di_chains d) (kept keep) base base' -> separated x (di_chains d) n keep Hs ->
    forall k l, In k [1; 2; 3] -> helicity_tuple s l -> amp_value (at_point (m_variables M) base' cpl) M k l
      = if in_dec Z.eq_dec (at4 l n) Hs then amp_value (at_point (m_variables M) base cpl) M k l else RtoC 0.
  Proof.
    intros S Sep k l Hk Hl. rewrite !(serial_amplitude_value m d s r tl additional x w dyn H cl M F) by assumption.
    assert (T : forall c, In c (chains_in x d k) -> chain_contribution x w dyn (at_point (m_variables M) base' cpl) l c
      = if in_dec Z.eq_dec (at4 l n) Hs then chain_contribution x w dyn (at_point (m_variables M) base cpl) l c else RtoC 0).
    { intros c Hc. apply in_chains_in in Hc. destruct Hc as [Hc _].
      rewrite (contribution_point m m d d s r r tl additional x w dyn H H (Permutation_refl _) cl cl M M F F base base' cpl (kept keep) W S l c Hc).
      unfold kept. destruct (contribution_given (at_point (m_variables M) base cpl) l c n Hc Hn) as [->|G].
      - destruct (in_dec Z.eq_dec (at4 l n) Hs); ring.
      - pose proof (Sep c _ Hc G) as X. destruct (keep c), (in_dec Z.eq_dec (at4 l n) Hs); try contradiction; ring. }
    destruct (in_dec Z.eq_dec (at4 l n) Hs).
    - apply Csum_ext. exact T.
    - apply Csum_zero. exact T.
  Qed.
  Theorem massless_parts : exists I : Z -> R, (forall h, 0 <= I h)%R /\ forall base' keep Hs,
    weights_scaled w (di_chains d) (kept keep) base base' -> separated x (di_chains d) n keep Hs ->
    full_value (at_point (m_variables M) base' cpl) M
    = RtoC (Rsum (filter (fun h => if in_dec Z.eq_dec h Hs then true else false) (helicities (p_spin (s n)))) I).
  Proof.
    destruct (serial_intensity_value m d s r tl additional x w dyn H cl M F) as (ks & _ & _ & K & V).
    pose proof (subsystem_range m d s r tl additional x w dyn H ks K) as Kr.
    set (ev := at_point (m_variables M) base cpl). set (zeta := fun i k => Re (e_sym ev (zeta_symbol i k r))).
    exists (part s ks (amp_value ev M) zeta n). split; [apply part_pos|]. intros base' keep Hs S Sep. rewrite V. f_equal.
    rewrite (intensity_zeta_ext s ks _ _ zeta).
    - apply restricted_intensity; [exact Hn| |].
      + intros k Hk S0. destruct (proj1 (K k) Hk) as (c & Hc & <-). unfold zeta, ev.
        rewrite (zeta_point s tl additional x w dyn m d r cl M H F base cpl n c ltac:(cbn; lia) Hc S0).
        apply zeta_massless; try assumption.
        * pose proof (Kr _ Hk) as Q. cbn in Q. lia.
        * pose proof (ds_reference _ _ _ _ _ (hd_states _ _ _ _ _ _ _ _ _ H)) as [Q _]. cbn in Q. lia.
      + intros k l Hk Hl. apply (kept_amplitude base' keep Hs S Sep k l (Kr k Hk)). apply tuples_In. exact Hl.
    - intros i k Hi Hk S0. destruct (proj1 (K k) Hk) as (c & Hc & <-). unfold zeta, ev.
      rewrite !(zeta_point s tl additional x w dyn m d r cl M H F _ cpl i c Hi Hc S0).
      destruct (formulate_zeta_angle i (ct_k (x c)) r) as [[y e]|] eqn:E; [|reflexivity]. cbn [rv]. apply reval_on.
      intros z Hz. pose proof (proj2 angle_syms _ _ _ _ _ E z Hz) as Iz.
      apply (nonneg_same m d s r tl additional x w dyn H base base' (kept keep) S).
      clear - Iz. unfold invariant_names in Iz. apply in_app_or in Iz. destruct Iz as [Iz|Iz]; apply in_map_iff in Iz; destruct Iz as (q & <- & _); reflexivity.
  Qed.

  (** Two groups of chains that give different helicities do not interfere *)
  Lemma filter_split (I : Z -> R) (A B : list Z) (hs : list Z) : (forall h, In h A -> In h B -> False) ->
    Rsum (filter (fun h => if in_dec Z.eq_dec h (A ++ B) then true else false) hs) I
    = (Rsum (filter (fun h => if in_dec Z.eq_dec h A then true else false) hs) I + Rsum (filter (fun h => if in_dec Z.eq_dec h B then true else false) hs) I)%R.
  Proof.
    intros D. rewrite !Rsum_filter, <- Rsum_plus. apply Rsum_ext. intros h _.
    destruct (in_dec Z.eq_dec h (A ++ B)) as [i|i], (in_dec Z.eq_dec h A) as [i0|i0], (in_dec Z.eq_dec h B) as [i1|i1]; try ring; exfalso.
    - exact (D h i0 i1).
    - apply in_app_or in i. tauto.
    - apply i, in_or_app. auto.
    - apply i, in_or_app. auto.
    - apply i, in_or_app. auto.
  Qed.
  Definition given_list (q : content) : list Z :=
    helicity_in q n :: if (if n =? ct_k q then ct_fp q else ct_fd q) =? 0 then [] else [- helicity_in q n].
  Lemma given_list_spec q h : In h (given_list q) <-> gives q n h.
  Proof.
    unfold given_list, gives. destruct (Z.eqb_spec (if n =? ct_k q then ct_fp q else ct_fd q) 0) as [E|E]; cbn [In]; split; intros X.
    - destruct X as [X|[]]. auto.
    - destruct X as [X|[X Y]]; [auto|contradiction].
    - destruct X as [X|[X|[]]]; [left|right]; auto.
    - destruct X as [X|[X Y]]; auto.
  Qed.
  Theorem massless_no_interference base1 base2 keep :
    weights_scaled w (di_chains d) (kept keep) base base1 -> weights_scaled w (di_chains d) (kept (fun c => negb (keep c))) base base2 ->
    (forall c c' h, In c (di_chains d) -> In c' (di_chains d) -> keep c = true -> keep c' = false -> gives (x c) n h -> gives (x c') n h -> False) ->
    full_value (at_point (m_variables M) base cpl) M
    = (full_value (at_point (m_variables M) base1 cpl) M + full_value (at_point (m_variables M) base2 cpl) M)%C.
  Proof.
    intros S1 S2 D. destruct massless_parts as (I & _ & P).
    set (A := flat_map (fun c => given_list (x c)) (filter keep (di_chains d))).
    set (B := flat_map (fun c => given_list (x c)) (filter (fun c => negb (keep c)) (di_chains d))).
    assert (InA : forall h, In h A <-> exists c, In c (di_chains d) /\ keep c = true /\ gives (x c) n h).
    { intros h. unfold A. rewrite in_flat_map. split.
      - intros (c & Ic & Ih). apply filter_In in Ic. apply given_list_spec in Ih. exists c. tauto.
      - intros (c & Ic & Kc & Ih). exists c. split; [apply filter_In; auto|apply given_list_spec; exact Ih]. }
    assert (InB : forall h, In h B <-> exists c, In c (di_chains d) /\ keep c = false /\ gives (x c) n h).
    { intros h. unfold B. rewrite in_flat_map. split.
      - intros (c & Ic & Ih). apply filter_In in Ic. apply given_list_spec in Ih. exists c. rewrite negb_true_iff in Ic. tauto.
      - intros (c & Ic & Kc & Ih). exists c. split; [apply filter_In; rewrite Kc; auto|apply given_list_spec; exact Ih]. }
    assert (Dj : forall h, In h A -> In h B -> False).
    { intros h Ha Hb. apply InA in Ha. apply InB in Hb. destruct Ha as (c & Ic & Kc & G), Hb as (c' & Ic' & Kc' & G'). exact (D c c' h Ic Ic' Kc Kc' G G'). }
    rewrite (P base1 keep A S1), (P base2 (fun c => negb (keep c)) B S2), (P base (fun _ => true) (A ++ B)).
    - rewrite <- RtoC_plus. f_equal. apply filter_split. exact Dj.
    - split; [intros c _; unfold kept; ring|reflexivity].
    - intros c h Ic G. apply in_or_app. destruct (keep c) eqn:Kc; [left; apply InA|right; apply InB]; eauto.
    - intros c h Ic G. destruct (keep c) eqn:Kc; cbn [negb]; [|apply InB; eauto]. intros Hb. apply (Dj h); [apply InA; eauto|exact Hb].
    - intros c h Ic G. destruct (keep c) eqn:Kc; [apply InA; eauto|]. intros Ha. apply (Dj h Ha). apply InB. eauto.
  Qed.
End Model.
