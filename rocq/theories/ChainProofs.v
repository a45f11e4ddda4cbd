(** Additivity of the amplitudes over the chains, and switching off chains. *)
From Coq Require Import String ZArith QArith Qcanon Qreals List Bool Reals Lia Lra Permutation Sorted.
From Coquelicot Require Import Complex.
From Verif Require Import Prelude Spin Decay Expr Angles Sums Wigner CG CExpr SpecKin SpecDPD Builder
  SpinFacts DecayFacts AnglesFacts WignerFacts CExprFacts BuilderFacts ModelFacts RefFacts.
Import ListNotations.
Local Open Scope string_scope.
Local Open Scope Z_scope.
Local Open Scope list_scope.

Lemma no_subsystem d k : ~ In k (get_subsystem_ids d) -> filter (fun c => st_index (ch_spectator c) =? k) (d_chains d) = [].
Proof.
  intros N. rewrite get_subsystem_ids_In in N. induction (d_chains d) as [|c cs IH]; [reflexivity|]. cbn [filter].
  destruct (Z.eqb_spec (st_index (ch_spectator c)) k) as [E|E].
  - exfalso. apply N. exists c. split; [left; reflexivity|exact E].
  - apply IH. intros (c' & I & X). apply N. exists c'. split; [right; exact I|exact X].
Qed.

(** The amplitude, also if the subsystem has no chains *)
Lemma amplitude_total b s dyn ref cl uc m : std_decay (b_decay b) s -> dynamics_of b dyn ->
  (b_prod_helicity b = false -> plain_resonances (b_decay b)) -> formulate b ref cl uc = Ok m ->
  forall l i j k ev, helicity_tuple s l -> cyclic i j k ->
    amp_value ev m k l =
      dpd_amplitude (b_prod_helicity b) (b_dec_helicity b) s (d_chains (b_decay b))
        (fun c r => (if uc then coefficient else coupling_product) ev (b_prod_helicity b) (b_dec_helicity b)
                      c r (at4 l k) (at4 l i) (at4 l j))
        (fun c => ceval ev (fun _ => 0) (de_expr (dyn c)))
        (Re (e_sym ev (theta_name i j))) (at4 l) i j k.
Proof.
  intros D Dyn PR F l i j k ev Hl Cy.
  destruct (in_dec Z.eq_dec k (get_subsystem_ids (b_decay b))) as [I|N].
  - destruct (amplitude_formula b s D dyn ref cl uc m Dyn PR F l i j k Hl Cy (or_intror I)) as (_ & _ & V). apply V.
  - destruct (b_all_subsystems b) eqn:A.
    + destruct (amplitude_formula b s D dyn ref cl uc m Dyn PR F l i j k Hl Cy (or_introl A)) as (_ & _ & V). apply V.
    + unfold dpd_amplitude. rewrite no_subsystem by exact N. cbn [Csum]. unfold amp_value.
      destruct (dget (amp_name k, amp_index l) (m_amplitudes m)) as [e|] eqn:G; [|reflexivity].
      exfalso. apply dget_Some_In in G. apply (in_map fst) in G.
      apply (proj2 (amplitude_keys b s D ref cl uc m F)) in G. cbn [fst] in G.
      destruct G as (k' & l' & E & _ & I). rewrite A in I. apply pair_equal_spec in E. destruct E as [E _].
      apply amp_name_inj in E; [subst; auto| |apply (ids_range b s D); exact I].
      destruct (cyclic_in _ _ _ Cy) as (_ & _ & X). exact X.
Qed.

(** Two models with the same reference; the subsystems of the second are among those of the first. *)
Section Two.
  Variables (b1 b2 : builder) (s : Z -> state) (dyn1 dyn2 : chain -> defexpr) (uc1 uc2 : bool).
  Variables (ref1 ref2 : option Z) (cl1 cl2 : bool) (m1 m2 : model) (r : Z).
  Hypothesis D1 : std_decay (b_decay b1) s.
  Hypothesis D2 : std_decay (b_decay b2) s.
  Hypothesis Y1 : dynamics_of b1 dyn1.
  Hypothesis Y2 : dynamics_of b2 dyn2.
  Hypothesis P1 : b_prod_helicity b1 = false -> plain_resonances (b_decay b1).
  Hypothesis P2 : b_prod_helicity b2 = false -> plain_resonances (b_decay b2).
  Hypothesis F1 : formulate b1 ref1 cl1 uc1 = Ok m1.
  Hypothesis F2 : formulate b2 ref2 cl2 uc2 = Ok m2.
  Hypothesis R1 : resolve_reference (b_decay b1) ref1 = Ok r.
  Hypothesis R2 : resolve_reference (b_decay b2) ref2 = Ok r.
  Hypothesis Sub : forall k, In k (get_subsystem_ids (b_decay b2)) -> In k (get_subsystem_ids (b_decay b1)).

  Lemma sub_variables x e : b_all_subsystems b2 = b_all_subsystems b1 ->
    dget x (m_variables m2) = Some e -> dget x (m_variables m1) = Some e.
  Proof.
    intros Eall G. assert (K : In x (dkeys (m_variables m2))) by (apply dget_In; eauto).
    apply (variable_names b2 s D2 _ _ _ _ r F2 R2) in K.
    destruct K as [(i & j & k & Cy & -> & Ik)|(i & k & Ii & Ik & Hs & ->)].
    - rewrite Eall in Ik.
      assert (Hl : helicity_tuple s (- p_spin (s 0), - p_spin (s 1), - p_spin (s 2), - p_spin (s 3))).
      { assert (X : forall n, In n [0; 1; 2; 3] -> In (- p_spin (s n)) (helicities (p_spin (s n)))).
        { intros n Hn. rewrite helicities_range. apply spin_range2_In. pose proof (sd_spin _ _ D1 n Hn).
          split; [lia|]. apply Z.even_spec. exists (p_spin (s n)). lia. }
        unfold helicity_tuple. repeat split; apply X; simpl; auto. }
      destruct (amplitude_formula b2 s D2 dyn2 _ _ _ _ Y2 P2 F2 _ i j k Hl Cy) as (_ & (t2 & T2 & G2) & _).
      { destruct (b_all_subsystems b1) eqn:A; [left; congruence|right; exact Ik]. }
      destruct (amplitude_formula b1 s D1 dyn1 _ _ _ _ Y1 P1 F1 _ i j k Hl Cy) as (_ & (t1 & T1 & G1) & _).
      { destruct (b_all_subsystems b1) eqn:A; [left; congruence|right; apply Sub; exact Ik]. }
      congruence.
    - destruct (zeta_variable b2 s D2 _ _ _ _ r F2 R2 i k Ii Ik Hs) as (z2 & Z2 & G2).
      destruct (zeta_variable b1 s D1 _ _ _ _ r F1 R1 i k Ii (Sub k Ik) Hs) as (z1 & Z1 & G1). congruence.
  Qed.

  (** equal amplitudes give equal intensities *)
  Lemma intensity_sub ev1 ev2 : (forall x, e_sym ev1 x = e_sym ev2 x) ->
    (forall k l, In k [1; 2; 3] -> helicity_tuple s l -> amp_value ev1 m1 k l = amp_value ev2 m2 k l) ->
    full_value ev1 m1 = full_value ev2 m2.
  Proof.
    intros Es A.
    destruct (intensity_formula b1 s D1 ref1 cl1 uc1 m1 F1) as (r1 & ks1 & E1 & S1 & V1).
    destruct (intensity_formula b2 s D2 ref2 cl2 uc2 m2 F2) as (r2 & ks2 & E2 & S2 & V2).
    rewrite V1, V2. assert (r1 = r) by congruence. assert (r2 = r) by congruence. subst r1 r2. f_equal.
    assert (I1 : forall k, In k ks1 <-> In k (get_subsystem_ids (b_decay b1))) by (intros; apply ids_123; exact S1).
    assert (I2 : forall k, In k ks2 <-> In k (get_subsystem_ids (b_decay b2))) by (intros; apply ids_123; exact S2).
    assert (N : forall d ks, sorted (get_subsystem_ids d) = Ok ks -> NoDup ks).
    { intros d ks X. destruct (sorted_Z (get_subsystem_ids d)) as (ks' & X' & Pm). assert (ks' = ks) by congruence. subst ks'.
      eapply Permutation_NoDup; [exact Pm|]. apply to_set_NoDup. }
    assert (Pm : Permutation ks2 (filter (fun k => if in_dec Z.eq_dec k ks2 then true else false) ks1)).
    { apply NoDup_Permutation; [apply (N _ _ S2)|apply NoDup_filter, (N _ _ S1)|].
      intros k. rewrite filter_In. destruct (in_dec Z.eq_dec k ks2) as [I|I]; [|intuition discriminate].
      split; [|tauto]. intros _. split; [|reflexivity]. apply I1, Sub, I2. exact I. }
    unfold intensity_value, aligned_amplitude. apply Rsum_ext. intros l _. do 2 f_equal.
    apply Csum_ext. intros l' Hl'. apply tuples_In in Hl'. rewrite (Csum_perm ks2 _ _ Pm), Csum_filter.
    apply Csum_ext. intros k Hk.
    assert (Hk' : In k [1; 2; 3]) by (apply (ids_range b1 s D1), I1; exact Hk).
    destruct (in_dec Z.eq_dec k ks2) as [I|I].
    - rewrite A by auto. unfold alignment. rewrite !Es. reflexivity.
    - rewrite (A k l') by auto. destruct (cyclic_ex k Hk') as (i & j & Cy).
      rewrite (amplitude_total b2 s dyn2 ref2 cl2 uc2 m2 D2 Y2 P2 F2 l' i j k ev2 Hl' Cy).
      unfold dpd_amplitude. rewrite no_subsystem by (intros X; apply I, I2; exact X). cbn [Csum]. apply Cmult_0_l.
  Qed.
End Two.

Lemma sub_plain b1 b2 : (b_prod_helicity b1 = false -> plain_resonances (b_decay b1)) ->
  b_prod_helicity b2 = b_prod_helicity b1 -> incl (d_chains (b_decay b2)) (d_chains (b_decay b1)) ->
  b_prod_helicity b2 = false -> plain_resonances (b_decay b2).
Proof. intros P1 Eph Sub E c I. apply P1; [congruence|]. apply Sub. exact I. Qed.
Lemma sub_ids d1 d2 : incl (d_chains d2) (d_chains d1) ->
  forall k, In k (get_subsystem_ids d2) -> In k (get_subsystem_ids d1).
Proof. intros Sub k. rewrite !get_subsystem_ids_In. intros (c & I & E). exists c. split; [apply Sub; exact I|exact E]. Qed.

Lemma c83_off b1 b2 s dyn uc ref1 cl1 m1 ref2 cl2 m2 r rest :
  std_decay (b_decay b1) s -> std_decay (b_decay b2) s -> dynamics_of b1 dyn -> dynamics_of b2 dyn ->
  (b_prod_helicity b1 = false -> plain_resonances (b_decay b1)) ->
  b_prod_helicity b2 = b_prod_helicity b1 -> b_dec_helicity b2 = b_dec_helicity b1 -> b_all_subsystems b2 = b_all_subsystems b1 ->
  formulate b1 ref1 cl1 uc = Ok m1 -> formulate b2 ref2 cl2 uc = Ok m2 ->
  resolve_reference (b_decay b1) ref1 = Ok r -> resolve_reference (b_decay b2) ref2 = Ok r ->
  Permutation (d_chains (b_decay b1)) (d_chains (b_decay b2) ++ rest) ->
  (forall x e, dget x (m_variables m2) = Some e -> dget x (m_variables m1) = Some e) /\
  forall ev, (forall c h lk li lj, In c rest ->
      (if uc then coefficient else coupling_product) ev (b_prod_helicity b1) (b_dec_helicity b1) c h lk li lj = RtoC 0) ->
    (forall k l, In k [1; 2; 3] -> helicity_tuple s l -> amp_value ev m1 k l = amp_value ev m2 k l) /\
    full_value ev m1 = full_value ev m2.
Proof.
  intros D1 D2 Y1 Y2 P1 Eph Edh Eall F1 F2 R1 R2 Pm.
  assert (Sub : incl (d_chains (b_decay b2)) (d_chains (b_decay b1))).
  { intros c I. eapply Permutation_in; [apply Permutation_sym; exact Pm|]. apply in_or_app. left. exact I. }
  pose proof (sub_plain b1 b2 P1 Eph Sub) as P2. pose proof (sub_ids _ _ Sub) as Ids.
  split.
  - intros x e. exact (sub_variables b1 b2 s dyn dyn uc uc ref1 ref2 cl1 cl2 m1 m2 r D1 D2 Y1 Y2 P1 P2 F1 F2 R1 R2 Ids x e Eall).
  - intros ev Z0.
    assert (A : forall k l, In k [1; 2; 3] -> helicity_tuple s l -> amp_value ev m1 k l = amp_value ev m2 k l).
    { intros k l Hk Hl. destruct (cyclic_ex k Hk) as (i & j & Cy).
      rewrite (amplitude_total b1 s dyn ref1 cl1 uc m1 D1 Y1 P1 F1 l i j k ev Hl Cy).
      rewrite (amplitude_total b2 s dyn ref2 cl2 uc m2 D2 Y2 P2 F2 l i j k ev Hl Cy).
      unfold dpd_amplitude. rewrite Eph, Edh, !Csum_filter, (Csum_perm _ _ _ Pm), Csum_app.
      match goal with |- (_ + ?x)%C = _ => replace x with (RtoC 0) end; [ring|].
      symmetry. apply Csum_zero. intros c Ic. destruct (_ =? _); [|reflexivity]. apply Csum_zero. intros h _.
      destruct (_ =? _); [|reflexivity]. rewrite Z0 by exact Ic. ring. }
    split; [exact A|].
    exact (intensity_sub b1 b2 s dyn uc uc ref1 ref2 cl1 cl2 m1 m2 r D1 D2 Y2 P2 F1 F2 R1 R2 Ids ev ev (fun x => eq_refl) A).
Qed.

Lemma c83_additive b b1 b2 s dyn uc ref cl m ref1 cl1 m1 ref2 cl2 m2 :
  std_decay (b_decay b) s -> std_decay (b_decay b1) s -> std_decay (b_decay b2) s ->
  dynamics_of b dyn -> dynamics_of b1 dyn -> dynamics_of b2 dyn ->
  (b_prod_helicity b = false -> plain_resonances (b_decay b)) ->
  b_prod_helicity b1 = b_prod_helicity b -> b_dec_helicity b1 = b_dec_helicity b ->
  b_prod_helicity b2 = b_prod_helicity b -> b_dec_helicity b2 = b_dec_helicity b ->
  formulate b ref cl uc = Ok m -> formulate b1 ref1 cl1 uc = Ok m1 -> formulate b2 ref2 cl2 uc = Ok m2 ->
  Permutation (d_chains (b_decay b)) (d_chains (b_decay b1) ++ d_chains (b_decay b2)) ->
  forall ev k l, In k [1; 2; 3] -> helicity_tuple s l ->
    amp_value ev m k l = (amp_value ev m1 k l + amp_value ev m2 k l)%C.
Proof.
  intros D D1 D2 Y Y1 Y2 P E1 E1' E2 E2' F F1 F2 Pm ev k l Hk Hl. destruct (cyclic_ex k Hk) as (i & j & Cy).
  assert (S1 : incl (d_chains (b_decay b1)) (d_chains (b_decay b))).
  { intros c I. eapply Permutation_in; [apply Permutation_sym; exact Pm|]. apply in_or_app. left. exact I. }
  assert (S2 : incl (d_chains (b_decay b2)) (d_chains (b_decay b))).
  { intros c I. eapply Permutation_in; [apply Permutation_sym; exact Pm|]. apply in_or_app. right. exact I. }
  rewrite (amplitude_total b s dyn ref cl uc m D Y P F l i j k ev Hl Cy).
  rewrite (amplitude_total b1 s dyn ref1 cl1 uc m1 D1 Y1 (sub_plain b b1 P E1 S1) F1 l i j k ev Hl Cy).
  rewrite (amplitude_total b2 s dyn ref2 cl2 uc m2 D2 Y2 (sub_plain b b2 P E2 S2) F2 l i j k ev Hl Cy).
  unfold dpd_amplitude. rewrite E1, E1', E2, E2', !Csum_filter, (Csum_perm _ _ _ Pm), Csum_app. reflexivity.
Qed.
