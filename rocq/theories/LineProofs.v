(** Conservation of angular momentum along a line (C136) *)
From Coq Require Import String ZArith QArith Qcanon List Bool Reals Lia Lra Permutation.
From Coquelicot Require Import Complex.
From Verif Require Import Prelude Spin Decay Expr Angles Sums Wigner CG CExpr SpecKin SpecDPD Builder
  SpinFacts DecayFacts KinFacts AnglesFacts AnglesProofs WignerFacts CExprFacts BuilderFacts ModelFacts RefFacts LSBasis ChainProofs SpecWigner WignerFrames
  SpecBuilder WaveFacts AngularFacts MirrorFacts SpecLine LineFacts.
Import ListNotations.
Local Open Scope Z_scope.

Section Aligned.
  Variables (b : builder) (s : Z -> state).
  Hypothesis D : std_decay (b_decay b) s.
  Definition lam_num (l : Z * Z * Z * Z) (n : Z) : hexpr := HVal (at4 l n).

  Lemma aligned_terms_any r j lam lam' lam2 ks : forall defs terms d, aligned_terms r j lam lam' ks defs = Ok (terms, d) ->
    exists terms2, aligned_terms r j lam2 lam' ks defs = Ok (terms2, d).
  Proof.
    assert (W : forall j m m' m2 m2' i k defs e d, wigner_gen r j m m' i k defs = Ok (e, d) -> exists e2, wigner_gen r j m2 m2' i k defs = Ok (e2, d)).
    { intros j0 m m' m2 m2' i k defs e d H. unfold wigner_gen in *. destruct (j0 =? 0); [ok_inj H; inversion H; subst; eauto|].
      inv_bind H. rewrite E. cbn [bind]. destruct v as [z ze]. ok_inj H. inversion H; subst. eauto. }
    induction ks as [|k ks IH]; intros defs terms d H; cbn [aligned_terms] in *; [ok_inj H; inversion H; subst; eauto|].
    inv_bind H. destruct v as [e d1]. inv_bind H. destruct v as [es d2]. ok_inj H. inversion H; subst. clear H.
    assert (T : exists e2, aligned_term r j lam2 lam' k defs = Ok (e2, d1)).
    { unfold aligned_term in *. inv_bind E. rewrite E1. cbn [bind].
      inv_bind E. destruct v0 as [w0 q0]. destruct (W _ _ _ (lam2 0) (lam' 0) _ _ _ _ _ E2) as [w0' ->]. cbn [bind].
      inv_bind E. destruct v0 as [w1 q1]. destruct (W _ _ _ (lam' 1) (lam2 1) _ _ _ _ _ E3) as [w1' ->]. cbn [bind].
      inv_bind E. destruct v0 as [w2 q2]. destruct (W _ _ _ (lam' 2) (lam2 2) _ _ _ _ _ E4) as [w2' ->]. cbn [bind].
      inv_bind E. destruct v0 as [w3 q3]. destruct (W _ _ _ (lam' 3) (lam2 3) _ _ _ _ _ E5) as [w3' ->]. cbn [bind].
      ok_inj E. inversion E; subst. eauto. }
    destruct T as [e2 ->]. cbn [bind]. destruct (IH _ _ _ E0) as [t2 ->]. cbn [bind]. eauto.
  Qed.
  Lemma aligned_any lam lam2 r e d : formulate_aligned_amplitude b lam (Some r) = Ok (e, d) -> exists e2, formulate_aligned_amplitude b lam2 (Some r) = Ok (e2, d).
  Proof.
    unfold formulate_aligned_amplitude. cbn [resolve_reference bind]. rewrite (std_sorted_keys _ _ D). cbn [bind]. rewrite (std_spins b s D). cbn [bind].
    intros H. inv_bind H. rewrite E. cbn [bind]. inv_bind H. destruct v0 as [terms defs]. ok_inj H. inversion H; subst.
    destruct (aligned_terms_any _ _ _ _ lam2 _ _ _ _ E0) as [t2 ->]. cbn [bind]. eauto.
  Qed.

  Lemma aligned_term_num r k l defs e defs' : In k [1; 2; 3] -> helicity_tuple s l ->
    aligned_term r (spin4 s) (lam_num l) lam_prime k defs = Ok (e, defs') ->
    forall ev h, helicity_tuple s (hp h) ->
       ceval ev h e = (e_idx ev (amp_name k) (amp_index (hp h))
         * RtoC (alignment s (fun i => Re (e_sym ev (zeta_symbol i k r))) l (hp h)))%C.
  Proof.
    intros Hk Hl. unfold aligned_term. rewrite (amp_base_name k Hk). cbn [bind]. intros H.
    inv_bind H. destruct v as [w0 d0]. inv_bind H. destruct v as [w1 d1].
    inv_bind H. destruct v as [w2 d2]. inv_bind H. destruct v as [w3 d3]. ok_inj H.
    assert (He : e = CMul (CMul (CMul (CMul
        (CIdx (amp_name k) (map (fun n => XHel (lam_prime n)) [0; 1; 2; 3])) w0) w1) w2) w3) by congruence.
    destruct (wigner_gen_facts _ _ _ _ _ _ _ _ _ E) as (V0 & _).
    destruct (wigner_gen_facts _ _ _ _ _ _ _ _ _ E0) as (V1 & _).
    destruct (wigner_gen_facts _ _ _ _ _ _ _ _ _ E1) as (V2 & _).
    destruct (wigner_gen_facts _ _ _ _ _ _ _ _ _ E2) as (V3 & _).
    intros ev h Hp.
    pose proof (fun i => helicity_tuple_zero s l i Hl) as Zs.
    pose proof (fun i => helicity_tuple_zero s (hp h) i Hp) as Zp.
    rewrite He. cbn [ceval]. rewrite V0, V1, V2, V3.
    + unfold alignment. rewrite !spin4_eq by (simpl; auto). rewrite !RtoC_mult.
      cbn [lam_num lam_prime heval hp at4 map ieval amp_index]. ring.
    + intros Z. cbn [lam_num lam_prime heval]. split; [apply (Zp 3)|apply (Zs 3)]; simpl; auto.
    + intros Z. cbn [lam_num lam_prime heval]. split; [apply (Zp 2)|apply (Zs 2)]; simpl; auto.
    + intros Z. cbn [lam_num lam_prime heval]. split; [apply (Zp 1)|apply (Zs 1)]; simpl; auto.
    + intros Z. cbn [lam_num lam_prime heval]. split; [apply (Zs 0)|apply (Zp 0)]; simpl; auto.
  Qed.
  Lemma aligned_terms_num r l ks : (forall k, In k ks -> In k [1; 2; 3]) -> helicity_tuple s l -> forall defs terms defs',
    aligned_terms r (spin4 s) (lam_num l) lam_prime ks defs = Ok (terms, defs') ->
    forall ev h, helicity_tuple s (hp h) ->
       ceval ev h (CAddL terms) = Csum ks (fun k => e_idx ev (amp_name k) (amp_index (hp h))
         * RtoC (alignment s (fun i => Re (e_sym ev (zeta_symbol i k r))) l (hp h)))%C.
  Proof.
    intros Hks Hl. induction ks as [|k ks IH]; intros defs terms defs' H ev h Hp; cbn [aligned_terms] in H.
    - ok_inj H. inversion H; subst. cbn [CAddL Csum]. unfold CNum. cbn [ceval]. rewrite Q2R_Z. reflexivity.
    - inv_bind H. destruct v as [e d1]. inv_bind H. destruct v as [es d2]. ok_inj H. inversion H; subst.
      cbn [CAddL ceval Csum]. rewrite (aligned_term_num _ _ _ _ _ _ (Hks k (or_introl eq_refl)) Hl E ev h Hp).
      rewrite (IH (fun k H => Hks k (or_intror H)) _ _ _ E0 ev h Hp). reflexivity.
  Qed.
  Lemma aligned_num r l e defs : helicity_tuple s l -> formulate_aligned_amplitude b (lam_num l) (Some r) = Ok (e, defs) ->
    exists ks, sorted (get_subsystem_ids (b_decay b)) = Ok ks /\ forall ev h,
      ceval ev h e = aligned_amplitude s ks (fun k l' => e_idx ev (amp_name k) (amp_index l')) (fun i k => Re (e_sym ev (zeta_symbol i k r))) l.
  Proof.
    intros Hl F. destruct (aligned_inv b s D _ _ _ _ F) as (ks & terms & S & AT & ->). exists ks. split; [exact S|]. intros ev h.
    assert (K : forall k, In k ks -> In k [1; 2; 3]) by (intros k Hk; apply (ids_range b s D); apply (ids_123 b ks); auto).
    unfold aligned_expr. cbn [ceval map]. rewrite psum_product4, <- tuples_spin4.
    unfold aligned_amplitude. apply Csum_ext. intros l' Hl'. apply tuples_In in Hl'.
    change (ceval ev (upd4 hel_prime h l') (CAddL terms) =
      Csum ks (fun k => (e_idx ev (amp_name k) (amp_index l') * RtoC (alignment s (fun i => Re (e_sym ev (zeta_symbol i k r))) l l'))%C)).
    rewrite (aligned_terms_num r l ks K Hl _ _ _ AT); rewrite hp_upd4; auto.
  Qed.
  Lemma aligned_value_eq r cl uc m : formulate b (Some r) cl uc = Ok m ->
    exists ks, sorted (get_subsystem_ids (b_decay b)) = Ok ks /\ 
    (forall l, exists e defs, formulate_aligned_amplitude b (lam_num l) (Some r) = Ok (e, defs) /\ forall x z, dget x defs = Some z -> dget x (m_variables m) = Some z) /\
    forall ev l, helicity_tuple s l ->
      aligned_value b r m ev l = aligned_amplitude s ks (amp_value ev m) (fun i k => Re (e_sym ev (zeta_symbol i k r))) l.
  Proof.
    intros H. destruct (formulate_inv b s D _ _ _ _ H)
      as (r' & ks & terms & zdefs & amps & vars & params & masses & inv & Hr & Hks & Ht & Hl & Hm & Hi & E).
    cbn [resolve_reference] in Hr. injection Hr as <-. exists ks. split; [exact Hks|].
    assert (K : forall k, In k ks -> In k [1; 2; 3]) by (intros k Hk; apply (ids_range b s D); apply (ids_123 b ks); auto).
    assert (FA : exists e, formulate_aligned_amplitude b lam_sym (Some r) = Ok (e, zdefs)).
    { unfold formulate_aligned_amplitude. cbn [resolve_reference bind]. rewrite (std_sorted_keys _ _ D). cbn [bind]. rewrite (std_spins b s D). cbn [bind].
      rewrite Hks. cbn [bind]. fold (spin4 s). unfold lam_prime in Ht. rewrite Ht. cbn [bind]. eauto. }
    destruct FA as [e0 FA]. split.
    - intros l. destruct (aligned_any _ (lam_num l) _ _ _ FA) as [e Fe]. exists e, zdefs. split; [exact Fe|]. intros x z Hx. rewrite E. cbn [m_variables].
      rewrite dget_dupdate_nodup; [rewrite Hx; reflexivity|].
      destruct (aligned_terms_facts s r ks K _ _ _ Ht) as (_ & _ & _ & _ & _ & _ & ND). apply ND. constructor.
    - intros ev l HL. unfold aligned_value. fold (lam_num l). destruct (aligned_any _ (lam_num l) _ _ _ FA) as [e Fe]. change (fun n : Z => HVal (at4 l n)) with (lam_num l).
      rewrite Fe. destruct (aligned_num r l e zdefs HL Fe) as (ks' & Hks' & V). rewrite Hks in Hks'. injection Hks' as <-. rewrite V.
      unfold aligned_amplitude. apply Csum_ext. intros l' Hl2. apply Csum_ext. intros k Hk.
      f_equal. unfold amp_env. cbn [e_idx]. unfold amp_value. rewrite E. cbn [m_amplitudes].
      destruct (dget (amp_name k, amp_index l') amps) eqn:Ed; auto.
      exfalso. apply dget_None in Ed. apply Ed.
      destruct (formulate_loop_facts b s D _ _ _ _ _ _ _ _ Hl) as (_ & I2 & _). apply I2. right.
      exists l', k. split; auto. apply work_of_In. split; [apply tuples_In; auto|].
      destruct (b_all_subsystems b); auto.
  Qed.
End Aligned.

Section Conservation.
  Variables (b : builder) (s : Z -> state) (dyn : chain -> defexpr) (r : Z) (cl uc : bool) (m : model).
  Hypothesis D : std_decay (b_decay b) s.
  Hypothesis Y : dynamics_of b dyn.
  Hypothesis P : b_prod_helicity b = false -> plain_resonances (b_decay b).
  Hypothesis F : formulate b (Some r) cl uc = Ok m.
  Variables (base : symbol -> C) (cpl : string -> list ival -> C) (p1 p2 p3 : vec4) (u : vec3) (a : Z -> R).
  Hypothesis L : on_line (fun x => Re (base x)) p1 p2 p3 u a.
  Hypothesis NS : nonsingular (fun x => Re (base x)).
  Let E (n : Z) := vE (pick n p1 p2 p3).
  Let ev := at_point (m_variables m) base cpl.

  Lemma line_amp i j k l : cyclic i j k -> In k (get_subsystem_ids (b_decay b)) -> helicity_tuple s l -> amp_value ev m k l <> RtoC 0 ->
    at4 l 0 + at4 l k = - sgn (a k) * sgn (a i * E j - a j * E i) * (at4 l i - at4 l j).
  Proof.
    intros Cy Hk Hl N.
    destruct (amplitude_formula b s D dyn _ _ _ _ Y P F l i j k Hl Cy (or_intror Hk)) as (_ & (th & T & G) & _).
    assert (V : Re (e_sym ev (theta_name i j)) = rv (fun x => Re (base x)) (formulate_scattering_angle i j)).
    { unfold ev, at_point. cbn [e_sym]. rewrite G, T. reflexivity. }
    pose proof (line_theta _ _ _ _ _ _ L NS i j k Cy) as A. cbv zeta beta in A. rewrite <- V in A. fold (E i) (E j) in A.
    assert (R0 : Re (e_sym ev (theta_name i j)) = 0%R \/ Re (e_sym ev (theta_name i j)) = PI).
    { destruct A as [[_ A]|[_ [A|A]]]; [left|right|]; try exact A. exfalso.
      assert (0 <= Re (e_sym ev (theta_name i j)))%R; [|pose proof PI_RGT_0; lra].
      rewrite V. destruct Cy as [C|[C|[C|[]]]]; injection C as <- <- <-; rewrite ?th_12, ?th_23, ?th_31; unfold th_; apply acos_bound. }
    assert (S : at4 l 0 + at4 l k = (if Req_EM_T (Re (e_sym ev (theta_name i j))) 0%R then 1 else -1) * (at4 l i - at4 l j)).
    { destruct (Req_EM_T (Re (e_sym ev (theta_name i j))) 0%R) as [Z|Z].
      - destruct (Z.eq_dec (at4 l 0 + at4 l k) (at4 l i - at4 l j)) as [Q|Q]; [lia|]. exfalso. apply N.
        apply (c104_forward b s dyn (Some r) cl uc m i j k D Y P F Cy ev l Hl Z Q).
      - destruct R0 as [R0|R0]; [contradiction|]. destruct (Z.eq_dec (at4 l 0 + at4 l k) (at4 l j - at4 l i)) as [Q|Q]; [lia|]. exfalso. apply N.
        apply (c104_backward b s dyn (Some r) cl uc m i j k D Y P F Cy ev l Hl R0 Q). }
    rewrite S. f_equal. pose proof PI_RGT_0.
    destruct A as [[A1 A2]|[A1 A2]]; rewrite A1; destruct (Req_EM_T (Re (e_sym ev (theta_name i j))) 0%R); try reflexivity; try contradiction.
    exfalso. destruct A2; lra.
  Qed.
  Lemma tuple_proj n l : helicity_tuple s l -> 0 <= n <= 3 -> is_projection (p_spin (s n)) (at4 l n) = true.
  Proof.
    destruct l as [[[l0 l1] l2] l3]. intros (H0 & H1 & H2 & H3) Hn.
    assert (C : n = 0 \/ n = 1 \/ n = 2 \/ n = 3) by lia.
    destruct C as [->|[->|[->| ->]]]; cbn [at4]; apply is_projection_In; rewrite <- helicities_range; assumption.
  Qed.
  Lemma tuple_spin0 n l : helicity_tuple s l -> 0 <= n <= 3 -> p_spin (s n) = 0 -> at4 l n = 0.
  Proof.
    intros Hl Hn S0. apply (helicity_tuple_zero s l n Hl); [simpl; lia|]. rewrite spin4_eq by (simpl; lia). exact S0.
  Qed.
  Lemma line_align k l l' : In k (get_subsystem_ids (b_decay b)) -> helicity_tuple s l -> helicity_tuple s l' ->
    alignment s (fun i => Re (e_sym ev (zeta_symbol i k r))) l l' <> 0%R ->
    at4 l 0 = sgn (a k) * sgn (a r) * at4 l' 0 /\ forall n, 1 <= n <= 3 -> at4 l' n = moves a E k n * moves a E r n * at4 l n.
  Proof.
    intros Hk Hl Hl' N. pose proof (ids_range b s D k Hk) as K. assert (K' : 1 <= k <= 3) by (simpl in K; lia).
    unfold alignment in N.
    assert (N0 : wigner_d (p_spin (s 0)) (at4 l 0) (at4 l' 0) (Re (e_sym ev (zeta_symbol 0 k r))) <> 0%R) by (intros Z; apply N; rewrite Z; ring).
    split.
    - destruct (Z.eq_dec (p_spin (s 0)) 0) as [S0|S0].
      { rewrite (tuple_spin0 0 l Hl ltac:(lia) S0), (tuple_spin0 0 l' Hl' ltac:(lia) S0). ring. }
      destruct (zeta_at_point b s D _ _ _ _ r base cpl F eq_refl 0 k ltac:(simpl; lia) Hk S0) as (ZI & V). fold ev in V. rewrite V in N0.
      apply (wigner_line _ _ _ _ _ (tuple_proj 0 l Hl ltac:(lia)) (tuple_proj 0 l' Hl' ltac:(lia))
        (line_zeta0 _ _ _ _ _ _ L NS k r K' ltac:(unfold zeta_ids in ZI; lia)) N0).
    - intros n Hn. destruct (Z.eq_dec (p_spin (s n)) 0) as [S0|S0].
      { rewrite (tuple_spin0 n l Hl ltac:(lia) S0), (tuple_spin0 n l' Hl' ltac:(lia) S0). ring. }
      destruct (zeta_at_point b s D _ _ _ _ r base cpl F eq_refl n k ltac:(simpl; lia) Hk S0) as (ZI & V). fold ev in V.
      assert (Nn : wigner_d (p_spin (s n)) (at4 l' n) (at4 l n) (Re (e_sym ev (zeta_symbol n k r))) <> 0%R).
      { intros Z. apply N. destruct (in123 n Hn) as [En|[En|En]]; rewrite En in Z; rewrite Z; ring. }
      rewrite V in Nn.
      apply (wigner_line _ _ _ _ _ (tuple_proj n l' Hl' ltac:(lia)) (tuple_proj n l Hl ltac:(lia))
        (line_zeta _ _ _ _ _ _ L NS n k r Hn K' ltac:(unfold zeta_ids in ZI; lia)) Nn).
  Qed.
  Lemma line_conserved l : helicity_tuple s l -> parent_projection a r l <> final_projection a E r l -> aligned_value b r m ev l = RtoC 0.
  Proof.
    intros Hl N. destruct (aligned_value_eq b s D r cl uc m F) as (ks & Hks & _ & V). rewrite V by assumption. clear V.
    unfold aligned_amplitude. apply Csum_zero. intros l' Hl'. apply tuples_In in Hl'. apply Csum_zero. intros k Hk.
    apply (proj1 (ids_123 b ks k Hks)) in Hk.
    destruct (Ceq_dec (amp_value ev m k l') (RtoC 0)) as [->|NA]; [ring|].
    destruct (Req_EM_T (alignment s (fun i => Re (e_sym ev (zeta_symbol i k r))) l l') 0%R) as [->|NZ]; [ring|]. exfalso. apply N. clear N.
    destruct (line_align k l l' Hk Hl Hl' NZ) as [Q0 Q].
    assert (Cy : exists i j, cyclic i j k).
    { pose proof (ids_range b s D k Hk) as K. simpl in K. destruct K as [<-|[<-|[<-|[]]]]; [exists 2, 3|exists 3, 1|exists 1, 2]; unfold cyclic; simpl; auto. }
    destruct Cy as (i & j & Cy). pose proof (line_amp i j k l' Cy Hk Hl' NA) as C.
    assert (In3 : 1 <= i <= 3 /\ 1 <= j <= 3 /\ 1 <= k <= 3) by (destruct Cy as [X|[X|[X|[]]]]; injection X as <- <- <-; lia).
    destruct In3 as (Hi & Hj & Hk3). pose proof (Q i Hi) as Qi. pose proof (Q j Hj) as Qj. pose proof (Q k Hk3) as Qk. clear Q.
    pose proof (line_rel _ _ _ _ _ _ L NS i j k Cy) as W. cbv zeta beta in W. fold (E i) (E j) in W.
    assert (Mk : moves a E k k = sgn (a k)) by (unfold moves; rewrite Z.eqb_refl; reflexivity).
    assert (Mi : moves a E k i = sgn (a i * E j - a j * E i)).
    { unfold moves. destruct Cy as [X|[X|[X|[]]]]; injection X as <- <- <-; reflexivity. }
    assert (Mj : moves a E k j = - sgn (a i * E j - a j * E i)).
    { rewrite <- sgn_opp by exact W. unfold moves. destruct Cy as [X|[X|[X|[]]]]; injection X as <- <- <-; cbn [Z.eqb Pos.eqb orb]; f_equal; unfold third; simpl; ring. }
    rewrite Mk in Qk. rewrite Mi in Qi. rewrite Mj in Qj.
    pose proof (balance _ _ _ _ _ _ _ _ _ _ _ _ _ _ (sgn_cases (a k)) (sgn_cases (a r)) (sgn_cases _) Q0 Qk Qi Qj C) as B.
    unfold parent_projection, final_projection.
    assert (PP : (if r =? 0 then 0 else - sgn (a r) * at4 l 0) = - sgn (a r) * at4 l 0).
    { destruct (Z.eqb_spec r 0) as [R0|_]; [|reflexivity].
      destruct (Z.eq_dec (p_spin (s 0)) 0) as [S0|S0]; [rewrite (tuple_spin0 0 l Hl ltac:(lia) S0); ring|]. exfalso.
      destruct (zeta_at_point b s D _ _ _ _ r base cpl F eq_refl 0 k ltac:(simpl; lia) Hk S0) as (ZI & _). unfold zeta_ids in ZI. lia. }
    rewrite PP, B. destruct Cy as [X|[X|[X|[]]]]; injection X as <- <- <-; ring.
  Qed.
End Conservation.
Lemma c136_sum b s r cl uc m : std_decay (b_decay b) s -> formulate b (Some r) cl uc = Ok m -> forall ev,
  full_value ev m = RtoC (Rsum (tuples s) (fun l => (Cmod (aligned_value b r m ev l) ^ 2)%R)).
Proof.
  intros D F ev. destruct (aligned_value_eq b s D r cl uc m F) as (ks & Hks & _ & V).
  destruct (intensity_formula b s D _ _ _ _ F) as (r' & ks' & Hr & Hks' & I). injection Hr as <-. rewrite Hks in Hks'. injection Hks' as <-.
  rewrite I. f_equal. unfold intensity_value. apply Rsum_ext. intros l Hl. apply tuples_In in Hl. rewrite V by assumption. reflexivity.
Qed.
Lemma c136_defined b s r cl uc m : std_decay (b_decay b) s -> formulate b (Some r) cl uc = Ok m -> forall l, exists e defs,
  formulate_aligned_amplitude b (fun n => HVal (at4 l n)) (Some r) = Ok (e, defs) /\ forall x z, dget x defs = Some z -> dget x (m_variables m) = Some z.
Proof. intros D F l. destruct (aligned_value_eq b s D r cl uc m F) as (ks & _ & A & _). exact (A l). Qed.
Lemma c136_intensity b s dyn r cl uc m base cpl p1 p2 p3 u a : std_decay (b_decay b) s -> dynamics_of b dyn -> (b_prod_helicity b = false -> plain_resonances (b_decay b)) ->
  formulate b (Some r) cl uc = Ok m -> on_line (fun x => Re (base x)) p1 p2 p3 u a -> nonsingular (fun x => Re (base x)) ->
  full_value (at_point (m_variables m) base cpl) m
  = RtoC (Rsum (filter (fun l => parent_projection a r l =? final_projection a (fun n => vE (pick n p1 p2 p3)) r l) (tuples s))
      (fun l => (Cmod (aligned_value b r m (at_point (m_variables m) base cpl) l) ^ 2)%R)).
Proof.
  intros D Y P F L NS. rewrite (c136_sum b s r cl uc m D F). f_equal.
  assert (Q : forall ls, (forall l, In l ls -> helicity_tuple s l) -> Rsum ls (fun l => (Cmod (aligned_value b r m (at_point (m_variables m) base cpl) l) ^ 2)%R)
    = Rsum (filter (fun l => parent_projection a r l =? final_projection a (fun n => vE (pick n p1 p2 p3)) r l) ls)
      (fun l => (Cmod (aligned_value b r m (at_point (m_variables m) base cpl) l) ^ 2)%R)).
  { induction ls as [|l ls IH]; intros H; [reflexivity|]. cbn [filter Rsum]. rewrite IH by (intros; apply H; simpl; auto).
    destruct (Z.eqb_spec (parent_projection a r l) (final_projection a (fun n => vE (pick n p1 p2 p3)) r l)) as [Ee|Ne]; [reflexivity|].
    rewrite (line_conserved b s dyn r cl uc m D Y P F base cpl p1 p2 p3 u a L NS l (H l (or_introl eq_refl)) Ne), Cmod_0. ring. }
  apply Q. intros l Hl. apply tuples_In. exact Hl.
Qed.
