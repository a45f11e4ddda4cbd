(** Models whose decays differ by their particles only, with couplings and lineshapes that agree up to a common phase and
    complex conjugation. *)
From Coq Require Import String ZArith QArith Qcanon Qreals List Bool Reals Lia Lra Permutation Sorted.
From Coquelicot Require Import Complex.
From Verif Require Import Prelude Spin Decay Expr Angles Sums Wigner CG CExpr SpecKin SpecDPD Builder
  SpinFacts DecayFacts KinFacts AnglesFacts WignerFacts CExprFacts BuilderFacts ModelFacts RefFacts BuilderProofs
  ChainProofs ParityProofs SpecRelabel RelabelFacts RelabelProofs OrderFacts SpecBuilder Dynamics SpecDynamics LineshapeProofs DynamicsProofs SpecRename.
Import ListNotations.
Local Open Scope string_scope.
Local Open Scope Z_scope.
Local Open Scope list_scope.

(** ** Chains *)
Lemma replace_to_particle g t : to_particle (replace g t) = replace_pobj g (to_particle t).
Proof. destruct t; reflexivity. Qed.
Lemma replace_chain g c : valid_chain c ->
  ch_parent (replace g c) = replace_state g (ch_parent c) /\ ch_resonance (replace g c) = g (ch_resonance c) /\
  ch_spectator (replace g c) = replace_state g (ch_spectator c) /\
  ch_decay_products (replace g c) = (replace_state g (fst (ch_decay_products c)), replace_state g (snd (ch_decay_products c))) /\
  ch_incoming_ls (replace g c) = ch_incoming_ls c /\ ch_outgoing_ls (replace g c) = ch_outgoing_ls c /\
  resonance_first (replace g c) = resonance_first c.
Proof.
  intros V. destruct (valid_chain_nodes c V) as
    (s0 & R & d1 & d2 & ii & jj & sp & s1 & s2 & Sh & T1 & T2 & PA & N & RR & SP & DP & IL & OL & NE).
  rewrite PA, RR, SP, DP, IL, OL. cbn [fst snd].
  pose proof (replace_to_particle g d1) as U1. pose proof (replace_to_particle g d2) as U2. rewrite T1 in U1. rewrite T2 in U2.
  assert (RP : pobj_particle (replace_pobj g R) = g (pobj_particle R)) by (destruct R; reflexivity).
  assert (Q : forall (t : tree), decay_products_r t = Ok (replace_pobj g (PSt s1), replace_pobj g (PSt s2)) ->
    ch_decay_products t = (replace_state g s1, replace_state g s2)).
  { intros t E. unfold ch_decay_products. rewrite E. reflexivity. }
  destruct Sh as [-> | ->]; cbn [replace replace_pobj]; (split; [reflexivity|]); (split; [exact RP|]); (split; [reflexivity|]);
    (split; [apply Q; unfold decay_products_r; cbn; rewrite U1, U2; reflexivity|]); repeat split; reflexivity.
Qed.
Lemma replace_id t : replace (fun p => p) t = t.
Proof.
  assert (O : forall o, replace_pobj (fun p => p) o = o) by (intros [q|[q i]]; reflexivity).
  induction t as [o|o a IHa b IHb ls]; cbn [replace]; rewrite O; [reflexivity|]. rewrite IHa, IHb. reflexivity.
Qed.

(** ** A phase and complex conjugation *)
Notation turned := common_phase.
Lemma turned_0 u cj : turned u cj (RtoC 0) = RtoC 0.
Proof. unfold common_phase. destruct cj; [|ring]. apply injective_projections; cbn; ring. Qed.
Lemma turned_plus u cj x y : turned u cj (x + y)%C = (turned u cj x + turned u cj y)%C.
Proof. unfold common_phase. destruct cj; [|ring]. apply injective_projections; cbn; ring. Qed.
Lemma turned_scal u cj (r : R) x : turned u cj (RtoC r * x)%C = (RtoC r * turned u cj x)%C.
Proof. unfold common_phase. destruct cj; [|ring]. apply injective_projections; cbn; ring. Qed.
Lemma turned_sum {A} u cj (l : list A) f : turned u cj (Csum l f) = Csum l (fun x => turned u cj (f x)).
Proof. induction l as [|x l IH]; cbn [Csum]; [apply turned_0|]. rewrite turned_plus, IH. reflexivity. Qed.
Lemma Cmod_conj' x : Cmod (Cconj x) = Cmod x.
Proof. unfold Cmod, Cconj. cbn [fst snd]. f_equal. ring. Qed.
Lemma turned_mod u cj x : Cmod u = 1%R -> Cmod (turned u cj x) = Cmod x.
Proof. intros U. unfold common_phase. rewrite Cmod_mult, U, Rmult_1_l. destruct cj; [apply Cmod_conj'|reflexivity]. Qed.

(** ** Models *)
Section Models.
  Variables (b b' : builder) (g : particle -> particle) (s s' : Z -> state) (dyn dyn' : chain -> defexpr) (uc : bool).
  Variables (ref ref' : option Z) (cl cl' : bool) (m m' : model) (r : Z) (base base' : symbol -> C) (cpl cpl' : string -> list ival -> C).
  Variables (u : C) (cj : bool).
  Hypothesis D : std_decay (b_decay b) s.
  Hypothesis D' : std_decay (b_decay b') s'.
  Hypothesis Y : dynamics_of b dyn.
  Hypothesis Y' : dynamics_of b' dyn'.
  Hypothesis PR : b_prod_helicity b = false -> plain_resonances (b_decay b).
  Hypothesis HP : b_prod_helicity b' = b_prod_helicity b.
  Hypothesis HD : b_dec_helicity b' = b_dec_helicity b.
  Hypothesis F : formulate b ref cl uc = Ok m.
  Hypothesis F' : formulate b' ref' cl' uc = Ok m'.
  Hypothesis R1 : resolve_reference (b_decay b) ref = Ok r.
  Hypothesis R2 : resolve_reference (b_decay b') ref' = Ok r.
  Hypothesis G : keeps_spins g.
  Hypothesis RD : replaced_decay g (b_decay b) s (b_decay b') s'.
  Hypothesis SP : same_point base base'.
  Hypothesis U : Cmod u = 1%R.
  (** the product of the couplings and the lineshape of each chain *)
  Hypothesis CV : same_strengths uc b s g dyn dyn' base base' cpl cpl' u cj.

  Let spin_eq i : In i [0; 1; 2; 3] -> p_spin (s' i) = p_spin (s i).
  Proof. intros Hi. change (p_spin (st_particle (s' i)) = p_spin (st_particle (s i))). rewrite (proj1 RD i Hi). apply G. Qed.

  Lemma replaced_plain : b_prod_helicity b' = false -> plain_resonances (b_decay b').
  Proof.
    intros H c Hc. rewrite HP in H. apply (Permutation_in _ (proj2 RD)) in Hc. apply in_map_iff in Hc. destruct Hc as (c0 & <- & Hc0).
    destruct (PR H c0 Hc0) as [q Hq]. exists (g q).
    destruct (valid_chain_nodes c0 (std_valid _ _ D c0 Hc0)) as
      (s0 & R & d1 & d2 & ii & jj & sp & s1 & s2 & Sh & T1 & T2 & PA & N & RR & SP' & DP & IL & OL & NE).
    rewrite N in Hq. cbn [to_particle] in Hq. subst R. destruct Sh as [-> | ->]; reflexivity.
  Qed.
  Lemma replaced_ids k : In k (get_subsystem_ids (b_decay b')) <-> In k (get_subsystem_ids (b_decay b)).
  Proof.
    rewrite !get_subsystem_ids_In. split.
    - intros (c' & Hc & E). apply (Permutation_in _ (proj2 RD)) in Hc. apply in_map_iff in Hc. destruct Hc as (c & <- & Hc).
      exists c. split; [exact Hc|]. destruct (replace_chain g c (std_valid _ _ D c Hc)) as (_ & _ & S & _). rewrite S in E. exact E.
    - intros (c & Hc & E). exists (replace g c). split.
      + apply (Permutation_in _ (Permutation_sym (proj2 RD))). apply in_map. exact Hc.
      + destruct (replace_chain g c (std_valid _ _ D c Hc)) as (_ & _ & S & _). rewrite S. exact E.
  Qed.
  Lemma helicities_same l : helicity_tuple s' l <-> helicity_tuple s l.
  Proof.
    destruct l as [[[a c] d] e]. cbn [helicity_tuple]. rewrite (spin_eq 0), (spin_eq 1), (spin_eq 2), (spin_eq 3) by (cbn; auto). reflexivity.
  Qed.

  Lemma same_kin : let env := fun x => Re (base x) in let env' := fun x => Re (base' x) in
    env' (Sym "m0" ANonneg) = env (Sym "m0" ANonneg) /\
    forall i, In i [1; 2; 3] ->
      env' (Sym ("m" ++ str_of_Z i)%string ANonneg) = env (Sym ("m" ++ str_of_Z i)%string ANonneg) /\
      env' (Sym ("sigma" ++ str_of_Z i)%string ANonneg) = env (Sym ("sigma" ++ str_of_Z i)%string ANonneg).
  Proof.
    cbv zeta. split; [rewrite (SP "m0") by (cbn; auto); reflexivity|].
    intros i Hi. apply In_123 in Hi. destruct Hi as [->|[->| ->]]; split; rewrite SP; try reflexivity; cbn; auto 10.
  Qed.
  Let same_order : keeps_order (fun i => i).
  Proof. left. reflexivity. Qed.
  Let same_labels : relabelling (fun i => i).
  Proof. split; [reflexivity|apply Permutation_refl]. Qed.

  Let ev := at_point (m_variables m) base cpl.
  Let ev' := at_point (m_variables m') base' cpl'.

  Lemma dynamics_at c : In c (d_chains (b_decay b)) ->
    ceval ev (fun _ => 0) (de_expr (dyn c)) = ceval (Env base cpl) (fun _ => 0) (de_expr (dyn c)).
  Proof.
    intros Hc. destruct (Y c Hc) as [_ L].
    apply lineshape_eval; [exact L|]. intros x Hx _. unfold ev, at_point. cbn [e_sym].
    replace (dget x (m_variables m)) with (@None rexpr); [reflexivity|]. symmetry. apply dget_None. intros I. apply Hx.
    apply (variables_real b s D _ _ _ _ F x I).
  Qed.
  Lemma dynamics_at' c : In c (d_chains (b_decay b')) ->
    ceval ev' (fun _ => 0) (de_expr (dyn' c)) = ceval (Env base' cpl') (fun _ => 0) (de_expr (dyn' c)).
  Proof.
    intros Hc. destruct (Y' c Hc) as [_ L].
    apply lineshape_eval; [exact L|]. intros x Hx _. unfold ev', at_point. cbn [e_sym].
    replace (dget x (m_variables m')) with (@None rexpr); [reflexivity|]. symmetry. apply dget_None. intros I. apply Hx.
    apply (variables_real b' s' D' _ _ _ _ F' x I).
  Qed.

  Lemma theta_same i j k l : cyclic i j k -> helicity_tuple s l -> In k (get_subsystem_ids (b_decay b)) ->
    Re (e_sym ev' (theta_name i j)) = Re (e_sym ev (theta_name i j)).
  Proof.
    intros C Hl Hk.
    assert (T' : helicity_tuple s' l) by (apply helicities_same; exact Hl).
    destruct (amplitude_formula b s D dyn _ _ _ _ Y PR F l i j k Hl C (or_intror Hk)) as (_ & (t1 & T1 & G1) & _).
    destruct (amplitude_formula b' s' D' dyn' _ _ _ _ Y' replaced_plain F' l i j k T' C (or_intror (proj2 (replaced_ids k) Hk)))
      as (_ & (t2 & T2 & G2) & _).
    destruct same_kin as [K0 KM]. unfold ev, ev', at_point. cbn [e_sym]. rewrite G1, G2. cbn [Re fst RtoC].
    pose proof (theta_kept (fun i => i) (fun x => Re (base x)) (fun x => Re (base' x)) same_labels K0 KM i j k same_order C) as Q.
    rewrite T1, T2 in Q. exact Q.
  Qed.

  Lemma factors_same c h l k : In c (d_chains (b_decay b)) ->
    prod_factor (b_prod_helicity b) (replace g c) h (at4 l k) = prod_factor (b_prod_helicity b) c h (at4 l k) /\
    dec_factor (b_dec_helicity b) (replace g c) (at4 l) = dec_factor (b_dec_helicity b) c (at4 l).
  Proof.
    intros Hc. destruct (replace_chain g c (std_valid _ _ D c Hc)) as (E1 & E2 & E3 & E4 & E5 & E6 & E7).
    unfold prod_factor, dec_factor. rewrite E1, E2, E3, E4, E5, E6, E7. cbn [replace_state st_particle st_index].
    rewrite !G. split; [reflexivity|].
    destruct (b_dec_helicity b); [reflexivity|]. destruct (ch_outgoing_ls c); [|reflexivity].
    destruct (ch_decay_products c) as [s1 s2]. cbn [fst snd replace_state st_particle st_index]. rewrite ?G. reflexivity.
  Qed.

  Lemma amplitude_turned k l : In k [1; 2; 3] -> helicity_tuple s l ->
    amp_value ev' m' k l = turned u cj (amp_value ev m k l).
  Proof.
    intros Hk Hl. destruct (cyclic_ex k Hk) as (i & j & C). destruct (cyclic_in _ _ _ C) as (Ii & Ij & _).
    assert (T' : helicity_tuple s' l) by (apply helicities_same; exact Hl).
    rewrite (amplitude_total b s dyn ref cl uc m D Y PR F l i j k ev Hl C).
    rewrite (amplitude_total b' s' dyn' ref' cl' uc m' D' Y' replaced_plain F' l i j k ev' T' C).
    destruct (in_dec Z.eq_dec k (get_subsystem_ids (b_decay b))) as [IK|NK].
    2:{ unfold dpd_amplitude. rewrite (no_subsystem _ _ NK). rewrite no_subsystem by (rewrite replaced_ids; exact NK).
        cbn [Csum]. symmetry. apply turned_0. }
    rewrite (theta_same i j k l C Hl IK). unfold dpd_amplitude. rewrite HP, HD.
    rewrite turned_sum, !Csum_filter, (Csum_perm _ _ _ (proj2 RD)), Csum_map. apply Csum_ext. intros c Hc.
    destruct (replace_chain g c (std_valid _ _ D c Hc)) as (E1 & E2 & E3 & E4 & E5 & E6 & E7).
    rewrite E2, E3, G. cbn [replace_state st_index].
    destruct (st_index (ch_spectator c) =? k) eqn:Ek; [|reflexivity].
    assert (Esp : ch_spectator c = s k).
    { destruct (subsystem_chains _ _ D k c) as (_ & Q & _); [|exact Q]. apply filter_In. split; [exact Hc|exact Ek]. }
    rewrite turned_sum. apply Csum_ext. intros h Hh.
    destruct (at4 l 0 =? h - at4 l k); [|symmetry; apply turned_0].
    rewrite (spin_eq k), (spin_eq j) by (right; assumption).
    destruct (factors_same c h l k Hc) as [-> ->].
    assert (Hc' : In (replace g c) (d_chains (b_decay b'))).
    { apply (Permutation_in _ (Permutation_sym (proj2 RD))). apply in_map. exact Hc. }
    rewrite (dynamics_at' _ Hc'), (dynamics_at c Hc).
    pose proof (CV c h l i j k Hc Esp C Hl Hh) as CV'. unfold strength in CV'.
    assert (CE : forall c0 h0 a1 a2 a3, (if uc then coefficient else coupling_product) ev' (b_prod_helicity b) (b_dec_helicity b) c0 h0 a1 a2 a3
        = (if uc then coefficient else coupling_product) (Env base' cpl') (b_prod_helicity b) (b_dec_helicity b) c0 h0 a1 a2 a3) by (intros; destruct uc; reflexivity).
    assert (CE0 : forall c0 h0 a1 a2 a3, (if uc then coefficient else coupling_product) ev (b_prod_helicity b) (b_dec_helicity b) c0 h0 a1 a2 a3
        = (if uc then coefficient else coupling_product) (Env base cpl) (b_prod_helicity b) (b_dec_helicity b) c0 h0 a1 a2 a3) by (intros; destruct uc; reflexivity).
    rewrite CE, CE0. clear CE CE0.
    match goal with |- (RtoC ?p * ?x * RtoC ?w * ?t * RtoC ?f)%C = turned _ _ (_ * ?x0 * _ * ?t0 * _)%C =>
      transitivity (RtoC (p * w * f) * (t * x))%C; [rewrite !RtoC_mult; ring|];
      rewrite CV', <- turned_scal; f_equal; rewrite !RtoC_mult; ring end.
  Qed.

  Lemma align_same k l1 l2 : In k (get_subsystem_ids (b_decay b)) ->
    alignment s' (fun i => Re (e_sym ev' (zeta_symbol i k r))) l1 l2 = alignment s (fun i => Re (e_sym ev (zeta_symbol i k r))) l1 l2.
  Proof.
    intros Hk. destruct same_kin as [K0 KM].
    assert (W : forall i x y, In i [0; 1; 2; 3] ->
      wigner_d (p_spin (s' i)) x y (Re (e_sym ev' (zeta_symbol i k r))) = wigner_d (p_spin (s i)) x y (Re (e_sym ev (zeta_symbol i k r)))).
    { intros i x y Hi. rewrite spin_eq by exact Hi.
      destruct (Z.eq_dec (p_spin (s i)) 0) as [Z0|NZ]; [apply spin0_any; exact Z0|].
      destruct (zeta_at_point b s D ref cl uc m r base cpl F R1 i k Hi Hk NZ) as [ZI Z1].
      assert (NZ' : p_spin (s' i) <> 0) by (rewrite spin_eq by exact Hi; exact NZ).
      destruct (zeta_at_point b' s' D' ref' cl' uc m' r base' cpl' F' R2 i k Hi (proj2 (replaced_ids k) Hk) NZ') as [_ Z2].
      change (at_point (m_variables m) base cpl) with ev in Z1. change (at_point (m_variables m') base' cpl') with ev' in Z2.
      rewrite Z1, Z2. unfold kin.
      rewrite (zeta_kept (fun i => i) (fun x => Re (base x)) (fun x => Re (base' x)) same_labels K0 KM i k r same_order ZI). reflexivity. }
    unfold alignment. rewrite !W by (cbn [In]; auto). reflexivity.
  Qed.

  Lemma turned_models :
    (forall k l, In k [1; 2; 3] -> helicity_tuple s l -> amp_value ev' m' k l = turned u cj (amp_value ev m k l)) /\
    full_value ev' m' = full_value ev m.
  Proof.
    split; [exact amplitude_turned|].
    destruct (intensity_formula b s D ref cl uc m F) as (r1 & ks1 & E1 & S1 & V1).
    destruct (intensity_formula b' s' D' ref' cl' uc m' F') as (r2 & ks2 & E2 & S2 & V2).
    rewrite V1, V2. assert (Q1 : r1 = r) by congruence. assert (Q2 : r2 = r) by congruence. rewrite Q1, Q2. clear Q1 Q2 E1 E2. f_equal.
    assert (I1 : forall k, In k ks1 <-> In k (get_subsystem_ids (b_decay b))) by (intros; apply ids_123; exact S1).
    assert (I2 : forall k, In k ks2 <-> In k (get_subsystem_ids (b_decay b'))) by (intros; apply ids_123; exact S2).
    assert (N : forall d ks, sorted (get_subsystem_ids d) = Ok ks -> NoDup ks).
    { intros d ks X. destruct (sorted_Z (get_subsystem_ids d)) as (ks' & X' & Pm). assert (Q : ks' = ks) by congruence. rewrite <- Q.
      eapply Permutation_NoDup; [exact Pm|]. apply to_set_NoDup. }
    assert (Pk : Permutation ks2 ks1).
    { apply NoDup_Permutation; [apply (N _ _ S2)|apply (N _ _ S1)|]. intros k. rewrite I1, I2. apply replaced_ids. }
    assert (TT : tuples s' = tuples s).
    { unfold tuples. rewrite (spin_eq 0), (spin_eq 1), (spin_eq 2), (spin_eq 3) by (cbn; auto). reflexivity. }
    unfold intensity_value. rewrite TT. apply Rsum_ext. intros l Hl. f_equal.
    transitivity (Cmod (turned u cj (aligned_amplitude s ks1 (amp_value ev m) (fun i k => Re (e_sym ev (zeta_symbol i k r))) l)));
      [|apply turned_mod; exact U].
    f_equal. unfold aligned_amplitude. rewrite TT, turned_sum. apply Csum_ext. intros l' Hl'. apply tuples_In in Hl'.
    rewrite (Csum_perm _ _ _ Pk), turned_sum. apply Csum_ext. intros k Hk. apply I1 in Hk.
    rewrite (amplitude_turned k l') by (try exact Hl'; apply (ids_range b s D); exact Hk).
    rewrite (align_same k l l' Hk).
    match goal with |- (turned _ _ ?a * RtoC ?w)%C = _ => transitivity (RtoC w * turned u cj a)%C; [ring|rewrite <- turned_scal; f_equal; ring] end.
  Qed.
End Models.

Lemma reference_replaced d d' s s' g ref : std_decay d s -> std_decay d' s' -> Permutation (d_chains d') (map (replace g) (d_chains d)) ->
  resolve_reference d' ref = resolve_reference d ref.
Proof.
  intros D D' P. destruct (c30 d s D) as (E & N & S & _). destruct (c30 d' s' D') as (E' & N' & S' & _).
  destruct ref as [r|]; [rewrite S, S'; reflexivity|].
  assert (Q : forall k, chain_count d' k = chain_count d k).
  { intros k. unfold chain_count. rewrite (perm_filter_length _ _ _ P), filter_map_comm, map_length.
    f_equal. apply filter_ext_in. intros c Hc. destruct (replace_chain g c (std_valid _ _ D c Hc)) as (_ & _ & -> & _). reflexivity. }
  destruct (d_chains d) as [|c cs] eqn:Ec.
  - apply Permutation_sym, Permutation_nil in P. rewrite E, E'; auto.
  - destruct N as (r & Er & _ & Mx); [discriminate|].
    destruct N' as (r' & Er' & _ & Mx'). { intros X. rewrite X in P. apply Permutation_nil in P. discriminate P. }
    rewrite Er, Er'. f_equal. destruct (Mx r') as [A1 A2]. destruct (Mx' r) as [B1 B2]. rewrite !Q in B1, B2.
    assert (chain_count d r' = chain_count d r) by lia. specialize (A2 H). specialize (B2 (eq_sym H)). lia.
Qed.

(** Parameters of the same model *)
Lemma c114 b s dyn ref cl uc m base base' cpl cpl' u cj :
  std_decay (b_decay b) s -> dynamics_of b dyn -> (b_prod_helicity b = false -> plain_resonances (b_decay b)) ->
  formulate b ref cl uc = Ok m -> same_point base base' -> Cmod u = 1%R ->
  same_strengths uc b s (fun p => p) dyn dyn base base' cpl cpl' u cj ->
  (forall k l, In k [1; 2; 3] -> helicity_tuple s l ->
    amp_value (at_point (m_variables m) base' cpl') m k l = common_phase u cj (amp_value (at_point (m_variables m) base cpl) m k l)) /\
  full_value (at_point (m_variables m) base' cpl') m = full_value (at_point (m_variables m) base cpl) m.
Proof.
  intros D Y P F SP U CV. destruct (formulate_inv b s D ref cl uc m F) as (r & _ & _ & _ & _ & _ & _ & _ & _ & Er & _).
  apply (turned_models b b (fun p => p) s s dyn dyn uc ref ref cl cl m m r base base' cpl cpl' u cj); try assumption; try reflexivity.
  - intros p. reflexivity.
  - split; [reflexivity|]. rewrite (map_ext _ _ replace_id), map_id. apply Permutation_refl.
Qed.

Lemma c114_conjugation b s ref cl uc m base cpl :
  std_decay (b_decay b) s -> dynamics_of b (fun _ => DefExpr (CNum 1) []) -> (b_prod_helicity b = false -> plain_resonances (b_decay b)) ->
  formulate b ref cl uc = Ok m ->
  full_value (at_point (m_variables m) base (fun n ix => Cconj (cpl n ix))) m = full_value (at_point (m_variables m) base cpl) m.
Proof.
  intros D Y P F. apply (c114 b s _ ref cl uc m base base cpl _ (RtoC 1) true D Y P F).
  - intros n _. reflexivity.
  - apply Cmod_1.
  - intros c r l i j k _ _ _ _ _. rewrite replace_id. unfold strength, common_phase. cbn [de_expr ceval].
    destruct uc; unfold coefficient, coupling_product; cbn [e_idx]; apply injective_projections; cbn; ring.
Qed.

Lemma bw_opposite s m G : Im s = 0%R -> Im m = 0%R -> Im G = 0%R -> bw_simple s m (- G)%C = Cconj (bw_simple s m G).
Proof.
  destruct s as [s z1], m as [m z2], G as [G z3]. cbn [Im snd]. intros -> -> ->. unfold bw_simple, Cdiv.
  assert (I : forall x, (/ Cconj x)%C = Cconj (/ x)%C).
  { intros [x y]. unfold Cinv, Cconj. cbn [fst snd].
    apply injective_projections; cbn [fst snd]; replace (x ^ 2 + (- y) ^ 2)%R with (x ^ 2 + y ^ 2)%R by ring; unfold Rdiv; ring. }
  transitivity (Cconj (/ ((m, 0%R) * (m, 0%R) - (s, 0%R) - Ci * (m, 0%R) * (G, 0%R)))%C).
  - rewrite <- I, Cmult_1_l. f_equal. apply injective_projections; cbn; ring.
  - rewrite Cmult_1_l. reflexivity.
Qed.
Lemma c114_widths b s dyn ref cl uc m base base' cpl :
  std_decay (b_decay b) s -> two_body_resonances (b_decay b) -> dynamics_of b dyn -> constant_widths (b_decay b) dyn ->
  formulate b ref cl uc = Ok m -> opposite_widths (b_decay b) base base' ->
  full_value (at_point (m_variables m) base' (fun n ix => Cconj (cpl n ix))) m = full_value (at_point (m_variables m) base cpl) m.
Proof.
  intros D Tb Y W F (SP & SI & O).
  assert (P : plain_resonances (b_decay b)).
  { intros c Hc. destruct (Tb c Hc) as (r & x & y & j & ->). cbn. eauto. }
  apply (c114 b s dyn ref cl uc m base base' cpl _ (RtoC 1) true D Y (fun _ => P) F SP).
  - apply Cmod_1.
  - intros c h l i j k Hc _ _ _ _. rewrite replace_id. unfold strength, common_phase.
    assert (X : ceval (Env base' (fun n ix => Cconj (cpl n ix))) (fun _ => 0) (de_expr (dyn c)) = Cconj (ceval (Env base cpl) (fun _ => 0) (de_expr (dyn c)))).
    { destruct (W c Hc) as [->|(rho & f & Hf & E)].
      - cbn [de_expr ceval]. apply injective_projections; cbn; ring.
      - destruct (std_isobar _ s c D P Hc) as (r & x & y & sp & Iso & _ & Rr & St).
        { destruct (Tb c Hc) as (r & x & y & q & ->). eauto. }
        rewrite !(c36_value (BWBuilder false false false rho) c _ _ _ _ _ _ _ _ f _ _ Hf Iso E). unfold chain_lineshape.
        cbn [bw_energy_dependent_width bw_decay_form_factor bw_production_form_factor e_sym].
        destruct (O c Hc) as (O1 & O2 & O3 & O4). rewrite Rr in O1, O2, O3, O4. rewrite O3, O4.
        destruct (St sp) as [Is _]; [cbn; auto|].
        assert (Q : base' (sigma_of sp) = base (sigma_of sp) /\ Im (base (sigma_of sp)) = 0%R).
        { unfold sigma_of. apply In_123 in Is. destruct Is as [->|[->| ->]]; (split; [apply SP|apply SI]); cbn; auto 10. }
        destruct Q as [-> Q]. rewrite !Cmult_1_r. apply bw_opposite; assumption. }
    rewrite X. set (y := ceval (Env base cpl) _ _).
    destruct uc; unfold coefficient, coupling_product; cbn [e_idx]; apply injective_projections; cbn; ring.
Qed.

(** Other particles *)
Lemma replaced_ls g c ph dh : valid_chain c -> has_ls ph dh c -> has_ls ph dh (replace g c).
Proof.
  intros V [A B]. destruct (replace_chain g c V) as (_ & _ & _ & _ & E5 & E6 & _). split; rewrite ?E5, ?E6; assumption.
Qed.
Lemma c115 b b' g s s' dyn dyn' ref cl cl' uc m base base' cpl cpl' :
  std_decay (b_decay b) s -> std_decay (b_decay b') s' -> dynamics_of b dyn -> dynamics_of b' dyn' ->
  (b_prod_helicity b = false -> plain_resonances (b_decay b)) ->
  b_prod_helicity b' = b_prod_helicity b -> b_dec_helicity b' = b_dec_helicity b ->
  keeps_spins g -> replaced_decay g (b_decay b) s (b_decay b') s' ->
  ref = None \/ (exists r, ref = Some r /\ In r [1; 2; 3]) ->
  formulate b ref cl uc = Ok m -> same_point base base' ->
  same_strengths uc b s g dyn dyn' base base' cpl cpl' (RtoC 1) false ->
  exists m', formulate b' ref cl' uc = Ok m' /\
    (forall k l, In k [1; 2; 3] -> helicity_tuple s l ->
      amp_value (at_point (m_variables m') base' cpl') m' k l = amp_value (at_point (m_variables m) base cpl) m k l) /\
    full_value (at_point (m_variables m') base' cpl') m' = full_value (at_point (m_variables m) base cpl) m.
Proof.
  intros D D' Y Y' P Ep Ed G RD Hr F SP CV.
  destruct (formulate_inv b s D ref cl uc m F) as (r & _ & _ & _ & _ & _ & _ & _ & _ & Er & _).
  assert (Rf := reference_replaced _ _ s s' g ref D D' (proj2 RD)).
  assert (F' : exists m', formulate b' ref cl' uc = Ok m').
  { apply (c63 b' s' dyn' D' Y').
    - intros c Hc. rewrite Ep, Ed. apply (Permutation_in _ (proj2 RD)) in Hc. apply in_map_iff in Hc. destruct Hc as (c0 & <- & Hc0).
      apply replaced_ls; [apply (std_valid _ _ D c0 Hc0)|]. exact (c63_ls b s dyn ref cl uc m D Y F c0 Hc0).
    - destruct Hr as [->|Hr]; [left; split; [reflexivity|]|right; exact Hr].
      intros N. destruct (c30 (b_decay b') s' D') as (E & _). rewrite (E N), Er in Rf. discriminate Rf. }
  destruct F' as (m' & F'). exists m'. split; [exact F'|]. rewrite Er in Rf.
  destruct (turned_models b b' g s s' dyn dyn' uc ref ref cl cl' m m' r base base' cpl cpl' (RtoC 1) false
    D D' Y Y' P Ep Ed F F' Er Rf G RD SP Cmod_1 CV) as [A I].
  split; [|exact I]. intros k l Hk Hl. rewrite (A k l Hk Hl). unfold common_phase. apply Cmult_1_l.
Qed.

Lemma c115_labels b b' g s s' dyn dyn' ref cl cl' uc m base cpl :
  std_decay (b_decay b) s -> std_decay (b_decay b') s' -> dynamics_of b dyn -> dynamics_of b' dyn' ->
  two_body_resonances (b_decay b) -> same_settings g (b_decay b) dyn dyn' ->
  b_prod_helicity b' = b_prod_helicity b -> b_dec_helicity b' = b_dec_helicity b ->
  keeps_spins g -> keeps_labels g (b_decay b) s -> replaced_decay g (b_decay b) s (b_decay b') s' ->
  ref = None \/ (exists r, ref = Some r /\ In r [1; 2; 3]) ->
  formulate b ref cl uc = Ok m ->
  exists m', formulate b' ref cl' uc = Ok m' /\
    (forall k l, In k [1; 2; 3] -> helicity_tuple s l ->
      amp_value (at_point (m_variables m') base cpl) m' k l = amp_value (at_point (m_variables m) base cpl) m k l) /\
    full_value (at_point (m_variables m') base cpl) m' = full_value (at_point (m_variables m) base cpl) m.
Proof.
  intros D D' Y Y' Tb Se Ep Ed G (L0 & LR) RD Hr F.
  assert (P : plain_resonances (b_decay b)).
  { intros c Hc. destruct (Tb c Hc) as (r & x & y & j & ->). cbn. eauto. }
  apply (c115 b b' g s s' dyn dyn' ref cl cl' uc m base base cpl cpl); try assumption.
  - intros _. exact P.
  - intros n _. reflexivity.
  - intros c h l i j k Hc _ _ _ _. unfold strength, common_phase. rewrite Cmult_1_l. f_equal.
    + destruct (replace_chain g c (std_valid _ _ D c Hc)) as (_ & E2 & _ & _ & E5 & E6 & _).
      destruct uc; unfold coefficient, coupling_product; rewrite E2, E5, E6, (LR c Hc); reflexivity.
    + destruct (Se c Hc) as [[-> ->]|(w & f & Hf & E & E')]; [reflexivity|].
      destruct (std_isobar _ s c D P Hc) as (r & x & y & sp & Iso & _ & Rr & St).
      { destruct (Tb c Hc) as (r & x & y & q & ->). eauto. }
      assert (Iso' : isobar_chain (replace g c) (replace_state g (s 0)) (g r) (replace_state g x) (replace_state g y) (replace_state g sp)
        (ch_incoming_ls c) (ch_outgoing_ls c)).
      { destruct Iso as (Sh & I0 & Pm). split; [|split; [exact I0|exact Pm]].
        destruct Sh as [Sh|Sh]; [left|right]; rewrite Sh at 1; reflexivity. }
      rewrite (c36_value _ _ _ _ _ _ _ _ _ _ f _ _ Hf Iso E), (c36_value _ _ _ _ _ _ _ _ _ _ f _ _ Hf Iso' E').
      unfold chain_lineshape, resonance_mass, resonance_width, parent_radius, sigma_of, outer_mass. cbn [replace_state st_particle st_index].
      specialize (LR c Hc). rewrite Rr in LR. rewrite LR, L0. reflexivity.
Qed.
