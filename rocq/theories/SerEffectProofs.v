(** Weights of a model file with and without an effect (proofs for C153) *)
From Coq Require Import String ZArith List Bool Reals Lia Lra Psatz Permutation Classical.
From Coquelicot Require Import Coquelicot.
From Verif Require Import Prelude AnglesFacts Spin Decay Expr Angles Sums Wigner CExpr SpecKin SpecDPD Builder
  SpinFacts DecayFacts CExprFacts BuilderFacts ModelFacts KinFacts AnglesProofs RefFacts RelabelFacts BoundedProofs SpecObs ObsKin ObsProofs EffectProofs
  SerFormat SerDynamics SpecSerial SerModel SerProofs SerDyn SerFormal SerTotal SpecWeights SerWeights SerPoints SerSymbols SerRateWeights SpecSerEffect.
From Verif Require SerAmplitude SerDecay WignerFacts SerRate.
Import ListNotations.
Local Open Scope Z_scope.

(** ** Couplings of vertices *)
Lemma coupling_same f a b : ~ (f = -1 /\ a = 0 /\ b = 0) -> In f [0; 1; -1] -> coupling_of f a b a b <> 0%R.
Proof.
  intros N F. unfold coupling_of. rewrite !Z.eqb_refl. cbn [andb].
  destruct (Z.eqb_spec a (- a)) as [Ea|Ea]; cbn [andb]; [destruct (Z.eqb_spec b (- b)) as [Eb|Eb]|]; try (rewrite Rmult_0_r; lra).
  destruct F as [<-|[<-|[<-|[]]]]; try lra. exfalso. apply N. lia.
Qed.
Lemma hel_opposite a j : In a (helicities j) <-> In (- a) (helicities j).
Proof. split; [intros I; apply hel_opp; rewrite Z.opp_involutive; exact I|apply hel_opp]. Qed.
Lemma coupling_other f a b a0 b0 ja : In a (helicities ja) -> ~ In a0 (helicities ja) -> coupling_of f a b a0 b0 = 0%R.
Proof.
  intros I N. unfold coupling_of.
  destruct (Z.eqb_spec a a0) as [->|]; [contradiction|]. destruct (Z.eqb_spec a (- a0)) as [->|].
  - exfalso. apply N. apply hel_opposite. exact I.
  - cbn [andb]. ring.
Qed.
Lemma coupling_other' f a b a0 b0 jb : In b (helicities jb) -> ~ In b0 (helicities jb) -> coupling_of f a b a0 b0 = 0%R.
Proof.
  intros I N. unfold coupling_of.
  destruct (Z.eqb_spec b b0) as [->|]; [contradiction|]. destruct (Z.eqb_spec b (- b0)) as [->|].
  - exfalso. apply N. apply hel_opposite. exact I.
  - rewrite !andb_false_r. ring.
Qed.
Lemma coupling_cancels a b : coupling_of (-1) a b 0 0 = 0%R.
Proof. unfold coupling_of. change (- 0) with 0. destruct ((a =? 0) && (b =? 0)); lra. Qed.
Lemma flip_values v f : flip_factor v f -> In f [0; 1; -1].
Proof. intros [[_ ->]|[_ I]]; [cbn; auto|]. cbn in I. destruct I as [E|[E|[E|[E|[]]]]]; injection E as _ <-; cbn; auto. Qed.

(** ** The angle of a pair in any order *)
Lemma line_angle base i j k t : cyclic i j k ->
  rv (fun y => Re (dalitz_line base i j k t y)) (formulate_scattering_angle j i)
  = (PI - rv (fun y => Re (dalitz_line base i j k t y)) (formulate_scattering_angle i j))%R.
Proof.
  intros Cy. set (env := fun y => Re (dalitz_line base i j k t y)).
  assert (Mand : (at_s1 env + at_s2 env + at_s3 env
    = at_m0 env * at_m0 env + at_m1 env * at_m1 env + at_m2 env * at_m2 env + at_m3 env * at_m3 env)%R).
  { unfold env, at_s1, at_s2, at_s3, at_m0, at_m1, at_m2, at_m3. clear env.
    destruct Cy as [E|[E|[E|[]]]]; injection E as <- <- <-; unfold dalitz_line, square_at;
      repeat match goal with |- context [eqb ?a ?b] => first [change (eqb a b) with true|change (eqb a b) with false]; cbn iota end;
      cbn [Re RtoC fst]; change (sigma_at 1) with (Sym "sigma1" ANonneg); change (sigma_at 2) with (Sym "sigma2" ANonneg); change (sigma_at 3) with (Sym "sigma3" ANonneg);
      change (mass_at 0) with (Sym "m0" ANonneg); change (mass_at 1) with (Sym "m1" ANonneg); change (mass_at 2) with (Sym "m2" ANonneg); change (mass_at 3) with (Sym "m3" ANonneg);
      ring. }
  destruct Cy as [E|[E|[E|[]]]]; injection E as Ei Ej Ek; subst i j k; rewrite ?th_12, ?th_21, ?th_23, ?th_32, ?th_31, ?th_13; unfold th_; rewrite <- acos_opp; f_equal.
  - rewrite (id_theta_swap _ (at_m1 env * at_m1 env) (at_m2 env * at_m2 env) _ (at_s1 env) (at_s2 env) (at_s3 env)) by lra.
    rewrite (kallen_swap (at_s3 env) (at_m1 env * at_m1 env)). unfold Rdiv. ring.
  - rewrite (id_theta_swap _ (at_m2 env * at_m2 env) (at_m3 env * at_m3 env) _ (at_s2 env) (at_s3 env) (at_s1 env)) by lra.
    rewrite (kallen_swap (at_s1 env) (at_m2 env * at_m2 env)). unfold Rdiv. ring.
  - rewrite (id_theta_swap _ (at_m3 env * at_m3 env) (at_m1 env * at_m1 env) _ (at_s3 env) (at_s1 env) (at_s2 env)) by lra.
    rewrite (kallen_swap (at_s2 env) (at_m3 env * at_m3 env)). unfold Rdiv. ring.
Qed.

Section Model.
  Variables (m : model_def) (d : distribution) (s : Z -> state) (r : Z)
    (tl : string -> string) (additional : option (dict string prop_builder))
    (x : chain_def -> content) (w : chain_def -> symbol) (dyn : chain_def -> defexpr).
  Hypothesis H : helicity_definition m d s r tl additional x w dyn.
  Variables (cl : bool) (M : model).
  Hypothesis F : SerAmplitude.formulate m cl tl additional = Ok M.
  Hypothesis W : weights_only w dyn (di_chains d).
  Hypothesis ND : NoDup (map w (di_chains d)).
  Variable c : chain_def.
  Hypothesis Hc : In c (di_chains d).

  Lemma weight_inj c' : In c' (di_chains d) -> w c' = w c -> c' = c.
  Proof.
    intros I' E. clear - ND Hc I' E. induction (di_chains d) as [|y ys IH]; [destruct I'|].
    cbn [map] in ND. inversion ND as [|? ? Ny ND']; subst. destruct Hc as [Ec|Ic], I' as [Ec'|Ic'].
    - congruence.
    - exfalso. apply Ny. rewrite Ec, <- E. apply (in_map _ _ _ Ic').
    - exfalso. apply Ny. rewrite Ec', E. apply (in_map _ _ _ Ic).
    - exact (IH ND' Ic Ic').
  Qed.
  Lemma flips : In (ct_fp (x c)) [0; 1; -1] /\ In (ct_fd (x c)) [0; 1; -1].
  Proof.
    destruct (hd_content _ _ _ _ _ _ _ _ _ H c Hc) as (vp & vd & _ & _ & _ & A & B). split; eapply flip_values; eassumption.
  Qed.
  Lemma is_w : is_weight w (di_chains d) (w c).
  Proof. exists c. split; [exact Hc|reflexivity]. Qed.
  Lemma indices : In (ct_i (x c)) [1; 2; 3] /\ In (ct_j (x c)) [1; 2; 3] /\ In (ct_k (x c)) [1; 2; 3].
  Proof. pose proof (hd_perm m d s r tl additional x w dyn H c Hc) as P. repeat split; apply (Permutation_in _ P); cbn; auto. Qed.
  Lemma tuple_at4 l n : helicity_tuple s l -> In n [1; 2; 3] -> In (at4 l n) (helicities (p_spin (s n))).
  Proof. intros Hl Hn. destruct l as [[[l0 l1] l2] l3]. destruct Hl as (_ & A & B & D). destruct Hn as [<-|[<-|[<-|[]]]]; assumption. Qed.

  (** *** Without an effect *)
  Lemma no_contribution ev l : helicity_tuple s l -> ~ final_possible s (x c) -> chain_contribution x w dyn ev l c = RtoC 0.
  Proof.
    intros Hl N. destruct indices as (Ii & Ij & Ik). unfold chain_contribution, serial_term.
    assert (Z : coupling_of (ct_fp (x c)) (ct_r (x c)) (at4 l (ct_k (x c))) (ct_r (x c)) (ct_lk (x c)) = 0%R \/
      coupling_of (ct_fd (x c)) (at4 l (ct_i (x c))) (at4 l (ct_j (x c))) (ct_li (x c)) (ct_lj (x c)) = 0%R).
    { apply NNPP. intros Z. apply N. unfold final_possible. repeat split.
      - apply NNPP. intros Q. apply Z. left. exact (coupling_other' _ _ _ _ _ _ (tuple_at4 l _ Hl Ik) Q).
      - apply NNPP. intros Q. apply Z. right. exact (coupling_other _ _ _ _ _ _ (tuple_at4 l _ Hl Ii) Q).
      - apply NNPP. intros Q. apply Z. right. exact (coupling_other' _ _ _ _ _ _ (tuple_at4 l _ Hl Ij) Q).
      - intros (E1 & E2 & E3). apply Z. left. rewrite E1, E2, E3. apply coupling_cancels.
      - intros (E1 & E2 & E3). apply Z. right. rewrite E1, E2, E3. apply coupling_cancels. }
    destruct Z as [-> | ->]; ring.
  Qed.
  Theorem weight_no_effect : ~ final_possible s (x c) -> value_no_effect M (w c).
  Proof.
    intros N v v' idx E. destruct (serial_intensity_value m d s r tl additional x w dyn H cl M F) as (ks & _ & _ & K & V).
    rewrite !V. f_equal. unfold intensity_value. apply Rsum_ext. intros l _. do 2 f_equal. unfold aligned_amplitude.
    apply Csum_ext. intros l' Hl'. apply tuples_In in Hl'. apply Csum_ext. intros k Hk.
    assert (Ik : In k [1; 2; 3]) by exact (subsystem_range m d s r tl additional x w dyn H ks K k Hk).
    assert (EZ : forall i, e_sym (Env v idx) (zeta_symbol i k r) = e_sym (Env v' idx) (zeta_symbol i k r)).
    { intros i. cbn [e_sym]. apply E. intros Q. apply (zeta_no_weight m d s r tl additional x w dyn H i k r). rewrite Q. exact is_w. }
    unfold alignment. rewrite !EZ. f_equal.
    rewrite !(serial_amplitude_value m d s r tl additional x w dyn H cl M F) by assumption.
    apply Csum_ext. intros c' Ic'. apply in_chains_in in Ic'. destruct Ic' as [Ic' _].
    destruct (classic (w c' = w c)) as [Q|Q].
    - rewrite (weight_inj c' Ic' Q), !no_contribution by assumption. reflexivity.
    - unfold chain_contribution. cbn [e_sym]. rewrite (E (w c') Q), (E (theta_name _ _)).
      + rewrite (lineshape_eval (Env v idx) (Env v' idx) (fun _ => 0) (fun _ => 0) _ (hd_lineshape _ _ _ _ _ _ _ _ _ H c' Ic')); [reflexivity|].
        intros y _ Iy. cbn [e_sym]. apply E. intros ->. exact (W c' (w c) Ic' is_w Iy).
      + intros Q'. apply (theta_no_weight m d s r tl additional x w dyn H (ct_i (x c')) (ct_j (x c'))). rewrite Q'. exact is_w.
  Qed.

  (** *** With an effect *)
  Lemma serial_one k ev : k = ct_k (x c) -> (forall k' l, In k' [1; 2; 3] -> k' <> k -> helicity_tuple s l -> amp_value ev M k' l = RtoC 0) ->
    full_value ev M = RtoC (Rsum (tuples s) (fun l => Cmod (amp_value ev M k l) ^ 2)%R).
  Proof.
    intros Ek Z. destruct (serial_intensity_value m d s r tl additional x w dyn H cl M F) as (ks & NK & _ & K & V).
    rewrite V. f_equal. unfold intensity_value. set (z := fun i => Re (e_sym ev (zeta_symbol i k r))).
    rewrite <- (orthogonal_complex (tuples s) (rot s z) (amp_value ev M k) eq_dec (tuples_NoDup s) (rot_orthogonal s z)).
    apply Rsum_ext. intros l _. do 2 f_equal. unfold aligned_amplitude. apply Csum_ext. intros l' Hl'.
    rewrite (Csum_single ks k).
    - rewrite Cmult_comm. reflexivity.
    - exact NK.
    - apply K. exists c. split; [exact Hc|symmetry; exact Ek].
    - intros k' Hk' N. rewrite Z; [ring| |exact N|apply tuples_In; exact Hl'].
      exact (subsystem_range m d s r tl additional x w dyn H ks K k' Hk').
  Qed.
  (** Only the chain c has a weight. *)
  Definition only (z : C) (y : symbol) : C := if eqb y (w c) then z else RtoC 0.
  Definition probe_at (z : C) (pt : symbol -> C) : symbol -> C := reweigh d w (only z) pt.
  Lemma probe_weight z pt c' : In c' (di_chains d) -> probe_at z pt (w c') = if eqb (w c') (w c) then z else RtoC 0.
  Proof.
    intros I'. unfold probe_at, reweigh.
    rewrite (proj2 (weightb_spec d w (w c'))) by (exists c'; split; [exact I'|reflexivity]).
    reflexivity.
  Qed.
  Lemma probe_value z pt cpl c' l : In c' (di_chains d) -> z = RtoC 0 \/ c' <> c ->
    chain_contribution x w dyn (at_point (m_variables M) (probe_at z pt) cpl) l c' = RtoC 0.
  Proof.
    intros I' Z. unfold chain_contribution, serial_term.
    rewrite (serial_at_point m d s r tl additional x w dyn H cl M F)
      by (rewrite (weight_none m d s r tl additional x w dyn H (w c')) by (exists c'; split; [exact I'|reflexivity]); discriminate).
    rewrite probe_weight by exact I'. destruct (eqb (w c') (w c)) eqn:E.
    - apply (proj1 (Prelude.eqb_eq _ _)) in E. destruct Z as [-> |N]; [ring|]. destruct (N (weight_inj c' I' E)).
    - ring.
  Qed.
  Lemma probe_zero z pt cpl k l : In k [1; 2; 3] -> z = RtoC 0 \/ k <> ct_k (x c) -> helicity_tuple s l ->
    amp_value (at_point (m_variables M) (probe_at z pt) cpl) M k l = RtoC 0.
  Proof.
    intros Ik Z Hl. rewrite (serial_amplitude_value m d s r tl additional x w dyn H cl M F) by assumption.
    apply Csum_zero. intros c' I'. apply in_chains_in in I'. destruct I' as [I' E']. apply probe_value; [exact I'|].
    destruct Z as [Z|Z]; [left; exact Z|right]. intros ->. congruence.
  Qed.

  Theorem weight_effect : resonance_possible (x c) -> final_possible s (x c) -> live_serial x dyn c -> value_has_effect M (w c).
  Proof.
    intros (Rr & Rd) (Pk & Pi' & Pj & Np & Nd) (base & i & j & Cy & BT & N1 & N2 & X).
    set (k := ct_k (x c)) in *. set (a := ct_i (x c)) in *. set (b := ct_j (x c)) in *. set (J := ct_spin (x c)) in *.
    pose proof (hd_perm m d s r tl additional x w dyn H c Hc) as P. fold a b k in P.
    destruct indices as (Ia & Ib & Ik). fold a b k in Ia, Ib, Ik.
    assert (Ord : (a = i /\ b = j) \/ (a = j /\ b = i)).
    { apply SerDecay.perm_123 in P. clear - P Cy. clearbody a b k. cbn [In] in P.
      destruct Cy as [E|[E|[E|[]]]]; apply pair_equal_spec in E; destruct E as [E E3]; apply pair_equal_spec in E; destruct E as [E1 E2]; subst i j k;
        repeat destruct P as [P|P]; try contradiction; apply pair_equal_spec in P; destruct P as [P P3]; apply pair_equal_spec in P; destruct P as [P1 P2];
        subst a b; try discriminate P3; auto. }
    destruct (c94_range base i j k Cy BT) as (lo & hi & Lt & Rg).
    set (mu := if a =? i then ct_li (x c) - ct_lj (x c) else - (ct_li (x c) - ct_lj (x c))).
    destruct (d_nonzero base i j k lo hi J (ct_r (x c)) mu Cy BT Rg) as (t & Ht & Nt).
    { rewrite is_projection_hel. apply memb_In. exact Rr. }
    { rewrite is_projection_hel. apply memb_In. unfold mu. destruct (a =? i); [exact Rd|]. apply (proj1 (hel_opposite _ _)). exact Rd. }
    set (pt := dalitz_line base i j k t). set (cpl := fun (_ : string) (_ : list ival) => RtoC 0).
    exists (probe_at (RtoC 1) pt), (probe_at (RtoC 0) pt), cpl. split; [|split].
    - intros z Nz. unfold probe_at, reweigh. destruct (weightb d w z); [|reflexivity]. unfold only.
      destruct (eqb z (w c)) eqn:E; [apply (proj1 (Prelude.eqb_eq _ _)) in E; contradiction|reflexivity].
    - apply (physical_ext (fun y => Re (pt y))); [|apply Rg; exact Ht]. intros y Hy. unfold probe_at.
      rewrite (reweigh_other m d s r tl additional x w dyn H) by congruence. reflexivity.
    - assert (S0 : 0 <= p_spin (s 0)).
      { destruct (ds_initial _ _ _ _ _ (hd_states _ _ _ _ _ _ _ _ _ H)) as (_ & j0 & Hj & _ & E). rewrite E. exact Hj. }
      assert (TU : exists l, helicity_tuple s l /\ at4 l a = ct_li (x c) /\ at4 l b = ct_lj (x c) /\ at4 l k = ct_lk (x c)).
      { assert (L0 : In (p_spin (s 0)) (helicities (p_spin (s 0)))).
        { apply memb_In. rewrite <- is_projection_hel. apply WignerFacts.is_projection_spec. rewrite Z.sub_diag. repeat split; try lia; reflexivity. }
        destruct Ord as [[Ea Eb]|[Ea Eb]]; rewrite Ea in *; rewrite Eb in *.
        - destruct (tuple_of s i j k (p_spin (s 0)) (ct_li (x c)) (ct_lj (x c)) (ct_lk (x c)) Cy L0 Pi' Pj Pk) as (l & Hl & _ & A & B & D). exists l. auto.
        - destruct (tuple_of s i j k (p_spin (s 0)) (ct_lj (x c)) (ct_li (x c)) (ct_lk (x c)) Cy L0 Pj Pi' Pk) as (l & Hl & _ & A & B & D). exists l. auto. }
      destruct TU as (l & Hl & La & Lb & Lk).
      rewrite (serial_one k (at_point (m_variables M) (probe_at (RtoC 0) pt) cpl) eq_refl) by (intros k' l' Ik' _ Hl'; apply probe_zero; auto).
      rewrite (serial_one k (at_point (m_variables M) (probe_at (RtoC 1) pt) cpl) eq_refl) by (intros k' l' Ik' N' Hl'; apply probe_zero; auto).
      rewrite (Sums.Rsum_zero (tuples s) (fun l => Cmod (amp_value (at_point (m_variables M) (probe_at (RtoC 0) pt) cpl) M k l) ^ 2)%R).
      2:{ intros l' Hl'. rewrite probe_zero by (auto; apply tuples_In; exact Hl'). rewrite Cmod_0. ring. }
      intros E. apply RtoC_inj in E. set (ev := at_point (m_variables M) (probe_at (RtoC 1) pt) cpl) in E.
      assert (Z : (Cmod (amp_value ev M k l) ^ 2 <= 0)%R).
      { rewrite <- E. apply (Rsum_term_le (tuples s) (fun l => Cmod (amp_value ev M k l) ^ 2)%R).
        - intros y _. apply pow2_ge_0.
        - apply tuples_In. exact Hl. }
      assert (A0 : amp_value ev M k l = RtoC 0).
      { apply Cmod_eq_0. pose proof (Cmod_ge_0 (amp_value ev M k l)). nra. }
      rewrite (serial_amplitude_value m d s r tl additional x w dyn H cl M F) in A0 by assumption.
      rewrite (Csum_only _ c) in A0.
      + revert A0. unfold chain_contribution, serial_term. fold a b k J. rewrite La, Lb, Lk.
        assert (P0 : forall u : R, u <> 0%R -> RtoC u <> RtoC 0) by (intros y Hy E0; apply Hy, RtoC_inj, E0).
        destruct flips as (Fp & Fd). repeat apply Cmult_neq_0.
        * unfold ev. rewrite (serial_at_point m d s r tl additional x w dyn H cl M F)
            by (rewrite (weight_none m d s r tl additional x w dyn H (w c) is_w); discriminate).
          rewrite probe_weight by exact Hc. rewrite Prelude.eqb_refl. apply P0. lra.
        * apply P0, coupling_same; assumption.
        * apply P0, coupling_same; assumption.
        * apply P0. destruct (proj1 (serial_angles m d s r tl additional x w dyn H cl M F) c Hc) as (th & T & G). fold a b in T, G.
          assert (TV : Re (e_sym ev (theta_name a b)) = rv (fun y => Re (pt y)) (formulate_scattering_angle a b)).
          { unfold ev, at_point. cbn [e_sym]. rewrite G, T. cbn [Re RtoC fst rv]. 
            apply (nonneg_eval _ _ th (SerRate.theta_symbols_ok _ _ _ _ T)). intros y Hy. unfold probe_at.
            rewrite (reweigh_other m d s r tl additional x w dyn H) by congruence. reflexivity. }
          rewrite TV. unfold mu in Nt. pose proof (line_theta base i j k Cy BT t) as LT. unfold line_env in LT. fold pt in LT.
          destruct Ord as [[Ea Eb]|[Ea Eb]]; rewrite Ea, Eb in *.
          -- rewrite Z.eqb_refl in Nt. rewrite LT. exact Nt.
          -- assert (Nij : j <> i) by (destruct Cy as [Q|[Q|[Q|[]]]]; injection Q as <- <- _; discriminate).
             replace (j =? i) with false in Nt by (symmetry; apply Z.eqb_neq; exact Nij).
             pose proof (line_angle base i j k t Cy) as LA. fold pt in LA. rewrite LA, LT.
             rewrite <- (Z.opp_involutive (ct_li (x c) - ct_lj (x c))), wigner_d_pi_minus.
             apply Rmult_integral_contrapositive_currified; [|exact Nt]. unfold parity_sign. destruct (Z.even _); lra.
        * replace (ceval ev (fun _ => 0) (de_expr (dyn c))) with (ceval (Env base cpl) (fun _ => 0) (de_expr (dyn c))); [apply X|].
          unfold ev, at_point. apply lineshape_eval; [exact (hd_lineshape _ _ _ _ _ _ _ _ _ H c Hc)|]. intros y Hy Iy. cbn [e_sym].
          destruct (dget y (m_variables M)) as [e|] eqn:G.
          { exfalso. apply Hy. apply (proj2 (proj2 (serial_angles m d s r tl additional x w dyn H cl M F))). apply (proj1 (dget_In _ _)). eauto. }
          unfold probe_at, reweigh. destruct (weightb d w y) eqn:E1.
          { exfalso. apply weightb_spec in E1. exact (W c y Hc E1 Iy). }
          unfold pt, dalitz_line.
          destruct (eqb y (sigma_at j)) eqn:E2; [apply (proj1 (Prelude.eqb_eq _ _)) in E2; rewrite E2 in Iy; contradiction|].
          destruct (eqb y (sigma_at i)) eqn:E3; [apply (proj1 (Prelude.eqb_eq _ _)) in E3; rewrite E3 in Iy; contradiction|reflexivity].
      + intros c' I' N'. apply in_chains_in in I'. apply probe_value; [apply I'|right; exact N'].
      + apply NoDup_filter. exact (NoDup_map_inv _ _ ND).
      + apply filter_In. split; [exact Hc|apply Z.eqb_refl].
  Qed.
End Model.
