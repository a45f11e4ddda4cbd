(** C126: serialised models at different points *)
From Coq Require Import String ZArith QArith Qcanon Qreals List Bool Reals Lia Lra Psatz Permutation Sorted.
From Coquelicot Require Import Complex.
From Verif Require Import Prelude AnglesFacts Spin Decay Expr Angles Sums Wigner CG CExpr SpecKin SpecDPD Builder
  SpinFacts DecayFacts CExprFacts BuilderFacts ModelFacts KinFacts AnglesProofs Dynamics SpecDynamics DynamicsProofs LineshapeFacts LineshapeProofs
  FiniteShapes SpecObs SpecUnits UnitFacts SpecRename RenameProofs SerFormat SerDynamics
  SerAmplitude SpecSerial SpecSerialShapes SerDecay SerModel SerProofs SerDyn SerShapes SerFormal SpecWeights SerWeights SerSymbols
  SpecPropagators SerPropagators SerTotal HankelFacts SpecSerPoints.
Import ListNotations.
Local Open Scope string_scope.
Local Open Scope Z_scope.
Local Open Scope list_scope.

Section Points.
  Variables (m : model_def) (d : distribution) (s : Z -> state) (r : Z)
    (tl : string -> string) (additional : option (dict string prop_builder))
    (x : chain_def -> content) (w : chain_def -> symbol) (dyn : chain_def -> defexpr).
  Hypothesis H : helicity_definition m d s r tl additional x w dyn.
  Variables (cl : bool) (M : model).
  Hypothesis F : SerAmplitude.formulate m cl tl additional = Ok M.

  (** The lineshape at a point *)
  Lemma serial_lineshape base cpl c : In c (di_chains d) ->
    ceval (at_point (m_variables M) base cpl) (fun _ => 0) (de_expr (dyn c)) = ceval (Env base cpl) (fun _ => 0) (de_expr (dyn c)).
  Proof.
    intros I. apply lineshape_eval; [exact (hd_lineshape _ _ _ _ _ _ _ _ _ H c I)|].
    intros y Hy _. exact (serial_at_point m d s r tl additional x w dyn H cl M F _ _ y Hy).
  Qed.
  Lemma serial_weight_at base cpl c : In c (di_chains d) -> e_sym (at_point (m_variables M) base cpl) (w c) = base (w c).
  Proof.
    intros I. apply (serial_at_point m d s r tl additional x w dyn H cl M F).
    rewrite (weight_none m d s r tl additional x w dyn H (w c)); [discriminate|]. exists c. auto.
  Qed.
  Lemma contribution_at base cpl l c : In c (di_chains d) ->
    chain_contribution x w dyn (at_point (m_variables M) base cpl) l c =
    (RtoC (coupling_of (ct_fp (x c)) (ct_r (x c)) (at4 l (ct_k (x c))) (ct_r (x c)) (ct_lk (x c))
           * coupling_of (ct_fd (x c)) (at4 l (ct_i (x c))) (at4 l (ct_j (x c))) (ct_li (x c)) (ct_lj (x c))
           * wigner_d (ct_spin (x c)) (ct_r (x c)) (ct_li (x c) - ct_lj (x c))
               (rv (fun y => Re (base y)) (formulate_scattering_angle (ct_i (x c)) (ct_j (x c)))))
     * chain_strength w dyn base cpl c)%C.
  Proof.
    intros I. unfold chain_contribution, serial_term, chain_strength.
    rewrite serial_weight_at, serial_lineshape by exact I.
    rewrite (theta_point s tl additional x w dyn m d r cl M H F base cpl c I). rewrite !RtoC_mult. ring.
  Qed.

  Section Related.
    Variables (t : R) (base base' : symbol -> C) (cpl cpl' : string -> list ival -> C) (q : R) (u : C) (cj : bool).
    Hypothesis T0 : (0 < t)%R.
    Hypothesis S : similar_points t base base'.
    Hypothesis U : Cmod u = 1%R.
    Hypothesis V : forall c, In c (di_chains d) ->
      chain_strength w dyn base' cpl' c = (RtoC q * common_phase u cj (chain_strength w dyn base cpl c))%C.
    Lemma similar_invariants y : In y invariant_names -> Re (base' y) = scale_units t (fun y => Re (base y)) y.
    Proof.
      destruct S as (Sm & Ss). intros Hy.
      assert (S2 : forall a z, Re (RtoC a * z)%C = (a * Re z)%R) by (intros a z; destruct z; cbn; ring).
      apply in_app_or in Hy. destruct Hy as [Hy|Hy]; apply in_map_iff in Hy; destruct Hy as (n & <- & Hn).
      - change (mass_at n) with (mass_sym n). rewrite (Sm n Hn), S2. cbn in Hn.
        repeat destruct Hn as [<-|Hn]; try destruct Hn; unfold scale_units; cbn; ring.
      - change (sigma_at n) with (sigma_sym n). rewrite (Ss n Hn), S2. cbn in Hn.
        repeat destruct Hn as [<-|Hn]; try destruct Hn; unfold scale_units; cbn; ring.
    Qed.
    Lemma similar_theta i j : rv (fun y => Re (base' y)) (formulate_scattering_angle i j) = rv (fun y => Re (base y)) (formulate_scattering_angle i j).
    Proof.
      destruct (formulate_scattering_angle i j) as [[y e]|] eqn:E; [|reflexivity]. cbn [rv].
      destruct (c18 t (fun y => Re (base y)) T0) as (C1 & _ & _). rewrite <- (C1 _ _ _ _ E). apply reval_on.
      intros z Hz. apply similar_invariants. exact (proj1 angle_syms _ _ _ _ E z Hz).
    Qed.
    Lemma similar_zeta i j k : rv (fun y => Re (base' y)) (formulate_zeta_angle i j k) = rv (fun y => Re (base y)) (formulate_zeta_angle i j k).
    Proof.
      destruct (formulate_zeta_angle i j k) as [[y e]|] eqn:E; [|reflexivity]. cbn [rv].
      destruct (c18 t (fun y => Re (base y)) T0) as (_ & _ & C3). rewrite <- (C3 _ _ _ _ _ E). apply reval_on.
      intros z Hz. apply similar_invariants. exact (proj2 angle_syms _ _ _ _ _ E z Hz).
    Qed.
    Lemma related_amplitude k l : In k [1; 2; 3] -> helicity_tuple s l ->
      amp_value (at_point (m_variables M) base' cpl') M k l = (RtoC q * common_phase u cj (amp_value (at_point (m_variables M) base cpl) M k l))%C.
    Proof.
      intros Hk Hl. rewrite !(serial_amplitude_value m d s r tl additional x w dyn H cl M F _ k l Hl Hk).
      rewrite turned_sum, <- Csum_scal_l. apply Csum_ext. intros c Hc. apply in_chains_in in Hc. destruct Hc as [Hc _].
      rewrite !contribution_at by exact Hc. rewrite similar_theta, (V c Hc), turned_scal. ring.
    Qed.
    Theorem related_intensity :
      full_value (at_point (m_variables M) base' cpl') M = (RtoC (q * q) * full_value (at_point (m_variables M) base cpl) M)%C.
    Proof.
      destruct (serial_intensity_value m d s r tl additional x w dyn H cl M F) as (ks & N & So & K & I).
      rewrite !I, <- RtoC_mult. f_equal. unfold intensity_value. rewrite <- Rsum_scal_l. apply Rsum_ext. intros l Hl.
      replace (q * q)%R with (Cmod (RtoC q) ^ 2)%R.
      2:{ rewrite Cmod_R. cbn [pow]. rewrite Rmult_1_r, <- Rabs_mult. apply Rabs_pos_eq. apply Rle_0_sqr. }
      set (A := aligned_amplitude s ks (amp_value (at_point (m_variables M) base cpl) M)
        (fun i k => Re (e_sym (at_point (m_variables M) base cpl) (zeta_symbol i k r))) l).
      transitivity (Cmod (RtoC q * common_phase u cj A)%C ^ 2)%R.
      2:{ rewrite Cmod_mult, turned_mod by exact U. rewrite Rpow_mult_distr. reflexivity. }
      f_equal. f_equal. unfold A, aligned_amplitude. rewrite turned_sum, <- Csum_scal_l.
      apply Csum_ext. intros l' Hl'. apply tuples_In in Hl'. rewrite turned_sum, <- Csum_scal_l. apply Csum_ext. intros k Hk.
      rewrite (related_amplitude k l' (subsystem_range m d s r tl additional x w dyn H ks K k Hk) Hl').
      apply K in Hk. destruct Hk as (c & Hc & <-).
      assert (AL : alignment s (fun i => Re (e_sym (at_point (m_variables M) base' cpl') (zeta_symbol i (ct_k (x c)) r))) l l'
        = alignment s (fun i => Re (e_sym (at_point (m_variables M) base cpl) (zeta_symbol i (ct_k (x c)) r))) l l').
      { assert (W : forall i a b, In i [0; 1; 2; 3] -> In a (helicities (p_spin (s i))) -> In b (helicities (p_spin (s i))) ->
          wigner_d (p_spin (s i)) a b (Re (e_sym (at_point (m_variables M) base' cpl') (zeta_symbol i (ct_k (x c)) r)))
          = wigner_d (p_spin (s i)) a b (Re (e_sym (at_point (m_variables M) base cpl) (zeta_symbol i (ct_k (x c)) r)))).
        { intros i a b0 Hi Ha Hb. destruct (Z.eq_dec (p_spin (s i)) 0) as [E|Ne].
          - rewrite E in *. destruct Ha as [<-|[]], Hb as [<-|[]]. rewrite !WignerFacts.wigner_d_spin0. reflexivity.
          - f_equal. rewrite !(zeta_point s tl additional x w dyn m d r cl M H F _ _ i c Hi Hc Ne). apply similar_zeta. }
        apply tuples_In in Hl. destruct l as [[[l0 l1] l2] l3], l' as [[[k0 k1] k2] k3].
        destruct Hl as (L0 & L1 & L2 & L3), Hl' as (K0 & K1 & K2 & K3). unfold alignment. cbn [at4] in *.
        rewrite !W by (cbn; tauto). reflexivity. }
      rewrite AL. rewrite (Cmult_comm (amp_value (at_point (m_variables M) base cpl) M (ct_k (x c)) l')), turned_scal. ring.
    Qed.
  End Related.
End Points.

(** ** Built-in lineshapes *)
Section Builtin.
  Variables (m : model_def) (d : distribution) (s : Z -> state) (r : Z) (tl : string -> string)
    (x : chain_def -> content) (w : chain_def -> symbol) (dyn : chain_def -> defexpr).
  Hypothesis H : helicity_definition m d s r tl None x w dyn.
  Variable c : chain_def.
  Hypothesis Hc : In c (di_chains d).
  Hypothesis Cc : complete_chain m c.
  Let name := tl (cd_name c).
  Let k := ct_k (x c).
  Let i := ct_i (x c).
  Let j := ct_j (x c).

  Definition width_shape (a b : Z) (W : env -> C) : Prop :=
    ((exists p f, In p (cd_propagators c) /\ function_of m (pr_parametrization p) f /\ fd_type f = "BreitWigner") /\
     exists L, forall ev, W ev = running_width two_body_phsp L (e_sym ev (sigma_sym k)) (e_sym ev (named "m" name)) (e_sym ev (named "\Gamma" name))
            (e_sym ev (mass_sym a)) (e_sym ev (mass_sym b)) (e_sym ev radius_sym)) \/
    exists L0 Ls, forall ev, W ev =
      (channel_formula L0 (e_sym ev (sigma_sym k)) (e_sym ev (named "m" name)) (e_sym ev (named "\Gamma" name))
              (e_sym ev (mass_sym a)) (e_sym ev (mass_sym b)) (e_sym ev (named "R" name))
            + further_widths ev k name 2 Ls)%C.
  Definition decay_factor_shape (FD : env -> C) : Prop :=
    (forall ev, FD ev = RtoC 1) \/
    exists L, forall ev, FD ev = form_factor L (e_sym ev (sigma_sym k)) (e_sym ev (mass_sym i)) (e_sym ev (mass_sym j)) (e_sym ev radius_sym).
  Definition production_factor_shape (FP : env -> C) : Prop :=
    (forall ev, FP ev = RtoC 1) \/
    (~ no_production_barrier m c /\ exists L, forall ev, FP ev = form_factor L (e_sym ev (mass_sym 0)) (e_sym ev (sigma_sym k)) (e_sym ev (mass_sym k))
      (e_sym ev (named "R" (p_latex (s 0))))).

  Lemma function_fun nm f f' : function_of m nm f -> function_of m nm f' -> f = f'.
  Proof. intros A B. apply function_ok in A, B. congruence. Qed.
  Lemma further_total nm kk : forall chs (rest : list (dict string Qc)) n, length chs = length rest ->
    (forall q cd, nth_error rest q = Some cd -> exists vl, nth_error chs q = Some (nth_channel nm (sigma_sym kk) (named "m" nm) (named "R" nm) (n + Z.of_nat q) vl)) ->
    exists Ls, forall ev h, Csum chs (channel_value ev h) = further_widths ev kk nm n Ls.
  Proof.
    clear. induction chs as [|c chs IH]; intros [|cd rest] n Le Q; try discriminate Le.
    - exists []. reflexivity.
    - destruct (Q 0%nat cd eq_refl) as (vl & E). cbn [nth_error] in E. injection E as ->. rewrite Z.add_0_r.
      destruct (IH rest (n + 1)) as (Ls & X).
      { cbn in Le. lia. }
      { intros q cd' Eq. destruct (Q (S q) cd' Eq) as (vl' & E). exists vl'. cbn [nth_error] in E. rewrite E. do 2 f_equal. lia. }
      exists (vl :: Ls). intros ev0 h. rewrite Csum_eq_cons, X. cbn [further_widths]. reflexivity.
  Qed.
  Lemma propagator_shape p a b l1 : In p (cd_propagators c) -> pr_node p = [It a; It b] -> Permutation [a; b; k] [1; 2; 3] ->
    lineshape_of m name None p l1 -> exists W, width_shape a b W /\
      forall ev h, ceval ev h (de_expr l1) = bw_simple (e_sym ev (sigma_sym k)) (e_sym ev (named "m" name)) (W ev).
  Proof.
    intros Ip N P (f & b0 & Ff & Bf & E). destruct (proj1 Cc p Ip) as (f' & Ff' & Co).
    assert (f' = f) by exact (function_fun _ _ _ Ff' Ff). subst f'.
    destruct Bf as [(aa & Q & _)|(_ & Bf)]; [discriminate Q|].
    destruct Co as [(Ty & HN)|Co].
    - destruct Bf as [[_ ->]|[Q _]]; [|rewrite Q in Ty; discriminate Ty].
      destruct (HN "l") as (vl & E1); [cbn; auto 10|]. destruct (HN "mass") as (vm & E2); [cbn; auto 10|].
      destruct (HN "width") as (vw & E3); [cbn; auto 10|]. destruct (HN "ma") as (va & E4); [cbn; auto 10|].
      destruct (HN "mb") as (vb & E5); [cbn; auto 10|]. destruct (HN "d") as (vd & E6); [cbn; auto 10|].
      rewrite (bw_ok m p a b k name f N P Ff _ _ _ _ _ _ E1 E2 E3 E4 E5 E6) in E. injection E as <-.
      exists (fun ev => running_width two_body_phsp (int_of vl) (e_sym ev (sigma_sym k)) (e_sym ev (named "m" name)) (e_sym ev (named "\Gamma" name))
            (e_sym ev (mass_sym a)) (e_sym ev (mass_sym b)) (e_sym ev radius_sym)). split.
      + left. split; [exists p, f; auto|]. exists (int_of vl). intros ev. reflexivity.
      + intros ev h. cbn [de_expr]. refine (eq_trans (c38_running ev h _ _ _ _ _ _ _ _ _ phase_space_factor_value _) _); [right; left|]; reflexivity.
    - destruct Bf as [[Q _]|[_ ->]]; [destruct Co as (Ty & _); rewrite Q in Ty; discriminate Ty|].
      destruct (multi_ok m p a b k name f N P Ff Co)
        as (e & c0' & rest' & chs & vm' & vl & va & vb & vg & vd & E' & EC' & E1' & El & Ea & Eb & Eg & Ed & EE & LC & NC & _).
      rewrite E' in E. injection E as <-.
      destruct (further_total name k chs rest' 2 LC) as (Ls & X).
      { intros q cd Eq. destruct (NC q cd Eq) as (vl' & _ & _ & _ & _ & _ & _ & _ & Y & _). eauto. }
      exists (fun ev => (channel_formula (int_of vl) (e_sym ev (sigma_sym k)) (e_sym ev (named "m" name)) (e_sym ev (named "\Gamma" name))
              (e_sym ev (mass_sym a)) (e_sym ev (mass_sym b)) (e_sym ev (named "R" name))
            + further_widths ev k name 2 Ls)%C). split.
      + right. exists (int_of vl), Ls. intros ev. reflexivity.
      + intros ev h. rewrite EE, c38_multichannel, Csum_eq_cons, X. reflexivity.
  Qed.
  Lemma vertex_shape v e : complete_form_factor m v -> formulate_form_factor v m = Ok e ->
    (v_node v = [It i; It j] -> exists FD, decay_factor_shape FD /\ forall ev h, ceval ev h (de_expr e) = FD ev) /\
    (forall a b, In v (cd_vertices c) -> with_pair k [It a; It b] (v_node v) -> Permutation [a; b; k] [1; 2; 3] ->
       exists FP, production_factor_shape FP /\ forall ev h, ceval ev h (de_expr e) = FP ev).
  Proof.
    assert (U : forall ev h, ceval ev h (de_expr de_unit) = RtoC 1) by (intros; cbn [de_unit de_expr]; apply CNum_value).
    assert (G : (v_formfactor v = None \/ v_formfactor v = Some "") -> formulate_form_factor v m = Ok e -> 
      (exists FD, decay_factor_shape FD /\ forall ev h, ceval ev h (de_expr e) = FD ev) /\
      (exists FP, production_factor_shape FP /\ forall ev h, ceval ev h (de_expr e) = FP ev)).
    { intros Q E. rewrite (form_factor_none m v Q) in E. injection E as <-.
      split; exists (fun _ => RtoC 1); (split; [left; reflexivity|exact U]). }
    intros Co E. destruct Co as [Q|[Q|(nm & f & V & NE & Ff & Ty & HN)]].
    1, 2: destruct (G ltac:(auto) E) as [G1 G2]; split; intros; assumption.
    clear G. destruct (HN "l") as (vl & E1); [cbn; auto|]. destruct (HN "radius") as (vr & E2); [cbn; auto|].
    assert (P : Permutation [i; j; k] [1; 2; 3]) by exact (hd_perm m d s r tl None x w dyn H c Hc).
    split.
    - intros N. destruct (c57_decay_value m v nm f vl vr i j k (Env (fun _ => RtoC 0) (fun _ _ => RtoC 0)) (fun _ => 0) V NE Ff Ty E1 E2 N P) as (e' & E' & _).
      assert (e' = e) by congruence. subst e'.
      exists (fun ev => form_factor (int_of vl) (e_sym ev (sigma_sym k)) (e_sym ev (mass_sym i)) (e_sym ev (mass_sym j)) (e_sym ev radius_sym)).
      split; [right; exists (int_of vl); reflexivity|]. intros ev h.
      destruct (c57_decay_value m v nm f vl vr i j k ev h V NE Ff Ty E1 E2 N P) as (e' & E3 & X & _).
      assert (e' = e) by congruence. subst e'. exact X.
    - intros a b Iv N Pab.
      assert (X : forall ev h, ceval ev h (de_expr e) = form_factor (int_of vl) (e_sym ev (mass_sym 0)) (e_sym ev (sigma_sym k)) (e_sym ev (mass_sym k))
        (e_sym ev (named "R" (p_latex (s 0))))).
      { intros ev h. destruct (c57_production_value m d s r v nm f vl vr a b k ev h (hd_states _ _ _ _ _ _ _ _ _ H) V NE Ff Ty E1 E2 N Pab) as (e' & E3 & X & _).
        assert (e' = e) by congruence. subst e'. exact X. }
      exists (fun ev => form_factor (int_of vl) (e_sym ev (mass_sym 0)) (e_sym ev (sigma_sym k)) (e_sym ev (mass_sym k))
        (e_sym ev (named "R" (p_latex (s 0))))). split; [|exact X].
      destruct (Z.eq_dec (int_of vl) 0) as [Z0|NZ].
      + left. intros ev. rewrite Z0. apply form_factor_zero.
      + right. split; [|exists (int_of vl); reflexivity]. intros B. destruct (B v k _ Iv N) as [Q|[Q|(nm' & f' & Q & Ff' & L0)]]; try congruence.
        assert (nm' = nm) by congruence. subst nm'. rewrite (function_fun _ _ _ Ff' Ff) in L0.
        assert (vl = Q2Qc 0) by congruence. subst vl. apply NZ. reflexivity.
  Qed.
  Theorem builtin_shape : exists a b W FP FD, Permutation [a; b] [i; j] /\ width_shape a b W /\ production_factor_shape FP /\ decay_factor_shape FD /\
    forall ev h, ceval ev h (de_expr (dyn c)) =
      (bw_simple (e_sym ev (sigma_sym k)) (e_sym ev (named "m" name)) (W ev) * (FP ev * FD ev))%C.
  Proof.
    destruct (c70_dynamics m tl None c (dyn c)) as (ls & fs & L & Fs & V & _).
    { intros aa Q. discriminate Q. }
    { exact (hd_dynamics _ _ _ _ _ _ _ _ _ H c Hc). }
    destruct (hd_content _ _ _ _ _ _ _ _ _ H c Hc) as (vp & vd & T & _).
    destruct (tb_propagator _ _ _ _ _ _ _ T) as (p & a & b & Ep & _ & N & Pab).
    assert (P : Permutation [i; j; k] [1; 2; 3]) by exact (hd_perm m d s r tl None x w dyn H c Hc).
    assert (Pk : forall a b, Permutation [a; b] [i; j] -> Permutation [a; b; k] [1; 2; 3]).
    { intros a' b' Q. apply (Permutation_trans (l' := [i; j; k])); [|exact P]. exact (Permutation_app_tail [k] Q). }
    rewrite Ep in L. inversion L as [|? l1 ? ? L1 L2]; subst. inversion L2; subst.
    destruct (propagator_shape p a b l1) as (W & SW & VW).
    { rewrite Ep. left. reflexivity. }
    { exact N. } { exact (Pk a b Pab). } { exact L1. }
    destruct (tb_production _ _ _ _ _ _ _ T) as (a' & b' & Np & Pp).
    assert (X : exists f1 f2, fs = [f1; f2] /\ ((formulate_form_factor vp m = Ok f1 /\ formulate_form_factor vd m = Ok f2) \/
      (formulate_form_factor vd m = Ok f1 /\ formulate_form_factor vp m = Ok f2))).
    { destruct (tb_vertices _ _ _ _ _ _ _ T) as [Ev|Ev]; rewrite Ev in Fs; inversion Fs as [|? f1 ? ? X1 X2]; subst;
        inversion X2 as [|? f2 ? ? X3 X4]; subst; inversion X4; subst; eauto 8. }
    assert (Iv : In vp (cd_vertices c) /\ In vd (cd_vertices c)) by (destruct (tb_vertices _ _ _ _ _ _ _ T) as [Ev|Ev]; rewrite Ev; cbn; auto).
    destruct Iv as [Ivp Ivd].
    assert (Y : exists ep ed, formulate_form_factor vp m = Ok ep /\ formulate_form_factor vd m = Ok ed /\
      forall ev h, product (map (fun y => ceval ev h (de_expr y)) fs) = (ceval ev h (de_expr ep) * ceval ev h (de_expr ed))%C).
    { destruct X as (f1 & f2 & -> & [[A B]|[A B]]); [exists f1, f2|exists f2, f1]; (split; [assumption|]); (split; [assumption|]);
        intros ev h; cbn [map product]; ring. }
    destruct Y as (ep & ed & Fp & Fd & Y).
    destruct (proj2 (vertex_shape vp ep (proj2 Cc vp Ivp) Fp) a' b' Ivp Np (Pk _ _ Pp)) as (FP & SP & VP).
    destruct (proj1 (vertex_shape vd ed (proj2 Cc vd Ivd) Fd) (tb_decay _ _ _ _ _ _ _ T)) as (FD & SD & VD).
    exists a, b, W, FP, FD. do 4 (split; [assumption|]). intros ev h. rewrite V. cbn [app map product].
    rewrite Y, VW, VP, VD. ring.
  Qed.
End Builtin.

(** ** Units *)
Lemma RtoC_cancel t : (0 < t)%R -> (RtoC t * RtoC (/ t))%C = RtoC 1.
Proof. intros T0. rewrite <- RtoC_mult. f_equal. field. lra. Qed.
Lemma running_scale t L s m G a b r : (0 < t)%R ->
  running_width two_body_phsp L (RtoC (t * t) * s)%C (RtoC t * m)%C (RtoC t * G)%C (RtoC t * a)%C (RtoC t * b)%C (RtoC (/ t) * r)%C
  = (RtoC t * running_width two_body_phsp L s m G a b r)%C.
Proof.
  intros T0. unfold running_width.
  replace (RtoC t * m * (RtoC t * m))%C with (RtoC (t * t) * (m * m))%C by (rewrite RtoC_mult; ring).
  rewrite !form_factor_scale, !two_body_phsp_scale by exact T0. ring.
Qed.
Lemma channel_scale t L s m g a b r : (0 < t)%R ->
  channel_formula L (RtoC (t * t) * s)%C (RtoC t * m)%C (RtoC t * g)%C (RtoC t * a)%C (RtoC t * b)%C (RtoC (/ t) * r)%C
  = (RtoC t * channel_formula L s m g a b r)%C.
Proof.
  intros T0. unfold channel_formula. rewrite form_factor_scale, csqrt_scale by lra. unfold Cdiv. rewrite Cinv_mult, Cinv_RtoC.
  transitivity ((RtoC t * RtoC (/ t)) * (RtoC t * (g * m * / csqrt s * (form_factor L s a b r * form_factor L s a b r))))%C; [ring|].
  rewrite RtoC_cancel by exact T0. ring.
Qed.
Section Units.
  Variables (m : model_def) (d : distribution) (s : Z -> state) (r : Z) (tl : string -> string)
    (x : chain_def -> content) (w : chain_def -> symbol) (dyn : chain_def -> defexpr).
  Hypothesis H : helicity_definition m d s r tl None x w dyn.
  Hypothesis Cc : forall c, In c (di_chains d) -> complete_chain m c /\ no_production_barrier m c.
  Lemma units_chain t base base' cpl cpl' c : (0 < t)%R -> serial_units tl w (di_chains d) t base base' -> In c (di_chains d) ->
    chain_strength w dyn base' cpl' c = (RtoC (/ (t * t)) * chain_strength w dyn base cpl c)%C.
  Proof.
    intros T0 [(Sm & Ss) U] Hc. destruct (U c Hc) as (Uw & Um & Ur). destruct (Cc c Hc) as [C1 C2].
    destruct (builtin_shape m d s r tl x w dyn H c Hc C1) as (a & b & W & FP & FD & Pab & SW & SP & SD & V).
    pose proof (hd_perm m d s r tl None x w dyn H c Hc) as P.
    assert (I : forall n, In n [ct_i (x c); ct_j (x c); ct_k (x c)] -> In n [1; 2; 3]) by (intros n Hn; exact (Permutation_in n P Hn)).
    assert (Iab : forall n, In n [a; b] -> In n [ct_i (x c); ct_j (x c); ct_k (x c)]).
    { intros n Hn. apply (Permutation_in n Pab) in Hn. cbn in Hn |- *. tauto. }
    assert (Sig : base' (sigma_sym (ct_k (x c))) = (RtoC (t * t) * base (sigma_sym (ct_k (x c))))%C) by (apply Ss, I; cbn; auto).
    assert (Sm' : forall n, In n [ct_i (x c); ct_j (x c); ct_k (x c)] -> base' (mass_sym n) = (RtoC t * base (mass_sym n))%C).
    { intros n Hn. apply Sm. right. apply I. exact Hn. }
    set (nm := tl (cd_name c)) in *.
    assert (EM : base' (named "m" nm) = (RtoC t * base (named "m" nm))%C) by (apply Um; left; left; reflexivity).
    assert (EG : base' (named "\Gamma" nm) = (RtoC t * base (named "\Gamma" nm))%C) by (apply Um; right; left; reflexivity).
    assert (ER : base' (named "R" nm) = (RtoC (/ t) * base (named "R" nm))%C) by (apply Ur; right; reflexivity).
    assert (ED : base' radius_sym = (RtoC (/ t) * base radius_sym)%C) by (apply Ur; left; reflexivity).
    assert (EW : W (Env base' cpl') = (RtoC t * W (Env base cpl))%C).
    { destruct SW as [(_ & L & E)|(L0 & Ls & E)].
      - rewrite !E. cbn [e_sym]. fold nm. rewrite Sig, EM, EG, ED, !Sm' by (apply Iab; cbn; auto). apply running_scale. exact T0.
      - rewrite !E. cbn [e_sym]. fold nm. rewrite Sig, EM, EG, ER, !Sm' by (apply Iab; cbn; auto). rewrite channel_scale by exact T0.
        assert (X : forall Ls n, further_widths (Env base' cpl') (ct_k (x c)) nm n Ls = (RtoC t * further_widths (Env base cpl) (ct_k (x c)) nm n Ls)%C).
        { clear - T0 Sig EM ER Um. induction Ls as [|L Ls IH]; intros n; cbn [further_widths e_sym].
          - ring.
          - rewrite IH, Sig, EM, ER.
            rewrite (Um (channel_width_sym nm n)) by (right; right; eauto).
            rewrite (Um (channel_mass_sym "a" n)) by (left; right; eauto).
            rewrite (Um (channel_mass_sym "b" n)) by (left; right; eauto).
            rewrite channel_scale by exact T0. ring. }
        rewrite X. ring. }
    assert (EP : FP (Env base' cpl') = FP (Env base cpl)).
    { destruct SP as [E|[N _]]; [rewrite !E; reflexivity|contradiction]. }
    assert (EF : FD (Env base' cpl') = FD (Env base cpl)).
    { destruct SD as [E|(L & E)]; rewrite !E; [reflexivity|]. cbn [e_sym]. rewrite Sig, ED, !Sm' by (cbn; auto). apply form_factor_scale. exact T0. }
    unfold chain_strength. rewrite !V. cbn [e_sym]. fold nm. rewrite EW, EP, EF, Uw, Sig, EM, bw_scale by exact T0. ring.
  Qed.
  Theorem serial_units_intensity cl M t base base' cpl cpl' : SerAmplitude.formulate m cl tl None = Ok M ->
    (0 < t)%R -> serial_units tl w (di_chains d) t base base' ->
    full_value (at_point (m_variables M) base' cpl') M = (RtoC (/ t ^ 4) * full_value (at_point (m_variables M) base cpl) M)%C.
  Proof.
    intros F T0 U.
    rewrite (related_intensity m d s r tl None x w dyn H cl M F t base base' cpl cpl' (/ (t * t))%R (RtoC 1) false T0 (proj1 U)).
    - f_equal. f_equal. field. lra.
    - rewrite Cmod_R. apply Rabs_R1.
    - intros c Hc. rewrite (units_chain t base base' cpl cpl' c T0 U Hc). unfold common_phase. ring.
  Qed.
End Units.

(** ** Opposite widths *)
Lemma real_of z : Im z = 0%R -> z = RtoC (Re z).
Proof. destruct z as [a b]. cbn. intros ->. reflexivity. Qed.
Lemma real_mult y z : Im y = 0%R -> Im z = 0%R -> Im (y * z)%C = 0%R.
Proof. intros A B. rewrite (real_of y A), (real_of z B), <- RtoC_mult. reflexivity. Qed.
Lemma real_inv z : Im z = 0%R -> Im (/ z)%C = 0%R.
Proof. intros A. rewrite (real_of z A), Cinv_RtoC. reflexivity. Qed.
Lemma real_plus y z : Im y = 0%R -> Im z = 0%R -> Im (y + z)%C = 0%R.
Proof. intros A B. rewrite (real_of y A), (real_of z B), <- RtoC_plus. reflexivity. Qed.
Lemma ff_square_real L s a b r : Im s = 0%R -> Im a = 0%R -> Im b = 0%R -> Im r = 0%R ->
  Im (form_factor L s a b r * form_factor L s a b r)%C = 0%R.
Proof.
  intros A B D E. unfold form_factor. rewrite csqrt_square.
  rewrite (real_of s A), (real_of a B), (real_of b D), (real_of r E), breakup_real, <- !RtoC_mult.
  unfold blatt_weisskopf_squared, Cdiv. rewrite !bw_poly_real, cpow_real, Cinv_RtoC, <- !RtoC_mult. reflexivity.
Qed.

Section Opposite.
  Variables (m : model_def) (d : distribution) (s : Z -> state) (r : Z) (tl : string -> string)
    (x : chain_def -> content) (w : chain_def -> symbol) (dyn : chain_def -> defexpr).
  Hypothesis H : helicity_definition m d s r tl None x w dyn.
  Hypothesis Cc : forall c, In c (di_chains d) -> complete_chain m c /\ no_production_barrier m c.
  Variables (base base' : symbol -> C) (cpl cpl' : string -> list ival -> C).
  Hypothesis O : opposite_serial_widths tl w (di_chains d) base base'.
  Hypothesis Ph : physical (fun y => Re (base y)).
  Hypothesis Ns : nonsingular (fun y => Re (base y)).
  Hypothesis Th : forall c, In c (di_chains d) -> above_threshold m tl x base c.
  Lemma pair_point a b k : Permutation [a; b; k] [1; 2; 3] ->
    (0 <= Re (base (mass_sym a)))%R /\ (0 <= Re (base (mass_sym b)))%R /\
    ((Re (base (mass_sym a)) + Re (base (mass_sym b))) * (Re (base (mass_sym a)) + Re (base (mass_sym b))) < Re (base (sigma_sym k)))%R.
  Proof.
    intros P. destruct (thresholds (fun y => Re (base y)) Ph Ns) as (M0 & M1 & M2 & M3 & T1 & T2 & T3).
    apply perm_123 in P. unfold at_m1, at_m2, at_m3, at_s1, at_s2, at_s3 in *. cbn [In] in P.
    change (Sym "m1" ANonneg) with (mass_sym 1) in *. change (Sym "m2" ANonneg) with (mass_sym 2) in *. change (Sym "m3" ANonneg) with (mass_sym 3) in *.
    change (Sym "sigma1" ANonneg) with (sigma_sym 1) in *. change (Sym "sigma2" ANonneg) with (sigma_sym 2) in *.
    change (Sym "sigma3" ANonneg) with (sigma_sym 3) in *.
    repeat (destruct P as [E|P]; [injection E as <- <- <-; repeat split; try assumption; lra|]). destruct P.
  Qed.
  Lemma opposite_chain c : In c (di_chains d) ->
    chain_strength w dyn base' cpl' c = Cconj (chain_strength w dyn base cpl c).
  Proof.
    intros Hc. destruct O as ((Sm & Ss) & Rm & Rs & U). destruct (U c Hc) as (Uw & Um & Ug). destruct (Cc c Hc) as [C1 C2].
    destruct (builtin_shape m d s r tl x w dyn H c Hc C1) as (a & b & W & FP & FD & Pab & SW & SP & SD & V).
    pose proof (hd_perm m d s r tl None x w dyn H c Hc) as P.
    set (i := ct_i (x c)) in *. set (j := ct_j (x c)) in *. set (k := ct_k (x c)) in *.
    assert (Pk : Permutation [a; b; k] [1; 2; 3]) by exact (Permutation_trans (Permutation_app_tail [k] Pab) P).
    assert (I : forall n, In n [i; j; k] -> In n [1; 2; 3]) by (intros n Hn; exact (Permutation_in n P Hn)).
    assert (Iab : forall n, In n [a; b] -> In n [i; j; k]).
    { intros n Hn. apply (Permutation_in n Pab) in Hn. cbn in Hn |- *. tauto. }
    assert (one : forall z, (RtoC 1 * z)%C = z) by (intros; ring).
    assert (Sig : base' (sigma_sym k) = base (sigma_sym k)) by (rewrite (Ss k), Rmult_1_r by (apply I; cbn; auto); apply one).
    assert (Rsig : Im (base (sigma_sym k)) = 0%R) by (apply Rs, I; cbn; auto).
    assert (Sm' : forall n, In n [i; j; k] -> base' (mass_sym n) = base (mass_sym n)).
    { intros n Hn. rewrite Sm by (right; apply I; exact Hn). apply one. }
    assert (Rm' : forall n, In n [i; j; k] -> Im (base (mass_sym n)) = 0%R).
    { intros n Hn. apply Rm. right. apply I. exact Hn. }
    set (nm := tl (cd_name c)) in *.
    destruct (Um (named "m" nm)) as [EM RM]; [left; left; reflexivity|].
    destruct (Ug (named "\Gamma" nm)) as [EG RG]; [left; reflexivity|].
    destruct (Um (named "R" nm)) as [ER RR]; [right; right; reflexivity|].
    destruct (Um radius_sym) as [ED RD]; [right; left; reflexivity|].
    destruct (pair_point i j k P) as (Mi & Mj & Tij). destruct (pair_point a b k Pk) as (Ma & Mb & Tab).
    assert (S0 : (0 < Re (base (sigma_sym k)))%R) by nra.
    assert (EW : W (Env base' cpl') = (- W (Env base cpl))%C /\ Im (W (Env base cpl)) = 0%R).
    { destruct SW as [(BW & L & E)|(L0 & Ls & E)].
      - rewrite !E. cbn [e_sym]. fold nm k. rewrite Sig, EM, EG, ED, !Sm' by (apply Iab; cbn; auto). split.
        + unfold running_width. ring.
        + unfold running_width. fold nm in Th.
          assert (T : (Re (base (mass_sym a)) + Re (base (mass_sym b)) < Re (base (named "m" nm)))%R).
          { pose proof (Th c Hc BW) as T. fold i j nm in T. destruct (Permutation_length_2_inv Pab) as [Q|Q]; injection Q as Qi Qj; rewrite Qi, Qj in T; lra. }
          assert (FF : forall z, Im z = 0%R -> Im (form_factor L z (base (mass_sym a)) (base (mass_sym b)) (base radius_sym) *
            form_factor L z (base (mass_sym a)) (base (mass_sym b)) (base radius_sym))%C = 0%R).
          { intros z Hz. apply ff_square_real; try assumption; apply Rm', Iab; cbn; auto. }
          assert (PS : forall z, Im z = 0%R -> ((Re (base (mass_sym a)) + Re (base (mass_sym b))) * (Re (base (mass_sym a)) + Re (base (mass_sym b))) < Re z)%R ->
            Im (two_body_phsp z (base (mass_sym a)) (base (mass_sym b))) = 0%R).
          { intros z Hz Tz. rewrite (real_of z Hz), (real_of (base (mass_sym a))), (real_of (base (mass_sym b))) by (apply Rm', Iab; cbn; auto).
            destruct (phsp_pos (Re z) _ _ Ma Mb Tz) as (y & _ & ->). reflexivity. }
          assert (R2 : Im (base (named "m" nm) * base (named "m" nm))%C = 0%R) by (apply real_mult; assumption).
          unfold Cdiv. apply real_mult; [apply real_mult; [exact RG|]|]; (apply real_mult; [|apply real_inv]); auto.
          apply PS; [exact R2|]. rewrite (real_of _ RM), <- RtoC_mult. cbn [RtoC Re fst]. nra.
      - assert (CF : forall L g ma mb, Im g = 0%R -> Im ma = 0%R -> Im mb = 0%R ->
          channel_formula L (base (sigma_sym k)) (base (named "m" nm)) (- g)%C ma mb (base (named "R" nm))
          = (- channel_formula L (base (sigma_sym k)) (base (named "m" nm)) g ma mb (base (named "R" nm)))%C /\
          Im (channel_formula L (base (sigma_sym k)) (base (named "m" nm)) g ma mb (base (named "R" nm))) = 0%R).
        { intros L g ma mb Rg Ra Rb. unfold channel_formula. split; [unfold Cdiv; ring|].
          apply real_mult; [|apply ff_square_real; assumption]. unfold Cdiv. apply real_mult; [apply real_mult; assumption|].
          apply real_inv. rewrite (real_of _ Rsig), csqrt_nonneg by lra. reflexivity. }
        assert (X : forall Ls n, further_widths (Env base' cpl') k nm n Ls = (- further_widths (Env base cpl) k nm n Ls)%C /\
          Im (further_widths (Env base cpl) k nm n Ls) = 0%R).
        { clear - Sig EM ER Um Ug CF. induction Ls as [|L Ls IH]; intros n; cbn [further_widths e_sym].
          - split; [ring|reflexivity].
          - destruct (Ug (channel_width_sym nm n)) as [Eg Rg]; [right; eauto|].
            destruct (Um (channel_mass_sym "a" n)) as [Ea Ra]; [left; right; eauto|].
            destruct (Um (channel_mass_sym "b" n)) as [Eb Rb]; [left; right; eauto|].
            destruct (CF L _ _ _ Rg Ra Rb) as [C1 C2]. destruct (IH (n + 1)) as [I1 I2].
            rewrite I1, Sig, EM, ER, Eg, Ea, Eb, C1. split; [ring|]. apply real_plus; assumption. }
        rewrite !E. cbn [e_sym]. fold nm k. rewrite Sig, EM, EG, ER, !Sm' by (apply Iab; cbn; auto).
        destruct (CF L0 _ _ _ RG (Rm' a ltac:(apply Iab; cbn; auto)) (Rm' b ltac:(apply Iab; cbn; auto))) as [C3 C4].
        destruct (X Ls 2) as [X1 X2]. rewrite C3, X1. split; [ring|]. apply real_plus; assumption. }
    assert (EP : FP (Env base' cpl') = RtoC 1 /\ FP (Env base cpl) = RtoC 1).
    { destruct SP as [E|[N _]]; [rewrite !E; auto|contradiction]. }
    assert (EF : FD (Env base' cpl') = FD (Env base cpl) /\ Im (FD (Env base cpl)) = 0%R).
    { destruct SD as [E|(L & E)]; rewrite !E; [auto|]. cbn [e_sym]. fold i j k. rewrite Sig, ED, !Sm' by (cbn; auto). split; [reflexivity|].
      rewrite (real_of _ Rsig), (real_of _ RD), (real_of _ (Rm' i ltac:(cbn; auto))), (real_of _ (Rm' j ltac:(cbn; auto))).
      rewrite form_factor_bsq; [reflexivity|]. apply Rmult_le_pos; [|apply Rle_0_sqr]. apply rbreakup_sign; lra. }
    destruct EW as [EW RW], EP as [EP1 EP2], EF as [EF RF].
    unfold chain_strength. rewrite !V. cbn [e_sym]. fold nm k. rewrite EW, EP1, EP2, EF, Uw, Sig, EM, bw_opposite by assumption.
    rewrite (real_of _ RF). apply injective_projections; cbn; ring.
  Qed.
  Theorem opposite_intensity cl M : SerAmplitude.formulate m cl tl None = Ok M ->
    full_value (at_point (m_variables M) base' cpl') M = full_value (at_point (m_variables M) base cpl) M.
  Proof.
    intros F.
    rewrite (related_intensity m d s r tl None x w dyn H cl M F 1 base base' cpl cpl' 1 (RtoC 1) true Rlt_0_1 (proj1 O)).
    - rewrite Rmult_1_r. ring.
    - rewrite Cmod_R. apply Rabs_R1.
    - intros c Hc. rewrite (opposite_chain c Hc). unfold common_phase. ring.
  Qed.
End Opposite.
