(** Serialised models have derivatives (proofs for C139) *)
From Coq Require Import String ZArith QArith Qcanon Qreals List Bool Reals Lia Lra Psatz Permutation Sorted.
From Coquelicot Require Import Coquelicot.
From Verif Require Import Prelude AnglesFacts Spin Decay Expr Angles Sums Wigner CG CExpr SpecKin SpecDPD Builder
  SpinFacts DecayFacts CExprFacts BuilderFacts ModelFacts KinFacts AnglesProofs Dynamics SpecDynamics DynamicsProofs LineshapeFacts LineshapeProofs
  SpecFinite FiniteFacts FiniteShapes SpecContinuity ContinuityFacts ContinuityProofs HankelFacts SpecObs SerFormat SerDynamics
  SerAmplitude SpecSerial SpecSerialShapes SerDecay SerAmpFacts SerModel SerProofs SerDyn SerShapes SerFormal SpecWeights SerWeights SerSymbols
  SpecPropagators SerPropagators SerTotal SpecSerPoints SerPoints SpecSerFinite SerFinite
  SpecWigner MasslessFacts SpecSmooth SmoothFacts SmoothAngles SmoothProofs SpecSerSmooth.
Import ListNotations.
Local Open Scope string_scope.
Local Open Scope Z_scope.
Local Open Scope list_scope.


Local Opaque rsmooth_at.

(** ** Roots in the lineshapes of serialised models *)
Section Roots.
  Variables (ev : env) (h : symbol -> Z).
  Notation nb := (no_branch_point ev h).
  Lemma nb_fold xs : (forall y, In y xs -> nb (de_expr y)) -> forall e0, nb (de_expr e0) ->
    nb (de_expr (fold_left (fun e x => de_mul e (MulDef x)) xs e0)).
  Proof.
    induction xs as [|y xs IH]; intros A e0 B; cbn [fold_left]; [exact B|].
    apply IH; [intros; apply A; right; auto|]. cbn [de_mul de_expr]. apply nb_mul; auto. apply A. left. reflexivity.
  Qed.
  Lemma nb_addl l : (forall e, In e l -> nb e) -> nb (CAddL l).
  Proof.
    induction l as [|e l IH]; intros A; [intros z []|]. cbn [CAddL]. intros z Hz. cbn [radicands] in Hz. apply in_app_or in Hz.
    destruct Hz as [Hz|Hz]; [exact (A e (or_introl eq_refl) z Hz)|]. exact (IH (fun e' I => A e' (or_intror I)) z Hz).
  Qed.
  Lemma nb_simple es em eG : nb es -> nb em -> nb eG -> nb (simple_breit_wigner es em eG).
  Proof.
    intros A B D. unfold simple_breit_wigner. apply nb_div; [intros z []|].
    apply nb_sub; [apply nb_sub; auto; exact B|]. apply nb_mul; [apply nb_mul; auto|intros z []].
  Qed.
  Lemma nb_ff0 a b c y : nb (CFormFactor (CVar a) (CVar b) (CVar c) 0 (CVar y)).
  Proof.
    intros z. cbn [radicands app In]. intros [<-|[]]. change (Z.to_nat 0) with 0%nat. set (q := (_ * _)%C).
    assert (E : blatt_weisskopf_squared 0 q = RtoC 1).
    { unfold blatt_weisskopf_squared, bw_poly. cbn [seq Csum cpow]. rewrite !Cplus_0_r, !Cmult_1_r. unfold Cdiv. rewrite ?Cmult_1_l. apply Cinv_r.
      intros E. apply RtoC_inj in E. pose proof (bw_coeff_pos 0 0). lra. }
    rewrite E. apply pos_branch. lra.
  Qed.
  Lemma nb_channel es em eg ea eb er s a b r L : real_ev ev h (CVar es) s -> real_ev ev h (CVar ea) a -> real_ev ev h (CVar eb) b -> real_ev ev h (CVar er) r ->
    (0 < s)%R -> L = 0 \/ (0 < rbreakup s a b /\ r <> 0)%R ->
    nb (channel_width (Channel (CVar es) (CVar em) (CVar eg) (CVar ea) (CVar eb) L (CVar er))).
  Proof.
    assert (er' : forall e v, real_ev ev h (CVar e) v -> real_er ev h (CVar e) v) by (intros e v [A _]; split; [exact A|reflexivity]).
    intros Es Ea Eb Er S0 Q. unfold channel_width. cbn [cn_width cn_m0 cn_s cn_m1 cn_m2 cn_L cn_radius]. apply nb_mul.
    - apply nb_div; [intros z []|]. intros z. cbn [radicands In]. intros [<-|[]]. rewrite (proj1 Es). apply pos_branch. exact S0.
    - exact (ff_branch ev h _ _ _ _ s a b r L (er' _ _ Es) (er' _ _ Ea) (er' _ _ Eb) (er' _ _ Er) S0 Q).
  Qed.
End Roots.

Section Regular.
  Variables (m : model_def) (d : distribution) (s : Z -> state) (r : Z) (tl : string -> string)
    (x : chain_def -> content) (w : chain_def -> symbol) (dyn : chain_def -> defexpr).
  Hypothesis H : helicity_definition m d s r tl None x w dyn.
  Variables (base : symbol -> C).
  Hypothesis Ph : physical (fun y => Re (base y)).
  Hypothesis Ns : nonsingular (fun y => Re (base y)).
  Variable c : chain_def.
  Hypothesis Hc : In c (di_chains d).
  Hypothesis Rg : smooth_serial m tl x base c.
  Variables (ev : env) (h : symbol -> Z).
  Hypothesis Ev : forall y, sassume y = ANonneg -> e_sym ev y = base y.
  Let name := tl (cd_name c).
  Let k := ct_k (x c).

  Lemma smooth_branch : no_branch_point ev h (de_expr (dyn c)).
  Proof.
    destruct Rg as ((Cc & NB & (Rl & M0 & G0 & D0 & R0) & Th & Ch0) & Ch).
    assert (er : forall e v, real_ev ev h (CVar e) v -> real_er ev h (CVar e) v) by (intros e v [A _]; split; [exact A|reflexivity]). fold name k in Rl, M0, G0, R0.
    destruct (hd_dynamics _ _ _ _ _ _ _ _ _ H c Hc) as (e & E1 & E2).
    apply (loop_split m (tl (cd_name c)) None) in E1; [|intros aa Q; discriminate Q]. destruct E1 as (ls & L & ->).
    apply form_factors_split in E2. destruct E2 as (fs & Fs & ->). rewrite <- fold_left_app. apply nb_fold; [|intros z []].
    pose proof (hd_perm m d s r tl None x w dyn H c Hc) as P. fold k in P.
    assert (Pk : forall a b, Permutation [a; b] [ct_i (x c); ct_j (x c)] -> Permutation [a; b; k] [1; 2; 3]).
    { intros a b Q. exact (Permutation_trans (Permutation_app_tail [k] Q) P). }
    assert (V : forall y, sassume y = ANonneg -> Im (base y) = 0%R -> real_ev ev h (CVar y) (Re (base y))).
    { intros y A B. split; [|reflexivity]. cbn [ceval]. rewrite (Ev y A). apply real_of. exact B. }
    assert (Vs : real_ev ev h (CVar (sigma_sym k)) (Re (base (sigma_sym k)))) by (apply V; [reflexivity|apply Rl; left; left; reflexivity]).
    assert (Vm : forall n, In n [1; 2; 3] -> real_ev ev h (CVar (mass_sym n)) (Re (base (mass_sym n)))).
    { intros n In'. apply V; [reflexivity|]. apply Rl. left. right. apply in_map. right. exact In'. }
    assert (VM : real_ev ev h (CVar (named "m" name)) (Re (base (named "m" name)))) by (apply V; [reflexivity|apply Rl; right; left; left; reflexivity]).
    assert (VG : real_ev ev h (CVar (named "\Gamma" name)) (Re (base (named "\Gamma" name)))) by (apply V; [reflexivity|apply Rl; right; right; left; left; reflexivity]).
    assert (VD : real_ev ev h (CVar radius_sym) (Re (base radius_sym))) by (apply V; [reflexivity|apply Rl; right; right; right; left; reflexivity]).
    assert (VR : real_ev ev h (CVar (named "R" name)) (Re (base (named "R" name)))) by (apply V; [reflexivity|apply Rl; right; right; right; right; reflexivity]).
    destruct (hd_content _ _ _ _ _ _ _ _ _ H c Hc) as (vp & vd & T & _).
    intros y Hy. apply in_app_or in Hy. destruct Hy as [Hy|Hy].
    - (* lineshapes *)
      destruct (tb_propagator _ _ _ _ _ _ _ T) as (p & a & b & Ep & _ & N & Pab).
      rewrite Ep in L. inversion L as [|? l1 ? ? L1 L2]; subst. inversion L2; subst. destruct Hy as [<-|[]].
      assert (Ip : In p (cd_propagators c)) by (rewrite Ep; left; reflexivity).
      destruct (pair_point base Ph Ns a b k (Pk a b Pab)) as (Ma & Mb & Tab).
      assert (S0 : (0 < Re (base (sigma_sym k)))%R) by nra.
      assert (Q : (0 <= rbreakup (Re (base (sigma_sym k))) (Re (base (mass_sym a))) (Re (base (mass_sym b))))%R) by (apply rbreakup_sign; lra).
      assert (Ia : In a [1; 2; 3]) by (apply (Permutation_in a (Pk a b Pab)); cbn; auto).
      assert (Ib : In b [1; 2; 3]) by (apply (Permutation_in b (Pk a b Pab)); cbn; auto).
      destruct L1 as (f & b0 & Ff & Bf & E). fold name in E. destruct (proj1 Cc p Ip) as (f' & Ff' & Co).
      assert (f' = f) by exact (function_fun m _ _ _ Ff' Ff). subst f'.
      destruct Bf as [(aa & Qx & _)|(_ & Bf)]; [discriminate Qx|].
      destruct Co as [(Ty & HN)|Co].
      + destruct Bf as [[_ ->]|[Qx _]]; [|rewrite Qx in Ty; discriminate Ty].
        destruct (HN "l") as (vl & E1); [cbn; auto 10|]. destruct (HN "mass") as (vm & E2); [cbn; auto 10|].
        destruct (HN "width") as (vw & E3); [cbn; auto 10|]. destruct (HN "ma") as (va & E4); [cbn; auto 10|].
        destruct (HN "mb") as (vb & E5); [cbn; auto 10|]. destruct (HN "d") as (vd' & E6); [cbn; auto 10|].
        rewrite (bw_ok m p a b k name f N (Pk a b Pab) Ff _ _ _ _ _ _ E1 E2 E3 E4 E5 E6) in E. injection E as <-. cbn [de_expr].
        assert (Tm : (Re (base (mass_sym a)) + Re (base (mass_sym b)) < Re (base (named "m" name)))%R).
        { assert (BW : exists p f, In p (cd_propagators c) /\ function_of m (pr_parametrization p) f /\ fd_type f = "BreitWigner") by eauto.
          pose proof (Th BW) as Tm. fold name in Tm. destruct (Permutation_length_2_inv Pab) as [Qx|Qx]; injection Qx as Qi Qj; rewrite Qi, Qj in Tm; lra. }
        unfold breit_wigner.
        replace (breit_wigner_width (CVar (sigma_sym k)) (CVar (named "m" name)) (CVar (named "\Gamma" name)) (CVar (mass_sym a)) (CVar (mass_sym b))
          (int_of vl) (CVar radius_sym) phase_space_factor)
          with (energy_dependent_width (CVar (sigma_sym k)) (CVar (named "m" name)) (CVar (named "\Gamma" name)) (CVar (mass_sym a)) (CVar (mass_sym b))
          (int_of vl) (CVar radius_sym) phase_space_factor)
          by (unfold breit_wigner_width; cbn [is_zero]; rewrite !andb_false_r; reflexivity).
        apply nb_simple; [intros z []|intros z []|].
        exact (width_branch ev h _ _ _ _ _ _ _ _ _ _ _ _ (int_of vl) (er _ _ Vs) (er _ _ VM) (er _ _ VG) (er _ _ (Vm a Ia)) (er _ _ (Vm b Ib)) (er _ _ VD) ltac:(lra) Ma Mb Tab Tm).
      + destruct Bf as [[Qx _]|[_ ->]]; [destruct Co as (Ty & _); rewrite Qx in Ty; discriminate Ty|].
        destruct (multi_ok m p a b k name f N (Pk a b Pab) Ff Co)
          as (e' & c0' & rest' & chs & vm' & vl & va & vb & vg & vd' & E' & EC' & E1' & El & Ea & Eb & Eg & Ed & EE & LC & NC & _).
        rewrite E' in E. injection E as <-. rewrite EE, multichannel_simple.
        apply nb_simple; [intros z []|intros z []|]. apply nb_addl. intros e Ie. apply in_map_iff in Ie. destruct Ie as (c' & <- & [<-|Ich]).
        * apply (nb_channel ev h _ _ _ _ _ _ _ _ _ _ (int_of vl) Vs (Vm a Ia) (Vm b Ib) VR S0). right. split; [apply rbreakup_strict; assumption|lra].
        * apply In_nth_error in Ich. destruct Ich as (q & Eq).
          assert (Lq : (q < length rest')%nat) by (rewrite <- LC; apply nth_error_Some; congruence).
          destruct (nth_error rest' q) as [cd|] eqn:Er; [|apply nth_error_None in Er; lia].
          destruct (NC q cd Er) as (vl' & va' & vb' & vg' & Dl & _ & _ & _ & Y & _). rewrite Y in Eq. injection Eq as <-.
          destruct (Ch0 p f c0' rest' q cd Ip Ff EC' Er) as ((Cg & Ca & Cb) & _). fold name k in Cg, Ca, Cb.
          pose proof (Ch p f c0' rest' q cd Ip Ff EC' Er) as Op. cbv zeta in Op. fold k in Op.
          set (n := 2 + Z.of_nat q) in *.
          assert (Va : real_ev ev h (CVar (channel_mass_sym "a" n)) (Re (base (channel_mass_sym "a" n)))) by (apply V; [reflexivity|apply Rl; right; left; right; eauto]).
          assert (Vb : real_ev ev h (CVar (channel_mass_sym "b" n)) (Re (base (channel_mass_sym "b" n)))) by (apply V; [reflexivity|apply Rl; right; left; right; eauto]).
          apply (nb_channel ev h _ _ _ _ _ _ _ _ _ _ (int_of vl') Vs Va Vb VR S0).
          destruct Op as [O|O]; [left|right].
          -- assert (vl' = Q2Qc 0) by congruence. subst vl'. reflexivity.
          -- split; [apply rbreakup_strict; assumption|lra].
    - (* form factors *)
      assert (Iv : exists v, In v (cd_vertices c) /\ formulate_form_factor v m = Ok y).
      { clear - Fs Hy. induction Fs as [|v f vs fs' E Fs IH]; [destruct Hy|]. destruct Hy as [->|Hy]; [exists v; split; [left; reflexivity|exact E]|].
        destruct (IH Hy) as (v' & I' & E'). exists v'. split; [right; exact I'|exact E']. }
      destruct Iv as (v & Iv & E).
      destruct (tb_production _ _ _ _ _ _ _ T) as (a' & b' & Np & Pp).
      assert (Vv : v = vp \/ v = vd) by (destruct (tb_vertices _ _ _ _ _ _ _ T) as [Ev'|Ev']; rewrite Ev' in Iv; destruct Iv as [<-|[<-|[]]]; auto).
      destruct (proj2 Cc v Iv) as [Qx|[Qx|(nm & f & Vn & NE & Ff & Ty & HN)]].
      1, 2: rewrite (form_factor_none m v ltac:(auto)) in E; injection E as <-; intros z [].
      destruct (HN "l") as (vl & E1); [cbn; auto|]. destruct (HN "radius") as (vr & E2); [cbn; auto|].
      destruct Vv as [->| ->].
      + destruct (form_factor_production m vp nm f vl vr Vn NE Ff Ty E1 E2 a' b' k d s r (hd_states _ _ _ _ _ _ _ _ _ H) Np (Pk _ _ Pp)) as (m1 & m2 & E' & _).
        rewrite E' in E. injection E as <-. cbn [de_expr].
        assert (L0 : int_of vl = 0).
        { destruct (NB vp k _ Iv Np) as [Qx|[Qx|(nm' & f' & Qx & Ff' & L0)]]; try congruence.
          assert (nm' = nm) by congruence. subst nm'. rewrite (function_fun m _ _ _ Ff' Ff) in L0.
          assert (vl = Q2Qc 0) by congruence. subst vl. reflexivity. }
        rewrite L0. apply nb_ff0.
      + pose proof (tb_decay _ _ _ _ _ _ _ T) as Nd.
        rewrite (form_factor_decay m vd nm f vl vr Vn NE Ff Ty E1 E2 _ _ k Nd P) in E. injection E as <-. cbn [de_expr].
        destruct (pair_point base Ph Ns _ _ k P) as (Mi & Mj & Tij).
        assert (S0 : (0 < Re (base (sigma_sym k)))%R) by nra.
        assert (I3 : forall n, In n [ct_i (x c); ct_j (x c)] -> In n [1; 2; 3]).
        { intros n In'. apply (Permutation_in n P). cbn in In' |- *. tauto. }
        apply (ff_branch ev h _ _ _ _ _ _ _ _ (int_of vl) (er _ _ Vs) (er _ _ (Vm _ (I3 _ (or_introl eq_refl)))) (er _ _ (Vm _ (I3 _ (or_intror (or_introl eq_refl))))) (er _ _ VD) S0).
        right. split; [apply rbreakup_strict; assumption|lra].
  Qed.
End Regular.

(** ** Models *)
Section Formulated.
  Variable t0 : R.
  Variables (m : model_def) (d : distribution) (s : Z -> state) (r : Z)
    (tl : string -> string) (additional : option (dict string prop_builder))
    (x : chain_def -> content) (w : chain_def -> symbol) (dyn : chain_def -> defexpr).
  Hypothesis H : helicity_definition m d s r tl additional x w dyn.
  Variables (cl : bool) (M : model).
  Hypothesis F : SerAmplitude.formulate m cl tl additional = Ok M.
  Lemma serial_variables_spin y e : dget y (m_variables M) = Some e ->
    (exists c, In c (di_chains d) /\ formulate_scattering_angle (ct_i (x c)) (ct_j (x c)) = Ok (y, e)) \/
    (exists i k, In i [0; 1; 2; 3] /\ p_spin (s i) <> 0 /\ formulate_zeta_angle i k r = Ok (y, e)).
  Proof.
    intros E.
    destruct (serial_model m d s r tl additional x w dyn H cl)
      as (M' & ks & terms & zdefs & amps & vars & F' & K & AT & L & _ & SD & EA & EV & EI & EP & _ & EN).
    assert (M' = M) by congruence. subst M'.
    destruct (loop_ok m d s r tl additional x w dyn H (work d s)) with (amps := @nil (akey * cexpr)) (vars := @nil (symbol * rexpr)) (params := @nil (pkey * pval))
      as (amps' & vars' & L' & _ & I2 & I3 & I4 & I5 & I6 & I7).
    { intros [l' n] I. apply work_In in I. apply I. }
    assert (amps' = amps) by (unfold dict, akey in *; congruence). subst amps'.
    assert (vars' = vars) by (unfold dict, akey in *; congruence). subst vars'.
    destruct (subsystems_ok m d s r tl additional x w dyn H) as (ks' & K1 & K2 & K3 & K4).
    assert (ks' = ks) by congruence. subst ks'.
    assert (Hk : forall k, In k ks -> In k [1; 2; 3]).
    { intros k I. apply K3 in I. destruct I as (c & I & <-). apply (hd_k m d s r tl additional x w dyn H). exact I. }
    destruct (aligned_terms_facts s r ks Hk _ _ _ AT) as (_ & O & Z1 & Z2 & _ & Z3 & Z4).
    assert (NZ : NoDup (dkeys zdefs)) by (apply Z4; constructor).
    rewrite EV in E. rewrite dget_dupdate_nodup in E by exact NZ.
    destruct (dget y zdefs) as [e'|] eqn:Ez.
    - assert (e' = e) by congruence. subst e'. right.
      destruct (Z3 ks (incl_refl _) (fun x e Hx => ltac:(discriminate Hx)) _ _ Ez) as (i & k & Hi & Hk' & Sp & -> & Fz). exists i, k. split; [exact Hi|]. split; [|exact Fz]. intros Z0. apply Sp. unfold spin4. destruct Hi as [<-|[<-|[<-|[<-|[]]]]]; exact Z0.
    - destruct (I4 y e E) as [X|(c & Ic & X & _)]; [discriminate X|]. left. exists c. auto.
  Qed.

  Variables (base : R -> symbol -> C) (cpl : R -> string -> list ival -> C).
  Hypothesis Ins : inside (fun y => Re (base t0 y)).
  Hypothesis Ns : nonsingular (fun y => Re (base t0 y)).
  Hypothesis MK : masses_kept s t0 (fun t y => Re (base t y)).
  Hypothesis LB : forall y, smooth_at t0 (fun t => base t y).
  Hypothesis LX : forall c, In c (di_chains d) -> smooth_at t0 (fun t => ceval (Env (base t) (cpl t)) (fun _ => 0) (de_expr (dyn c))).
  Lemma serial_variables_smooth y e : dget y (m_variables M) = Some e -> rsmooth_at t0 (fun t => reval (fun y => Re (base t y)) e).
  Proof.
    intros G. destruct (angles_smooth _ Ins Ns) as (C1 & C3).
    assert (RV : smooth_valued (fun y => Re (base t0 y)) e -> rsmooth_at t0 (fun t => reval (fun y => Re (base t y)) e)).
    { intros V. apply (rd_reval t0 e (fun t y => Re (base t y))); [exact (fun y => proj1 (LB y))|exact V]. }
    destruct (serial_variables_spin y e G) as [(c & _ & E)|(i & k & Hi & Sp & Fz)]; [exact (RV (C1 _ _ _ _ E))|].
    assert (Hi' : i = 0 \/ 1 <= i <= 3) by (cbn [In] in Hi; lia).
    destruct Hi' as [I0|Hi']; [exact (RV (C3 _ _ _ _ _ (or_introl I0) Fz))|].
    destruct (MK i Hi' Sp) as [Mi|Mi]; [exact (RV (C3 _ _ _ _ _ (or_intror Mi) Fz))|].
    apply (rd_ext_loc t0 (fun _ => 0%R)); [|apply rd_const].
    revert Mi. apply filter_imp. intros t (Mi & P & N). symmetry.
    destruct (ok_zeta_ids _ _ _ _ _ Fz) as [[(E & _)|(_ & Hj & Hk')]|E]; [lia| |subst e; cbn; reflexivity || (rewrite Q2R_0; reflexivity)].
    exact (c135_angles _ i k r _ _ P N Hi' Hj Hk' Mi Fz).
  Qed.
  Let ev t := at_point (m_variables M) (base t) (cpl t).
  Lemma serial_sym_smooth y : smooth_at t0 (fun t => e_sym (ev t) y).
  Proof.
    unfold ev, at_point. cbn [e_sym]. destruct (dget y (m_variables M)) as [e|] eqn:G; [|apply LB].
    exact (cd_real t0 _ (serial_variables_smooth y e G)).
  Qed.
  Lemma serial_amp_smooth k l : In k [1; 2; 3] -> helicity_tuple s l -> smooth_at t0 (fun t => amp_value (ev t) M k l).
  Proof.
    intros Hk Hl.
    apply (cd_ext t0 _ _ (fun t => eq_sym (serial_amplitude_value m d s r tl additional x w dyn H cl M F (ev t) k l Hl Hk))).
    apply (cd_sum t0). intros c Hc. apply in_chains_in in Hc. destruct Hc as [Hc _]. unfold chain_contribution, serial_term.
    assert (X : smooth_at t0 (fun t => ceval (ev t) (fun _ => 0) (de_expr (dyn c)))).
    { exact (cd_ext t0 _ _ (fun t => eq_sym (serial_lineshape m d s r tl additional x w dyn H cl M F _ _ c Hc)) (LX c Hc)). }
    pose proof (serial_sym_smooth (w c)) as W.
    pose proof (fun j a b => rd_wigner t0 j a b _ (proj1 (serial_sym_smooth (theta_name (ct_i (x c)) (ct_j (x c)))))) as Th.
    apply (cd_mult t0); [|exact X]. apply (cd_mult t0); [|apply (cd_real t0), Th]. apply (cd_mult t0); [|apply (cd_const t0)].
    apply (cd_mult t0); [exact W|apply (cd_const t0)].
  Qed.
  Theorem serial_smooth : smooth_at t0 (fun t => full_value (ev t) M).
  Proof.
    destruct (serial_intensity_value m d s r tl additional x w dyn H cl M F) as (ks & N & So & K & I).
    apply (cd_ext t0 _ _ (fun t => eq_sym (I (ev t)))). apply (cd_real t0). unfold intensity_value.
    apply (rd_sum t0). intros l _. apply (cd_abs2 t0). unfold aligned_amplitude. apply (cd_sum t0). intros l' Hl'. apply (cd_sum t0). intros k Hk.
    apply (cd_mult t0).
    - apply serial_amp_smooth; [|apply tuples_In; exact Hl']. apply K in Hk. destruct Hk as (c & I' & <-). apply (hd_k m d s r tl additional x w dyn H). exact I'.
    - apply (cd_real t0). unfold alignment. repeat apply (rd_mult t0); apply (rd_wigner t0); exact (proj1 (serial_sym_smooth _)).
  Qed.
End Formulated.
Theorem serial_builtin_smooth t0 m d s r tl x w dyn cl M (base : R -> symbol -> C) (cpl : R -> string -> list ival -> C) :
  helicity_definition m d s r tl None x w dyn -> SerAmplitude.formulate m cl tl None = Ok M ->
  inside (fun y => Re (base t0 y)) -> nonsingular (fun y => Re (base t0 y)) -> masses_kept s t0 (fun t y => Re (base t y)) ->
  (forall y, smooth_at t0 (fun t => base t y)) -> (forall n i, smooth_at t0 (fun t => cpl t n i)) ->
  (forall c, In c (di_chains d) -> smooth_serial m tl x (base t0) c) ->
  smooth_at t0 (fun t => full_value (at_point (m_variables M) (base t) (cpl t)) M).
Proof.
  intros H F Ins Ns MK LB LC Rg. apply (serial_smooth t0 m d s r tl None x w dyn H cl M F base cpl Ins Ns MK LB).
  intros c Hc. pose proof (inside_physical _ Ins) as Ph.
  pose proof (regular_fine m d s r tl x w dyn H (base t0) Ph Ns c Hc (proj1 (Rg c Hc)) (Env (base t0) (cpl t0)) (fun _ => 0) (fun y _ => eq_refl)) as [D _].
  pose proof (smooth_branch m d s r tl x w dyn H (base t0) Ph Ns c Hc (Rg c Hc) (Env (base t0) (cpl t0)) (fun _ => 0) (fun y _ => eq_refl)) as B.
  exact (ceval_smooth t0 _ (fun t => Env (base t) (cpl t)) LB LC (fun _ => 0) D B).
Qed.
