(** The lineshapes of model files are not zero (C153) *)
From Coq Require Import String ZArith QArith Qcanon Qreals List Bool Reals Lia Lra Psatz Permutation.
From Coquelicot Require Import Hierarchy Complex.
From Verif Require Import Prelude AnglesFacts Spin Decay Expr Angles Sums Wigner CG CExpr SpecKin SpecDPD Builder
  SpinFacts DecayFacts CExprFacts BuilderFacts ModelFacts KinFacts AnglesProofs Dynamics SpecDynamics DynamicsProofs LineshapeFacts LineshapeProofs
  SpecFinite FiniteFacts FiniteShapes EffectShapes HankelFacts SpecObs SerFormat SerDynamics
  SerAmplitude SpecSerial SpecSerialShapes SerDecay SerAmpFacts SerModel SerProofs SerDyn SerShapes SerFormal SpecWeights SerWeights SerSymbols
  SpecPropagators SerPropagators SerTotal SpecSerPoints SerPoints SpecSerFinite SerFinite SerBounded SpecSerEffect SerEffectProofs.
Import ListNotations.
Local Open Scope string_scope.
Local Open Scope Z_scope.
Local Open Scope list_scope.

(** A point at which all factors of these lineshapes are above their thresholds *)
Definition se_base (y : symbol) : C :=
  RtoC (if String.eqb (sname y) "m0" then 20
        else if existsb (String.eqb (sname y)) ["sigma1"; "sigma2"; "sigma3"]%string then 4
        else if existsb (String.eqb (sname y)) ["m1"; "m2"; "m3"]%string then /8 else /2).
Lemma se_mass i : In i [1; 2; 3]%Z -> se_base (mass_sym i) = RtoC (/8).
Proof. intros [<-|[<-|[<-|[]]]]; reflexivity. Qed.
Lemma se_sigma i : In i [1; 2; 3]%Z -> se_base (sigma_sym i) = RtoC 4.
Proof. intros [<-|[<-|[<-|[]]]]; reflexivity. Qed.
Lemma se_named b n : In b ["m"; "\Gamma"; "R"] -> se_base (named b n) = RtoC (/2).
Proof. intros [<-|[<-|[<-|[]]]]; reflexivity. Qed.
Lemma se_channel n : (forall name, se_base (channel_width_sym name n) = RtoC (/2)) /\ forall l, In l ["a"; "b"] -> se_base (channel_mass_sym l n) = RtoC (/2).
Proof. split; [intros name; reflexivity|]. intros l [<-|[<-|[]]]; reflexivity. Qed.
Lemma se_between i j k : cyclic i j k -> between_thresholds se_base i j k.
Proof.
  intros Cy. assert (I : In i [1; 2; 3]%Z /\ In j [1; 2; 3]%Z /\ In k [1; 2; 3]%Z) by (destruct Cy as [E|[E|[E|[]]]]; injection E as <- <- <-; cbn; tauto).
  destruct I as (I & J & K). unfold between_thresholds.
  change (mass_at i) with (mass_sym i). change (mass_at j) with (mass_sym j). change (mass_at k) with (mass_sym k). change (SpecObs.sigma_at k) with (sigma_sym k).
  rewrite !se_mass, se_sigma by auto.
  change (Re (se_base (mass_at 0))) with 20%R. cbn [Re RtoC fst]. replace 4%R with (2 * 2)%R by ring. rewrite sqrt_square by lra. repeat split; lra.
Qed.

Definition live_own (ev : env) (h : symbol -> Z) (k : Z) (e : cexpr) : Prop := ceval ev h e <> RtoC 0 /\ forall y, In y (symbols_of e) -> own k y.
Lemma live_own_fold ev h k xs : (forall y, In y xs -> live_own ev h k (de_expr y)) -> forall e0, live_own ev h k (de_expr e0) ->
  live_own ev h k (de_expr (fold_left (fun e x => de_mul e (MulDef x)) xs e0)).
Proof.
  induction xs as [|y xs IH]; intros A e0 B; cbn [fold_left]; [exact B|].
  apply IH; [intros; apply A; right; auto|]. cbn [de_mul de_expr].
  destruct (A y (or_introl eq_refl)) as [A1 A2], B as [B1 B2]. split; [cbn [ceval]; apply Cmult_neq_0; assumption|].
  intros z Hz. cbn [symbols_of] in Hz. apply in_app_or in Hz. destruct Hz; auto.
Qed.
Lemma live_simple ev h es em eG (s m G : R) : ceval ev h es = RtoC s -> ceval ev h em = RtoC m -> ceval ev h eG = RtoC G ->
  (0 < m)%R -> (0 < G)%R -> ceval ev h (simple_breit_wigner es em eG) <> RtoC 0.
Proof.
  intros Es Em EG M0 G0. pose proof (bw_simple_neq s m G M0 G0) as X. unfold bw_simple in X. unfold simple_breit_wigner. cbn [ceval].
  rewrite Es, Em, EG, ?CNum_value. replace (RtoC m * RtoC G * Ci)%C with (Ci * RtoC m * RtoC G)%C by ring. exact X.
Qed.

Section Regular.
  Variables (m : model_def) (d : distribution) (s : Z -> state) (r : Z) (tl : string -> string)
    (additional : option (dict string prop_builder))
    (x : chain_def -> content) (w : chain_def -> symbol) (dyn : chain_def -> defexpr).
  Hypothesis H : helicity_definition m d s r tl additional x w dyn.
  Hypothesis Dc : is_dict additional.
  Variable c : chain_def.
  Hypothesis Hc : In c (di_chains d).
  Variables (cpl : string -> list ival -> C) (h : symbol -> Z).
  Let ev := Env se_base cpl.
  Let name := tl (cd_name c).
  Let k := ct_k (x c).
  Hypothesis Lf : forall v, In v (cd_vertices c) -> complete_form_factor m v.
  Hypothesis Lp : forall p y, In p (cd_propagators c) -> lineshape_of m name additional p y -> live_own ev h k (de_expr y) \/
    (lineshape_of m name None p y /\ exists f, function_of m (pr_parametrization p) f /\ (complete_breit_wigner f \/ complete_multichannel f)).
  Lemma complete_live_own : live_own ev h k (de_expr (dyn c)).
  Proof.
    destruct (hd_dynamics _ _ _ _ _ _ _ _ _ H c Hc) as (e & E1 & E2).
    apply (loop_split m (tl (cd_name c)) additional Dc) in E1. destruct E1 as (ls & L & ->).
    apply form_factors_split in E2. destruct E2 as (fs & Fs & ->). rewrite <- fold_left_app.
    assert (C1 : live_own ev h k (CNum 1)) by (split; [rewrite CNum_value; apply RtoC_pos_neq; lra|intros y []]).
    apply live_own_fold; [|exact C1].
    pose proof (hd_perm m d s r tl additional x w dyn H c Hc) as P. fold k in P.
    assert (Pk : forall a b, Permutation [a; b] [ct_i (x c); ct_j (x c)] -> Permutation [a; b; k] [1; 2; 3]).
    { intros a b Q. exact (Permutation_trans (Permutation_app_tail [k] Q) P). }
    assert (Kk : In k [1; 2; 3]) by (apply (Permutation_in k P); cbn; auto).
    assert (Vs : real_ev ev h (CVar (sigma_sym k)) 4) by (split; [exact (se_sigma k Kk)|reflexivity]).
    assert (Vm : forall n, In n [1; 2; 3] -> real_ev ev h (CVar (mass_sym n)) (/8)) by (intros n In'; split; [exact (se_mass n In')|reflexivity]).
    assert (VM : real_ev ev h (CVar (named "m" name)) (/2)) by (split; reflexivity).
    assert (VG : real_ev ev h (CVar (named "\Gamma" name)) (/2)) by (split; reflexivity).
    assert (VD : real_ev ev h (CVar radius_sym) (/2)) by (split; reflexivity).
    assert (VR : real_ev ev h (CVar (named "R" name)) (/2)) by (split; reflexivity).
    destruct (hd_content _ _ _ _ _ _ _ _ _ H c Hc) as (vp & vd & T & _).
    intros y Hy. apply in_app_or in Hy. destruct Hy as [Hy|Hy].
    - (* lineshapes *)
      destruct (tb_propagator _ _ _ _ _ _ _ T) as (p & a & b & Ep & _ & N & Pab).
      rewrite Ep in L. inversion L as [|? l1 ? ? L1 L2]; subst. inversion L2; subst. destruct Hy as [<-|[]].
      assert (Ip : In p (cd_propagators c)) by (rewrite Ep; left; reflexivity).
      assert (Ia : In a [1; 2; 3]) by (apply (Permutation_in a (Pk a b Pab)); cbn; auto).
      assert (Ib : In b [1; 2; 3]) by (apply (Permutation_in b (Pk a b Pab)); cbn; auto).
      destruct (Lp p l1 Ip L1) as [Z|[L1' (f' & Ff' & Co)]]; [exact Z|]. clear L1.
      destruct L1' as (f & b0 & Ff & Bf & E). fold name in E.
      assert (f' = f) by exact (function_fun m _ _ _ Ff' Ff). subst f'.
      destruct Bf as [(aa & Qx & _)|(_ & Bf)]; [discriminate Qx|].
      destruct Co as [(Ty & HN)|Co].
      + destruct Bf as [[_ ->]|[Qx _]]; [|rewrite Qx in Ty; discriminate Ty].
        destruct (HN "l") as (vl & E1); [cbn; auto 10|]. destruct (HN "mass") as (vm & E2); [cbn; auto 10|].
        destruct (HN "width") as (vw & E3); [cbn; auto 10|]. destruct (HN "ma") as (va & E4); [cbn; auto 10|].
        destruct (HN "mb") as (vb & E5); [cbn; auto 10|]. destruct (HN "d") as (vd' & E6); [cbn; auto 10|].
        rewrite (bw_ok m p a b k name f N (Pk a b Pab) Ff _ _ _ _ _ _ E1 E2 E3 E4 E5 E6) in E. injection E as <-. cbn [de_expr].
        split.
        2:{ intros y Hy.
            assert (Y : In y [sigma_sym k; named "m" name; named "\Gamma" name; mass_sym a; mass_sym b; radius_sym]).
            { clear -Hy. unfold breit_wigner, breit_wigner_width in Hy. cbn [is_zero] in Hy. rewrite andb_false_r in Hy. cbn [andb] in Hy.
              unfold simple_breit_wigner, energy_dependent_width, phase_space_factor, CNum in Hy. cbn [symbols_of app In] in Hy. cbn [In]. tauto. }
            clear Hy. repeat destruct Y as [<-|Y]; try destruct Y; try apply own_mass; try apply own_radius; try (apply own_named; cbn; tauto). left. reflexivity. }
        unfold breit_wigner.
        replace (breit_wigner_width (CVar (sigma_sym k)) (CVar (named "m" name)) (CVar (named "\Gamma" name)) (CVar (mass_sym a)) (CVar (mass_sym b))
          (int_of vl) (CVar radius_sym) phase_space_factor)
          with (energy_dependent_width (CVar (sigma_sym k)) (CVar (named "m" name)) (CVar (named "\Gamma" name)) (CVar (mass_sym a)) (CVar (mass_sym b))
          (int_of vl) (CVar radius_sym) phase_space_factor)
          by (unfold breit_wigner_width; cbn [is_zero]; rewrite !andb_false_r; reflexivity).
        destruct (running_width_pos (int_of vl) 4 (/2) (/2) (/8) (/8) (/2)) as (W & W0 & EW); try lra.
        apply (live_simple ev h _ _ _ 4 (/2) W); [apply Vs|apply VM| |lra|exact W0].
        rewrite (eval_width ev h _ _ _ _ _ _ _ _ two_body_phsp phase_space_factor_value).
        rewrite (proj1 Vs), (proj1 VM), (proj1 VG), (proj1 (Vm a Ia)), (proj1 (Vm b Ib)), (proj1 VD). exact EW.
      + destruct Bf as [[Qx _]|[_ ->]]; [destruct Co as (Ty & _); rewrite Qx in Ty; discriminate Ty|].
        destruct (multi_ok m p a b k name f N (Pk a b Pab) Ff Co)
          as (e' & c0' & rest' & chs & vm' & vl & va & vb & vg & vd' & E' & EC' & E1' & El & Ea & Eb & Eg & Ed & EE & LC & NC & _).
        rewrite E' in E. injection E as <-. rewrite EE. split.
        2:{ intros y Hy. apply multi_symbols in Hy. destruct Hy as [->|[->|(ch & Ich & Hy)]]; [left; reflexivity|apply own_named; cbn; tauto|].
            assert (Y : In y [sigma_sym k; named "m" name; named "\Gamma" name; mass_sym a; mass_sym b; named "R" name] \/
              exists n, In y [channel_mass_sym "a" n; channel_mass_sym "b" n; channel_width_sym name n]).
            { destruct Ich as [<-|Ich].
              - left. clear -Hy. unfold channel_width in Hy. cbn [cn_width cn_m0 cn_s cn_m1 cn_m2 cn_L cn_radius symbols_of app In] in Hy. cbn [In]. tauto.
              - apply In_nth_error in Ich. destruct Ich as (q & Eq).
                assert (Lq : (q < length rest')%nat) by (rewrite <- LC; apply nth_error_Some; congruence).
                destruct (nth_error rest' q) as [cd|] eqn:Er; [|apply nth_error_None in Er; lia].
                destruct (NC q cd Er) as (vl' & va' & vb' & vg' & _ & _ & _ & _ & Y & _). rewrite Y in Eq. injection Eq as <-.
                unfold nth_channel, channel_width in Hy. cbn [cn_width cn_m0 cn_s cn_m1 cn_m2 cn_L cn_radius symbols_of app In] in Hy.
                set (n := 2 + Z.of_nat q) in *. clear - Hy n.
                assert (Z' : (y = sigma_sym k \/ y = named "m" name \/ y = named "R" name) \/ y = channel_mass_sym "a" n \/ y = channel_mass_sym "b" n \/ y = channel_width_sym name n).
                { repeat (destruct Hy as [<-|Hy]; [tauto|]). destruct Hy. }
                destruct Z' as [[->|[->| ->]]|Z']; [left; cbn; tauto..|]. right. exists n. cbn [In].
                destruct Z' as [->|[->| ->]]; tauto. }
            clear Hy. destruct Y as [Y|(n & Y)].
            - repeat destruct Y as [<-|Y]; try destruct Y; try apply own_mass; try (apply own_named; cbn; tauto). left. reflexivity.
            - destruct Y as [<-|[<-|[<-|[]]]]; [apply own_channel|apply own_channel|apply (proj2 (own_channel k "a" n))]. }
        rewrite multichannel_simple.
        assert (Op : forall u v, (0 <= u)%R -> (0 <= v)%R -> ((u + v) * (u + v) <= 4)%R -> (0 <= rbreakup 4 u v)%R) by (intros; apply rbreakup_sign; lra).
        destruct (fine_channel ev h _ _ _ _ _ _ _ _ _ _ _ _ (int_of vl) Vs VM VG (Vm a Ia) (Vm b Ib) VR ltac:(lra) ltac:(lra) ltac:(lra)
          (or_intror (Op (/8) (/8) ltac:(lra) ltac:(lra) ltac:(lra))%R)) as (_ & _ & F3).
        destruct (F3 ltac:(lra) ltac:(lra) ltac:(lra) ltac:(lra) ltac:(lra)) as (W & W0 & EW). clear F3.
        assert (Rest : forall ch, In ch chs -> exists y, (0 <= y)%R /\ channel_value ev h ch = RtoC y).
        { intros ch Ich. apply In_nth_error in Ich. destruct Ich as (q & Eq).
          assert (Lq : (q < length rest')%nat) by (rewrite <- LC; apply nth_error_Some; congruence).
          destruct (nth_error rest' q) as [cd|] eqn:Er; [|apply nth_error_None in Er; lia].
          destruct (NC q cd Er) as (vl' & va' & vb' & vg' & Dl & _ & _ & _ & Y & _). rewrite Y in Eq. injection Eq as <-.
          set (n := 2 + Z.of_nat q) in *.
          assert (Vg : real_ev ev h (CVar (channel_width_sym name n)) (/2)) by (split; reflexivity).
          assert (Va : real_ev ev h (CVar (channel_mass_sym "a" n)) (/2)) by (split; reflexivity).
          assert (Vb : real_ev ev h (CVar (channel_mass_sym "b" n)) (/2)) by (split; reflexivity).
          destruct (fine_channel ev h _ _ _ _ _ _ _ _ _ _ _ _ (int_of vl') Vs VM Vg Va Vb VR ltac:(lra) ltac:(lra) ltac:(lra)
            (or_intror (Op (/2) (/2) ltac:(lra) ltac:(lra) ltac:(lra))%R)) as (_ & X2 & _). exact X2. }
        assert (Sum : exists y, (0 <= y)%R /\ Csum chs (channel_value ev h) = RtoC y).
        { clear - Rest. induction chs as [|ch chs IH]; [exists 0%R; split; [lra|reflexivity]|].
          destruct (Rest ch (or_introl eq_refl)) as (y & Y & E). destruct IH as (y' & Y' & E'); [intros; apply Rest; right; auto|].
          exists (y + y')%R. rewrite Csum_eq_cons, E, E', RtoC_plus. split; [lra|reflexivity]. }
        destruct Sum as (W' & W0' & EW').
        apply (live_simple ev h _ _ _ 4 (/2) (W + W')); [apply Vs|apply VM| |lra|lra].
        rewrite ceval_CAddL, Csum_map. rewrite Csum_eq_cons. rewrite (Csum_ext chs _ (channel_value ev h)) by reflexivity.
        rewrite EW', RtoC_plus. f_equal. exact EW.
    - (* form factors *)
      assert (Iv : exists v, In v (cd_vertices c) /\ formulate_form_factor v m = Ok y).
      { clear - Fs Hy. induction Fs as [|v f vs fs' E Fs IH]; [destruct Hy|]. destruct Hy as [->|Hy]; [exists v; split; [left; reflexivity|exact E]|].
        destruct (IH Hy) as (v' & I' & E'). exists v'. split; [right; exact I'|exact E']. }
      destruct Iv as (v & Iv & E).
      destruct (tb_production _ _ _ _ _ _ _ T) as (a' & b' & Np & Pp).
      assert (Vv : v = vp \/ v = vd) by (destruct (tb_vertices _ _ _ _ _ _ _ T) as [Ev'|Ev']; rewrite Ev' in Iv; destruct Iv as [<-|[<-|[]]]; auto).
      destruct (Lf v Iv) as [Qx|[Qx|(nm & f & Vn & NE & Ff & Ty & HN)]].
      1, 2: rewrite (form_factor_none m v ltac:(auto)) in E; injection E as <-; exact C1.
      destruct (HN "l") as (vl & E1); [cbn; auto|]. destruct (HN "radius") as (vr & E2); [cbn; auto|].
      destruct Vv as [->| ->].
      + destruct (form_factor_production m vp nm f vl vr Vn NE Ff Ty E1 E2 a' b' k d s r (hd_states _ _ _ _ _ _ _ _ _ H) Np (Pk _ _ Pp)) as (m1 & m2 & E' & X12).
        rewrite E' in E. injection E as <-. cbn [de_expr]. split.
        2:{ clear Hy. intros y Hy. cbn [symbols_of app In] in Hy. clear - Hy X12.
            assert (Y : own k m1 /\ own k m2) by (destruct X12 as [(_ & -> & ->)|(_ & -> & ->)]; (split; [first [left; reflexivity|apply own_mass]|first [left; reflexivity|apply own_mass]])).
            destruct Hy as [<-|[<-|[<-|[<-|[]]]]]; [apply own_mass|apply Y|apply Y|apply own_named; cbn; tauto]. }
        cbn [ceval]. change (e_sym ev (mass_sym 0)) with (RtoC 20).
        change (e_sym ev (named "R" (p_latex (s 0)))) with (RtoC (/2)).
        assert (Y : (e_sym ev m1 = RtoC 4 /\ e_sym ev m2 = RtoC (/8)) \/ (e_sym ev m1 = RtoC (/8) /\ e_sym ev m2 = RtoC 4)).
        { destruct X12 as [(_ & -> & ->)|(_ & -> & ->)]; [left|right]; split; first [exact (se_sigma k Kk)|exact (se_mass k Kk)]. }
        destruct Y as [[-> ->]|[-> ->]].
        * destruct (form_factor_pos (int_of vl) 20 4 (/8) (/2)) as (y & Y & Q); try lra. rewrite (Q : csqrt _ = _). apply RtoC_pos_neq; lra.
        * destruct (form_factor_pos (int_of vl) 20 (/8) 4 (/2)) as (y & Y & Q); try lra. rewrite (Q : csqrt _ = _). apply RtoC_pos_neq; lra.
      + pose proof (tb_decay _ _ _ _ _ _ _ T) as Nd.
        rewrite (form_factor_decay m vd nm f vl vr Vn NE Ff Ty E1 E2 _ _ k Nd P) in E. injection E as <-. cbn [de_expr]. split.
        2:{ clear Hy. intros y Hy. cbn [symbols_of app In] in Hy. clear - Hy.
            destruct Hy as [<-|[<-|[<-|[<-|[]]]]]; [left; reflexivity|apply own_mass|apply own_mass|apply own_radius]. }
        assert (I3 : forall n, In n [ct_i (x c); ct_j (x c)] -> In n [1; 2; 3]).
        { intros n In'. apply (Permutation_in n P). cbn in In' |- *. tauto. }
        pose proof (proj1 Vs) as E4. pose proof (proj1 (Vm _ (I3 _ (or_introl eq_refl)))) as E5. pose proof (proj1 (Vm _ (I3 _ (or_intror (or_introl eq_refl))))) as E6.
        cbn [ceval] in E4, E5, E6 |- *. rewrite E4, E5, E6. change (e_sym ev radius_sym) with (RtoC (/2)).
        destruct (form_factor_pos (int_of vl) 4 (/8) (/8) (/2)) as (y & Y & Q); try lra. rewrite (Q : csqrt _ = _). apply RtoC_pos_neq; lra.
  Qed.
End Regular.

Theorem live_chain m d s r tl additional x w dyn c : helicity_definition m d s r tl additional x w dyn -> is_dict additional -> In c (di_chains d) ->
  (forall v, In v (cd_vertices c) -> complete_form_factor m v) ->
  (forall p y cpl, In p (cd_propagators c) -> lineshape_of m (tl (cd_name c)) additional p y ->
     live_own (Env se_base cpl) (fun _ => 0) (ct_k (x c)) (de_expr y) \/
     (lineshape_of m (tl (cd_name c)) None p y /\ exists f, function_of m (pr_parametrization p) f /\ (complete_breit_wigner f \/ complete_multichannel f))) ->
  live_serial x dyn c.
Proof.
  intros H Dc Hc Lf Lp. pose proof (hd_perm m d s r tl additional x w dyn H c Hc) as P.
  assert (Kk : In (ct_k (x c)) [1; 2; 3]) by (apply (Permutation_in _ P); cbn; auto).
  destruct (cyclic_ex _ Kk) as (i & j & Cy). exists se_base, i, j. split; [exact Cy|]. split; [exact (se_between _ _ _ Cy)|].
  pose proof (fun cpl => complete_live_own m d s r tl additional x w dyn H Dc c Hc cpl (fun _ => 0) Lf (fun p y => Lp p y cpl)) as L.
  assert (O : sigma_sym i <> sigma_sym (ct_k (x c)) /\ sigma_sym j <> sigma_sym (ct_k (x c))).
  { clear -Cy. destruct Cy as [E|[E|[E|[]]]]; injection E as <- <- <-; split; discriminate. }
  assert (S : forall n, sigma_sym n <> sigma_sym (ct_k (x c)) -> ~ In (SpecObs.sigma_at n) (symbols_of (de_expr (dyn c)))).
  { intros n N I. destruct (proj2 (L (fun _ _ => RtoC 0)) _ I) as [E|E]; [exact (N E)|exact (E n eq_refl)]. }
  split; [exact (S i (proj1 O))|]. split; [exact (S j (proj2 O))|]. intros cpl. exact (proj1 (L cpl)).
Qed.
Theorem complete_live m d s r tl x w dyn c : helicity_definition m d s r tl None x w dyn -> In c (di_chains d) -> complete_chain m c -> live_serial x dyn c.
Proof.
  intros H Hc [Cp Cv]. apply (live_chain m d s r tl None x w dyn c H); [intros a Q; discriminate Q|exact Hc|exact Cv|].
  intros p y cpl Ip L. right. split; [exact L|exact (Cp p Ip)].
Qed.
Theorem weights_effect m d s r tl x w dyn cl M : helicity_definition m d s r tl None x w dyn -> SerAmplitude.formulate m cl tl None = Ok M ->
  NoDup (map w (di_chains d)) -> forall c, In c (di_chains d) -> complete_chain m c -> resonance_possible (x c) ->
  (final_possible s (x c) -> value_has_effect M (w c)) /\ (~ final_possible s (x c) -> value_no_effect M (w c)).
Proof.
  intros H F ND c Hc Cc Rp. pose proof (builtin_weights m d s r tl x w dyn H) as W. split; intros Fp.
  - exact (weight_effect m d s r tl None x w dyn H cl M F W ND c Hc Rp Fp (complete_live m d s r tl x w dyn c H Hc Cc)).
  - exact (weight_no_effect m d s r tl None x w dyn H cl M F W ND c Hc Fp).
Qed.
