(** The intensity of serialised models is bounded (proofs for C141) *)
From Coq Require Import String ZArith QArith Qcanon Qreals List Bool Reals Lia Lra Psatz Permutation Sorted.
From Coquelicot Require Import Hierarchy Complex.
From Verif Require Import Prelude AnglesFacts Spin Decay Expr Angles Sums Wigner CG CExpr SpecKin SpecDPD Builder
  SpinFacts DecayFacts CExprFacts BuilderFacts ModelFacts KinFacts AnglesProofs Dynamics SpecDynamics DynamicsProofs LineshapeFacts LineshapeProofs
  SpecFinite FiniteFacts FiniteShapes SpecContinuity ContinuityFacts ContinuityProofs HankelFacts SpecObs SerFormat SerDynamics
  SerAmplitude SpecSerial SpecSerialShapes SerDecay SerAmpFacts SerModel SerProofs SerDyn SerShapes SerFormal SpecWeights SerWeights SerSymbols
  SpecPropagators SerPropagators SerTotal SpecSerPoints SerPoints SpecSerFinite SerFinite SpecBounded BoundedFacts BoundedProofs
  SpecEnvelope EnvelopeSerial SpecSerBounded.
Import ListNotations.
Local Open Scope string_scope.
Local Open Scope Z_scope.
Local Open Scope list_scope.

Lemma fine_simple_le ev h es em eG (s m G : R) : fine ev h es -> fine ev h em -> fine ev h eG ->
  ceval ev h es = RtoC s -> ceval ev h em = RtoC m -> ceval ev h eG = RtoC G ->
  (0 < m)%R -> (0 <= G)%R -> (0 < G \/ m * m <> s)%R -> fine ev h (simple_breit_wigner es em eG).
Proof.
  intros A B D Es Em EG M0 G0 Or. unfold simple_breit_wigner. apply fine_div; [apply fine_num| |].
  - apply fine_sub; [apply fine_sub; auto; apply fine_sqr; auto|]. apply fine_mul; [apply fine_mul; auto|apply fine_im].
  - cbn [ceval]. rewrite Es, Em, EG, <- !RtoC_mult, <- RtoC_minus. intros E.
    pose proof (f_equal fst E) as E1. pose proof (f_equal snd E) as E2.
    unfold Cminus, Cplus, Copp, Cmult, Ci, RtoC in E1, E2. cbn [fst snd] in E1, E2.
    destruct Or as [O|O]; [|apply O; lra]. assert (0 < m * G)%R by (apply Rmult_lt_0_compat; lra). lra.
Qed.
(** A symbol that is the invariant mass of pair [k] or of no pair *)
Definition own (k : Z) (y : symbol) : Prop := y = sigma_sym k \/ forall n, y <> sigma_sym n.
Definition fine_own (ev : env) (h : symbol -> Z) (k : Z) (e : cexpr) : Prop := fine ev h e /\ forall y, In y (symbols_of e) -> own k y.
Lemma fine_own_fold ev h k xs : (forall y, In y xs -> fine_own ev h k (de_expr y)) -> forall e0, fine_own ev h k (de_expr e0) ->
  fine_own ev h k (de_expr (fold_left (fun e x => de_mul e (MulDef x)) xs e0)).
Proof.
  induction xs as [|y xs IH]; intros A e0 B; cbn [fold_left]; [exact B|].
  apply IH; [intros; apply A; right; auto|]. cbn [de_mul de_expr].
  destruct (A y (or_introl eq_refl)) as [A1 A2], B as [B1 B2]. split; [apply fine_mul; auto|].
  intros z Hz. cbn [symbols_of] in Hz. apply in_app_or in Hz. destruct Hz; auto.
Qed.
Lemma own_mass k n : own k (mass_sym n).
Proof. right. intros n'. discriminate. Qed.
Lemma own_named k b l : In b ["m"; "\Gamma"; "R"] -> own k (named b l).
Proof. intros [<-|[<-|[<-|[]]]]; right; intros n'; discriminate. Qed.
Lemma own_radius k : own k radius_sym.
Proof. right. intros n'. discriminate. Qed.
Lemma own_channel k l n : own k (channel_mass_sym l n) /\ forall name, own k (channel_width_sym name n).
Proof. split; [|intros name]; right; intros n'; discriminate. Qed.

Section Regular.
  Variables (m : model_def) (d : distribution) (s : Z -> state) (r : Z) (tl : string -> string)
    (x : chain_def -> content) (w : chain_def -> symbol) (dyn : chain_def -> defexpr).
  Hypothesis H : helicity_definition m d s r tl None x w dyn.
  Variables (base : symbol -> C).
  Variable c : chain_def.
  Hypothesis Hc : In c (di_chains d).
  Hypothesis Rg : regular_serial m tl x base c.
  Variables (ev : env) (h : symbol -> Z).
  Hypothesis Ev : forall y, sassume y = ANonneg -> e_sym ev y = base y.
  Let name := tl (cd_name c).
  Let k := ct_k (x c).
  Hypothesis Hm0 : (0 < Re (base (mass_sym 0)))%R.
  Hypothesis Hm : forall n, In n [1; 2; 3] -> (0 <= Re (base (mass_sym n)))%R.
  Let ma := Re (base (mass_sym (ct_i (x c)))).
  Let mb := Re (base (mass_sym (ct_j (x c)))).
  Hypothesis Hpos : (0 < ma + mb)%R.
  Hypothesis Hthr : ((ma + mb) * (ma + mb) <= Re (base (sigma_sym k)))%R.
  Hypothesis Hoff : Re (base (named "m" name)) <> (ma + mb)%R.

  Lemma pair_le a b : Permutation [a; b] [ct_i (x c); ct_j (x c)] ->
    (0 <= Re (base (mass_sym a)) /\ 0 <= Re (base (mass_sym b)) /\ 0 < Re (base (sigma_sym k)) /\
     (Re (base (mass_sym a)) + Re (base (mass_sym b))) * (Re (base (mass_sym a)) + Re (base (mass_sym b))) <= Re (base (sigma_sym k)) /\
     Re (base (named "m" name)) <> Re (base (mass_sym a)) + Re (base (mass_sym b)))%R.
  Proof.
    intros Q. pose proof (hd_perm m d s r tl None x w dyn H c Hc) as P.
    assert (I3 : forall n, In n [ct_i (x c); ct_j (x c)] -> In n [1; 2; 3]).
    { intros n In'. apply (Permutation_in n P). cbn in In' |- *. tauto. }
    assert (S0 : (0 < Re (base (sigma_sym k)))%R) by nra.
    pose proof (Hm _ (I3 _ (or_introl eq_refl))) as Pa. pose proof (Hm _ (I3 _ (or_intror (or_introl eq_refl)))) as Pb.
    fold ma in Pa. fold mb in Pb.
    destruct (Permutation_length_2_inv (Permutation_sym Q)) as [E|E]; injection E as -> ->; fold ma mb; repeat split; try assumption; lra.
  Qed.
  Lemma regular_fine_own : fine_own ev h k (de_expr (dyn c)).
  Proof.
    destruct Rg as (Cc & NB & (Rl & M0 & G0 & D0 & R0) & Th & Ch). fold name k in Rl, M0, G0, R0.
    destruct (hd_dynamics _ _ _ _ _ _ _ _ _ H c Hc) as (e & E1 & E2).
    apply (loop_split m (tl (cd_name c)) None) in E1; [|intros aa Q; discriminate Q]. destruct E1 as (ls & L & ->).
    apply form_factors_split in E2. destruct E2 as (fs & Fs & ->). rewrite <- fold_left_app. apply fine_own_fold; [|split; [apply fine_num|intros y []]].
    pose proof (hd_perm m d s r tl None x w dyn H c Hc) as P. fold k in P.
    assert (Pk : forall a b, Permutation [a; b] [ct_i (x c); ct_j (x c)] -> Permutation [a; b; k] [1; 2; 3]).
    { intros a b Q. exact (Permutation_trans (Permutation_app_tail [k] Q) P). }
    assert (V : forall y, sassume y = ANonneg -> Im (base y) = 0%R -> real_ev ev h (CVar y) (Re (base y))).
    { intros y A B. split; [|reflexivity]. cbn [ceval]. rewrite (Ev y A). apply real_of. exact B. }
    assert (Vs : real_ev ev h (CVar (sigma_sym k)) (Re (base (sigma_sym k)))) by (apply V; [reflexivity|apply Rl; left; left; reflexivity]).
    assert (Vm : forall n, In n [1; 2; 3] -> real_ev ev h (CVar (mass_sym n)) (Re (base (mass_sym n)))).
    { intros n In'. apply V; [reflexivity|]. apply Rl. left. right. apply in_map. right. exact In'. }
    assert (VM : real_ev ev h (CVar (named "m" name)) (Re (base (named "m" name)))) by (apply V; [reflexivity|apply Rl; right; left; left; reflexivity]).
    assert (VG : real_ev ev h (CVar (named "\Gamma" name)) (Re (base (named "\Gamma" name)))) by (apply V; [reflexivity|apply Rl; right; right; left; left; reflexivity]).
    assert (VD : real_ev ev h (CVar radius_sym) (Re (base radius_sym))) by (apply V; [reflexivity|apply Rl; right; right; right; left; reflexivity]).
    assert (VR : real_ev ev h (CVar (named "R" name)) (Re (base (named "R" name)))) by (apply V; [reflexivity|apply Rl; right; right; right; right; reflexivity]).
    destruct (hd_content _ _ _ _ _ _ _ _ _ H c Hc) as (vp & vd & T & _).
    intros y Hy. apply in_app_or in Hy. destruct Hy as [Hy|Hy].
    - (* lineshapes *)
      destruct (tb_propagator _ _ _ _ _ _ _ T) as (p & a & b & Ep & _ & N & Pab).
      rewrite Ep in L. inversion L as [|? l1 ? ? L1 L2]; subst. inversion L2; subst. destruct Hy as [<-|[]].
      assert (Ip : In p (cd_propagators c)) by (rewrite Ep; left; reflexivity).
      destruct (pair_le a b Pab) as (Ma & Mb & S0 & Tab & Off).
      assert (Q : (0 <= rbreakup (Re (base (sigma_sym k))) (Re (base (mass_sym a))) (Re (base (mass_sym b))))%R) by (apply rbreakup_sign; lra).
      assert (Ia : In a [1; 2; 3]) by (apply (Permutation_in a (Pk a b Pab)); cbn; auto).
      assert (Ib : In b [1; 2; 3]) by (apply (Permutation_in b (Pk a b Pab)); cbn; auto).
      destruct L1 as (f & b0 & Ff & Bf & E). fold name in E. destruct (proj1 Cc p Ip) as (f' & Ff' & Co).
      assert (f' = f) by exact (function_fun m _ _ _ Ff' Ff). subst f'.
      destruct Bf as [(aa & Qx & _)|(_ & Bf)]; [discriminate Qx|].
      destruct Co as [(Ty & HN)|Co].
      + destruct Bf as [[_ ->]|[Qx _]]; [|rewrite Qx in Ty; discriminate Ty].
        destruct (HN "l") as (vl & E1); [cbn; auto 10|]. destruct (HN "mass") as (vm & E2); [cbn; auto 10|].
        destruct (HN "width") as (vw & E3); [cbn; auto 10|]. destruct (HN "ma") as (va & E4); [cbn; auto 10|].
        destruct (HN "mb") as (vb & E5); [cbn; auto 10|]. destruct (HN "d") as (vd' & E6); [cbn; auto 10|].
        rewrite (bw_ok m p a b k name f N (Pk a b Pab) Ff _ _ _ _ _ _ E1 E2 E3 E4 E5 E6) in E. injection E as <-. cbn [de_expr].
        assert (Tm : (Re (base (mass_sym a)) + Re (base (mass_sym b)) < Re (base (named "m" name)))%R).
        { assert (BW : exists p f, In p (cd_propagators c) /\ function_of m (pr_parametrization p) f /\ fd_type f = "BreitWigner") by eauto.
          pose proof (Th BW) as Tm. fold name in Tm. destruct (Permutation_length_2_inv Pab) as [Qx|Qx]; injection Qx as Qi Qj; rewrite Qi, Qj in Tm; lra. }
        split.
        2:{ intros y Hy.
            assert (Y : In y [sigma_sym k; named "m" name; named "\Gamma" name; mass_sym a; mass_sym b; radius_sym]).
            { clear -Hy. unfold breit_wigner, breit_wigner_width in Hy. cbn [is_zero] in Hy. rewrite andb_false_r in Hy. cbn [andb] in Hy.
              unfold simple_breit_wigner, energy_dependent_width, phase_space_factor, CNum in Hy. cbn [symbols_of app In] in Hy. cbn [In]. tauto. }
            clear Hy. repeat destruct Y as [<-|Y]; try destruct Y; try apply own_mass; try apply own_radius; try (apply own_named; cbn; tauto). left. reflexivity. }
        unfold breit_wigner.
        replace (breit_wigner_width (CVar (sigma_sym k)) (CVar (named "m" name)) (CVar (named "\Gamma" name)) (CVar (mass_sym a)) (CVar (mass_sym b))
          (int_of vl) (CVar radius_sym) phase_space_factor)
          with (energy_dependent_width (CVar (sigma_sym k)) (CVar (named "m" name)) (CVar (named "\Gamma" name)) (CVar (mass_sym a)) (CVar (mass_sym b))
          (int_of vl) (CVar radius_sym) phase_space_factor)
          by (unfold breit_wigner_width; cbn [is_zero]; rewrite !andb_false_r; reflexivity).
        assert (WW : exists W, (0 <= W)%R /\ (0 < W \/ Re (base (named "m" name)) * Re (base (named "m" name)) <> Re (base (sigma_sym k)))%R /\
          running_width two_body_phsp (int_of vl) (RtoC (Re (base (sigma_sym k)))) (RtoC (Re (base (named "m" name)))) (RtoC (Re (base (named "\Gamma" name))))
            (RtoC (Re (base (mass_sym a)))) (RtoC (Re (base (mass_sym b)))) (RtoC (Re (base radius_sym))) = RtoC W).
        { destruct (Rle_lt_or_eq_dec _ _ Tab) as [Lt|Eq].
          - destruct (running_width_pos (int_of vl) _ _ _ _ _ _ Ma Mb Lt D0 G0 Tm) as (W & W0 & EW). exists W. split; [lra|split; [left; exact W0|exact EW]].
          - exists 0%R. split; [lra|]. split; [right; rewrite <- Eq; clear - Ma Mb Tm; nra|].
            apply running_width_zero; [exact S0|symmetry; exact Eq]. }
        destruct WW as (W & W0 & WO & EW).
        apply (fine_simple_le ev h _ _ _ (Re (base (sigma_sym k))) (Re (base (named "m" name))) W);
          [apply fine_var|apply fine_var| |apply Vs|apply VM| |exact M0|exact W0|exact WO].
        * assert (er : forall e v, real_ev ev h (CVar e) v -> real_er ev h (CVar e) v) by (intros e v [A _]; split; [exact A|reflexivity]).
          split.
          -- exact (width_divisors_le ev h _ _ _ _ _ _ _ _ _ _ _ _ (int_of vl) Vs VM VG (Vm a Ia) (Vm b Ib) VD Ma Mb S0 Tab D0 Tm).
          -- exact (width_cut_le ev h _ _ _ _ _ _ _ _ _ _ _ _ (int_of vl) (er _ _ Vs) (er _ _ VM) (er _ _ VG) (er _ _ (Vm a Ia)) (er _ _ (Vm b Ib)) (er _ _ VD) Ma Mb S0 Tab Tm).
        * rewrite (eval_width ev h _ _ _ _ _ _ _ _ two_body_phsp phase_space_factor_value).
          rewrite (proj1 Vs), (proj1 VM), (proj1 VG), (proj1 (Vm a Ia)), (proj1 (Vm b Ib)), (proj1 VD). exact EW.
      + destruct Bf as [[Qx _]|[_ ->]]; [destruct Co as (Ty & _); rewrite Qx in Ty; discriminate Ty|].
        destruct (multi_ok m p a b k name f N (Pk a b Pab) Ff Co)
          as (e' & c0' & rest' & chs & vm' & vl & va & vb & vg & vd' & E' & EC' & E1' & El & Ea & Eb & Eg & Ed & EE & LC & NC & _).
        rewrite E' in E. injection E as <-. rewrite EE. split.
        2:{ intros y Hy. apply multi_symbols in Hy. destruct Hy as [->|[->|(ch & Ich & Hy)]]; [left; reflexivity|apply own_named; cbn; tauto|].
            assert (Y : In y [sigma_sym k; named "m" name; named "\Gamma" name; mass_sym a; mass_sym b; named "R" name] \/
              exists n, In y [channel_mass_sym "a" n; channel_mass_sym "b" n; channel_width_sym name n]).
            { destruct Ich as [<-|Ich].
              - left. clear -Hy. unfold channel_width in Hy. cbn [cn_width cn_m0 cn_s cn_m1 cn_m2 cn_L cn_radius symbols_of app In] in Hy. cbn [In]. tauto.
              - apply In_nth_error in Ich. destruct Ich as (q & Eq).
                assert (Lq : (q < length rest')%nat) by (rewrite <- LC; apply nth_error_Some; congruence).
                destruct (nth_error rest' q) as [cd|] eqn:Er; [|apply nth_error_None in Er; lia].
                destruct (NC q cd Er) as (vl' & va' & vb' & vg' & _ & _ & _ & _ & Y & _). rewrite Y in Eq. injection Eq as <-.
                unfold nth_channel, channel_width in Hy. cbn [cn_width cn_m0 cn_s cn_m1 cn_m2 cn_L cn_radius symbols_of app In] in Hy.
                set (n := 2 + Z.of_nat q) in *. clear - Hy n.
                assert (Z' : (y = sigma_sym k \/ y = named "m" name \/ y = named "R" name) \/ y = channel_mass_sym "a" n \/ y = channel_mass_sym "b" n \/ y = channel_width_sym name n).
                { repeat (destruct Hy as [<-|Hy]; [tauto|]). destruct Hy. }
                destruct Z' as [[->|[->| ->]]|Z']; [left; cbn; tauto..|]. right. exists n. cbn [In].
                destruct Z' as [->|[->| ->]]; tauto. }
            clear Hy. destruct Y as [Y|(n & Y)].
            - repeat destruct Y as [<-|Y]; try destruct Y; try apply own_mass; try (apply own_named; cbn; tauto). left. reflexivity.
            - destruct Y as [<-|[<-|[<-|[]]]]; [apply own_channel|apply own_channel|apply (proj2 (own_channel k "a" n))]. }
        rewrite multichannel_simple.
        destruct (fine_channel ev h _ _ _ _ _ _ _ _ _ _ _ _ (int_of vl) Vs VM VG (Vm a Ia) (Vm b Ib) VR S0 M0 ltac:(lra) (or_intror Q)) as (F1 & F2 & F3).
        assert (WW : exists W, (0 <= W)%R /\ (0 < W \/ Re (base (named "m" name)) * Re (base (named "m" name)) <> Re (base (sigma_sym k)))%R /\
          channel_value ev h (Channel (CVar (sigma_sym k)) (CVar (named "m" name)) (CVar (named "\Gamma" name)) (CVar (mass_sym a)) (CVar (mass_sym b))
            (int_of vl) (CVar (named "R" name))) = RtoC W).
        { destruct (Rle_lt_or_eq_dec _ _ Tab) as [Lt|Eq].
          - destruct (F3 G0 Ma Mb R0 Lt) as (W & W0 & EW). exists W. split; [lra|split; [left; exact W0|exact EW]].
          - destruct F2 as (W & W0 & EW). exists W. split; [exact W0|]. split; [|exact EW]. right. rewrite <- Eq. clear - Ma Mb M0 Off.
            intros E. apply Off. set (u := Re (base (named "m" name))) in *. set (v := (Re (base (mass_sym a)) + Re (base (mass_sym b)))%R) in *.
            assert (0 <= v)%R by (unfold v; lra). clearbody u v. nra. }
        destruct WW as (W & W0 & WO & EW). clear F2 F3.
        assert (Rest : forall ch, In ch chs -> fine ev h (channel_width ch) /\ exists y, (0 <= y)%R /\ channel_value ev h ch = RtoC y).
        { intros ch Ich. apply In_nth_error in Ich. destruct Ich as (q & Eq).
          assert (Lq : (q < length rest')%nat) by (rewrite <- LC; apply nth_error_Some; congruence).
          destruct (nth_error rest' q) as [cd|] eqn:Er; [|apply nth_error_None in Er; lia].
          destruct (NC q cd Er) as (vl' & va' & vb' & vg' & Dl & _ & _ & _ & Y & _). rewrite Y in Eq. injection Eq as <-.
          destruct (Ch p f c0' rest' q cd Ip Ff EC' Er) as ((Cg & Ca & Cb) & Op). fold name k in Cg, Ca, Cb, Op.
          set (n := 2 + Z.of_nat q) in *.
          assert (Vg : real_ev ev h (CVar (channel_width_sym name n)) (Re (base (channel_width_sym name n)))) by (apply V; [reflexivity|apply Rl; right; right; left; right; eauto]).
          assert (Va : real_ev ev h (CVar (channel_mass_sym "a" n)) (Re (base (channel_mass_sym "a" n)))) by (apply V; [reflexivity|apply Rl; right; left; right; eauto]).
          assert (Vb : real_ev ev h (CVar (channel_mass_sym "b" n)) (Re (base (channel_mass_sym "b" n)))) by (apply V; [reflexivity|apply Rl; right; left; right; eauto]).
          assert (Qc : int_of vl' = 0 \/ (0 <= rbreakup (Re (base (sigma_sym k))) (Re (base (channel_mass_sym "a" n))) (Re (base (channel_mass_sym "b" n))))%R).
          { destruct Op as [O|O]; [left|right].
            - assert (vl' = Q2Qc 0) by congruence. subst vl'. reflexivity.
            - apply rbreakup_sign; lra. }
          destruct (fine_channel ev h _ _ _ _ _ _ _ _ _ _ _ _ (int_of vl') Vs VM Vg Va Vb VR S0 M0 Cg Qc) as (X1 & X2 & _). split; assumption. }
        assert (Sum : exists y, (0 <= y)%R /\ Csum chs (channel_value ev h) = RtoC y).
        { clear - Rest. induction chs as [|ch chs IH]; [exists 0%R; split; [lra|reflexivity]|].
          destruct (Rest ch (or_introl eq_refl)) as (_ & y & Y & E). destruct IH as (y' & Y' & E'); [intros; apply Rest; right; auto|].
          exists (y + y')%R. rewrite Csum_eq_cons, E, E', RtoC_plus. split; [lra|reflexivity]. }
        destruct Sum as (W' & W0' & EW').
        apply (fine_simple_le ev h _ _ _ (Re (base (sigma_sym k))) (Re (base (named "m" name))) (W + W'));
          [apply fine_var|apply fine_var| |apply Vs|apply VM| |exact M0|lra|destruct WO as [WO|WO]; [left; lra|right; exact WO]].
        * apply fine_addl. intros ch Ich. apply in_map_iff in Ich. destruct Ich as (c' & <- & [<-|I']); [exact F1|apply Rest; exact I'].
        * rewrite ceval_CAddL, Csum_map. rewrite Csum_eq_cons. rewrite (Csum_ext chs _ (channel_value ev h)) by reflexivity.
          rewrite EW', RtoC_plus. f_equal. exact EW.
    - (* form factors *)
      assert (Iv : exists v, In v (cd_vertices c) /\ formulate_form_factor v m = Ok y).
      { clear - Fs Hy. induction Fs as [|v f vs fs' E Fs IH]; [destruct Hy|]. destruct Hy as [->|Hy]; [exists v; split; [left; reflexivity|exact E]|].
        destruct (IH Hy) as (v' & I' & E'). exists v'. split; [right; exact I'|exact E']. }
      destruct Iv as (v & Iv & E).
      destruct (tb_production _ _ _ _ _ _ _ T) as (a' & b' & Np & Pp).
      assert (Vv : v = vp \/ v = vd) by (destruct (tb_vertices _ _ _ _ _ _ _ T) as [Ev'|Ev']; rewrite Ev' in Iv; destruct Iv as [<-|[<-|[]]]; auto).
      destruct (proj2 Cc v Iv) as [Qx|[Qx|(nm & f & Vn & NE & Ff & Ty & HN)]].
      1, 2: rewrite (form_factor_none m v ltac:(auto)) in E; injection E as <-; (split; [apply fine_num|intros z []]).
      destruct (HN "l") as (vl & E1); [cbn; auto|]. destruct (HN "radius") as (vr & E2); [cbn; auto|].
      destruct Vv as [->| ->].
      + destruct (form_factor_production m vp nm f vl vr Vn NE Ff Ty E1 E2 a' b' k d s r (hd_states _ _ _ _ _ _ _ _ _ H) Np (Pk _ _ Pp)) as (m1 & m2 & E' & X12).
        rewrite E' in E. injection E as <-. cbn [de_expr]. split.
        2:{ clear Hy. intros y Hy. cbn [symbols_of app In] in Hy. clear - Hy X12.
            assert (Y : own k m1 /\ own k m2) by (destruct X12 as [(_ & -> & ->)|(_ & -> & ->)]; (split; [first [left; reflexivity|apply own_mass]|first [left; reflexivity|apply own_mass]])).
            destruct Hy as [<-|[<-|[<-|[<-|[]]]]]; [apply own_mass|apply Y|apply Y|apply own_named; cbn; tauto]. }
        assert (L0 : int_of vl = 0).
        { destruct (NB vp k _ Iv Np) as [Qx|[Qx|(nm' & f' & Qx & Ff' & L0)]]; try congruence.
          assert (nm' = nm) by congruence. subst nm'. rewrite (function_fun m _ _ _ Ff' Ff) in L0.
          assert (vl = Q2Qc 0) by congruence. subst vl. reflexivity. }
        rewrite L0. apply fine_ff0. cbn [ceval]. rewrite Ev by reflexivity.
        rewrite (real_of (base (mass_sym 0))) by (apply Rl; left; right; left; reflexivity).
        apply RtoC_pos_neq. exact Hm0.
      + pose proof (tb_decay _ _ _ _ _ _ _ T) as Nd.
        rewrite (form_factor_decay m vd nm f vl vr Vn NE Ff Ty E1 E2 _ _ k Nd P) in E. injection E as <-. cbn [de_expr].
        destruct (pair_le _ _ (Permutation_refl _)) as (Mi & Mj & S0 & Tij & _). split.
        2:{ clear Hy. intros y Hy. cbn [symbols_of app In] in Hy. clear - Hy.
            destruct Hy as [<-|[<-|[<-|[<-|[]]]]]; [left; reflexivity|apply own_mass|apply own_mass|apply own_radius]. }
        assert (I3 : forall n, In n [ct_i (x c); ct_j (x c)] -> In n [1; 2; 3]).
        { intros n In'. apply (Permutation_in n P). cbn in In' |- *. tauto. }
        apply (fine_ff ev h _ _ _ _ _ _ _ _ (int_of vl) Vs (Vm _ (I3 _ (or_introl eq_refl))) (Vm _ (I3 _ (or_intror (or_introl eq_refl)))) VD S0).
        right. apply rbreakup_sign; lra.
  Qed.
End Regular.

Lemma sigma_sym_at base s1 s2 s3 k : In k [1; 2; 3] -> at_sigmas base s1 s2 s3 (sigma_sym k) = RtoC (sigma_value s1 s2 s3 k).
Proof. intros [<-|[<-|[<-|[]]]]; reflexivity. Qed.
Lemma at_sigmas_not base s1 s2 s3 y : (forall n, y <> sigma_sym n) -> at_sigmas base s1 s2 s3 y = base y.
Proof.
  intros N. unfold at_sigmas.
  destruct (eqb y (Sym "sigma1" ANonneg)) eqn:E1; [apply (proj1 (eqb_eq _ _)) in E1; destruct (N 1 E1)|].
  destruct (eqb y (Sym "sigma2" ANonneg)) eqn:E2; [apply (proj1 (eqb_eq _ _)) in E2; destruct (N 2 E2)|].
  destruct (eqb y (Sym "sigma3" ANonneg)) eqn:E3; [apply (proj1 (eqb_eq _ _)) in E3; destruct (N 3 E3)|]. reflexivity.
Qed.
Lemma at_sigmas_other base s1 s2 s3 y : sassume y <> ANonneg -> at_sigmas base s1 s2 s3 y = base y.
Proof. intros N. apply at_sigmas_not. intros n E. apply N. rewrite E. reflexivity. Qed.

Section General.
  Variables (m : model_def) (d : distribution) (s : Z -> state) (r : Z) (tl : string -> string)
    (additional : option (dict string prop_builder))
    (x : chain_def -> content) (w : chain_def -> symbol) (dyn : chain_def -> defexpr).
  Hypothesis H : helicity_definition m d s r tl additional x w dyn.
  Variables (cl : bool) (M : model).
  Hypothesis F : SerAmplitude.formulate m cl tl additional = Ok M.
  Variables (base : symbol -> C) (cpl : string -> list ival -> C).
  Let ev (t : R * R * R) := at_point (m_variables M) (at_sigmas base (fst (fst t)) (snd (fst t)) (snd t)) cpl.
  Theorem c141_serial_general : (forall c, In c (di_chains d) -> own_sigma_only base cpl (ct_k (x c)) (de_expr (dyn c))) ->
    (forall c, In c (di_chains d) -> continuous_on_range base cpl (ct_k (x c)) (de_expr (dyn c))) ->
    exists B, forall s1 s2 s3, on_dalitz_plot base s1 s2 s3 ->
      (Re (full_value (at_point (m_variables M) (at_sigmas base s1 s2 s3) cpl) M) <= B)%R.
  Proof.
    intros O Ct. set (P := fun t : R * R * R => on_dalitz_plot base (fst (fst t)) (snd (fst t)) (snd t)).
    assert (E : exists B, forall t, P t -> (Re (full_value (ev t) M) <= B)%R).
    { apply (square_bounded P _ (fun t => Rsum (di_chains d) (serial_size x w dyn (ev t))) (IZR (p_spin (s 0) + 1))).
      - apply IZR_le. destruct (ds_initial _ _ _ _ _ (hd_states _ _ _ _ _ _ _ _ _ H)) as (_ & j & Hj & _ & E). rewrite E. cbn. lia.
      - intros t. apply sum_nonneg. intros c. unfold serial_size.
        repeat apply Rmult_le_pos; try apply Cmod_ge_0; pose proof (Rabs_pos (IZR (ct_fp (x c)))); pose proof (Rabs_pos (IZR (ct_fd (x c)))); lra.
      - intros t. exact (c137_serial m d s r tl additional x w dyn H cl M F (ev t)).
      - apply (sum_bounded P (fun c t => serial_size x w dyn (ev t) c)). intros c Hc.
        destruct (shape_bounded base cpl (ct_k (x c)) (de_expr (dyn c))) as (B & B0 & HB); auto.
        { apply (Permutation_in _ (hd_perm m d s r tl additional x w dyn H c Hc)). cbn; auto. }
        exists (Cmod (base (w c)) * B * (1 + Rabs (IZR (ct_fp (x c)))) * (1 + Rabs (IZR (ct_fd (x c)))))%R.
        intros [[s1 s2] s3] Pt. unfold serial_size, ev. cbn [fst snd].
        destruct (hd_weight _ _ _ _ _ _ _ _ _ H c Hc) as (v & Hw). apply weight_shape in Hw.
        rewrite (serial_at_point m d s r tl additional x w dyn H cl M F), at_sigmas_other by congruence.
        rewrite (serial_lineshape m d s r tl additional x w dyn H cl M F _ _ c Hc).
        pose proof (Rabs_pos (IZR (ct_fp (x c)))). pose proof (Rabs_pos (IZR (ct_fd (x c)))).
        apply Rmult_le_compat_r; [lra|]. apply Rmult_le_compat_r; [lra|]. apply Rmult_le_compat_l; [apply Cmod_ge_0|]. exact (HB s1 s2 s3 Pt). }
    destruct E as (B & HB). exists B. intros s1 s2 s3 Hs. exact (HB (s1, s2, s3) Hs).
  Qed.
End General.

Lemma own_evaluation base cpl k e : In k [1; 2; 3] -> lineshape e = true -> (forall y, In y (symbols_of e) -> own k y) -> own_sigma_only base cpl k e.
Proof.
  intros K Ls O s1 s2 s3 t. apply lineshape_eval; auto. intros y _ Hy. cbn [e_sym]. destruct (O y Hy) as [->|N].
  - rewrite !sigma_sym_at by exact K. f_equal. unfold t, sigma_value. destruct (k =? 1); auto. destruct (k =? 2); auto.
  - rewrite !at_sigmas_not by exact N. reflexivity.
Qed.
Lemma lower_serial base i j k : Permutation [i; j; k] [1; 2; 3] ->
  lower_limit base k = ((Re (base (mass_sym i)) + Re (base (mass_sym j))) * (Re (base (mass_sym i)) + Re (base (mass_sym j))))%R.
Proof.
  intros P. apply perm_123 in P. unfold lower_limit, particle_mass, mass_sym. cbn [In] in P.
  repeat destruct P as [P|P]; try contradiction; injection P as <- <- <-; unfold next_label; cbn [Z.eqb Pos.eqb Z.add Pos.add Pos.succ]; ring.
Qed.
(** A chain that is regular at the lower limit of its range is so on the whole range. *)
Lemma regular_range m tl x base c t0 : In (ct_k (x c)) [1; 2; 3] -> (lower_limit base (ct_k (x c)) <= t0)%R ->
  regular_serial m tl x (at_sigmas base (lower_limit base (ct_k (x c))) (lower_limit base (ct_k (x c))) (lower_limit base (ct_k (x c)))) c ->
  regular_serial m tl x (at_sigmas base t0 t0 t0) c.
Proof.
  intros K L. set (t := lower_limit base (ct_k (x c))) in *. intros (Cc & NB & (Rl & Ps) & Th & Ch).
  assert (V : forall u, sigma_value u u u (ct_k (x c)) = u) by (intros u; unfold sigma_value; destruct (_ =? 1); auto; destruct (_ =? 2); auto).
  split; [exact Cc|]. split; [exact NB|]. split; [|split].
  - split; [|exact Ps]. intros y [[<-|Y]|Y].
    + rewrite sigma_sym_at by exact K. reflexivity.
    + pose proof (Rl y (or_introl (or_intror Y))) as Z. cbn [map] in Y. repeat destruct Y as [<-|Y]; try contradiction; exact Z.
    + pose proof (Rl y (or_intror Y)) as Z.
      assert (N : forall n, y <> sigma_sym n).
      { destruct Y as [[->|(q & [->| ->])]|[[->|(q & ->)]|[->| ->]]]; intros n; discriminate. }
      rewrite at_sigmas_not in Z |- * by exact N. exact Z.
  - exact Th.
  - intros p f ch0 chs q ch Ip Ff Ec Eq. destruct (Ch p f ch0 chs q ch Ip Ff Ec Eq) as (A & B).
    split; [exact A|]. destruct B as [B|B]; [left; exact B|right].
    rewrite sigma_sym_at in B |- * by exact K. rewrite V in B |- *. cbn [Re RtoC fst] in B |- *. eapply Rle_trans; [exact B|exact L].
Qed.
Lemma serial_shapes m d s r tl x w dyn base cpl : helicity_definition m d s r tl None x w dyn ->
  physical (fun y => Re (base y)) -> nonsingular (fun y => Re (base y)) ->
  (forall c, In c (di_chains d) -> threshold_serial m tl x base c) ->
  (forall c, In c (di_chains d) -> own_sigma_only base cpl (ct_k (x c)) (de_expr (dyn c))) /\
  (forall c, In c (di_chains d) -> continuous_on_range base cpl (ct_k (x c)) (de_expr (dyn c))).
Proof.
  intros H Ph Ns Rg.
  destruct (thresholds (fun y => Re (base y)) Ph Ns) as (M0 & M1 & M2 & M3 & _).
  assert (Hm : forall n, In n [1; 2; 3] -> (0 <= Re (base (mass_sym n)))%R) by (intros n [<-|[<-|[<-|[]]]]; assumption).
  assert (X : forall c, In c (di_chains d) -> forall t0, (lower_limit base (ct_k (x c)) <= t0)%R ->
    fine_own (Env (at_sigmas base t0 t0 t0) cpl) (fun _ => 0) (ct_k (x c)) (de_expr (dyn c))).
  { intros c Hc t0 L. destruct (Rg c Hc) as (Rc & Pp & Off). pose proof (hd_perm m d s r tl None x w dyn H c Hc) as P.
    assert (K : In (ct_k (x c)) [1; 2; 3]) by (apply (Permutation_in _ P); cbn; auto).
    apply (regular_fine_own m d s r tl x w dyn H (at_sigmas base t0 t0 t0) c Hc); auto.
    - exact (regular_range m tl x base c t0 K L Rc).
    - rewrite (lower_serial base _ _ _ P) in L. rewrite sigma_sym_at by exact K.
      unfold sigma_value. destruct (_ =? 1); [exact L|]. destruct (_ =? 2); exact L. }
  assert (K : forall c, In c (di_chains d) -> In (ct_k (x c)) [1; 2; 3]).
  { intros c Hc. apply (Permutation_in _ (hd_perm m d s r tl None x w dyn H c Hc)). cbn; auto. }
  split.
  - intros c Hc. apply own_evaluation; [apply K; exact Hc|exact (hd_lineshape _ _ _ _ _ _ _ _ _ H c Hc)|].
    exact (proj2 (X c Hc _ (Rle_refl _))).
  - intros c Hc t0 [Lo _]. destruct (X c Hc t0 Lo) as [[D N] _]. destruct (at_sigmas_tends base cpl t0) as [L1 L2].
    exact (ceval_tends (locally t0) (de_expr (dyn c)) (fun t => Env (at_sigmas base t t t) cpl) (Env (at_sigmas base t0 t0 t0) cpl) L1 L2 (fun _ => 0) D N).
Qed.
Theorem c141_serial m d s r tl x w dyn cl M base cpl : helicity_definition m d s r tl None x w dyn ->
  SerAmplitude.formulate m cl tl None = Ok M ->
  physical (fun y => Re (base y)) -> nonsingular (fun y => Re (base y)) ->
  (forall c, In c (di_chains d) -> threshold_serial m tl x base c) ->
  exists B, forall s1 s2 s3, on_dalitz_plot base s1 s2 s3 ->
    (Re (full_value (at_point (m_variables M) (at_sigmas base s1 s2 s3) cpl) M) <= B)%R.
Proof.
  intros H F Ph Ns Rg. destruct (serial_shapes m d s r tl x w dyn base cpl H Ph Ns Rg) as [O Ct].
  exact (c141_serial_general m d s r tl None x w dyn H cl M F base cpl O Ct).
Qed.
