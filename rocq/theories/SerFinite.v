(** C127: serialised models do not divide by zero and are continuous *)
From Coq Require Import String ZArith QArith Qcanon Qreals List Bool Reals Lia Lra Psatz Permutation Sorted.
From Coquelicot Require Import Hierarchy Complex.
From Verif Require Import Prelude AnglesFacts Spin Decay Expr Angles Sums Wigner CG CExpr SpecKin SpecDPD Builder
  SpinFacts DecayFacts CExprFacts BuilderFacts ModelFacts KinFacts AnglesProofs Dynamics SpecDynamics DynamicsProofs LineshapeFacts LineshapeProofs
  SpecFinite FiniteFacts FiniteShapes SpecContinuity ContinuityFacts ContinuityProofs HankelFacts SpecObs SerFormat SerDynamics
  SerAmplitude SpecSerial SpecSerialShapes SerDecay SerAmpFacts SerModel SerProofs SerDyn SerShapes SerFormal SpecWeights SerWeights SerSymbols
  SpecPropagators SerPropagators SerTotal SpecSerPoints SerPoints SpecSerFinite.
Import ListNotations.
Local Open Scope string_scope.
Local Open Scope Z_scope.
Local Open Scope list_scope.

(** ** Which numbers serialised amplitudes divide by *)
Lemma csub_lineshape s z e : lineshape e = true -> csub s z e = e.
Proof.
  induction e; cbn [lineshape csub]; intros LN; try discriminate; auto;
  repeat match goal with H : _ && _ = true |- _ => apply andb_prop in H; destruct H end;
  repeat match goal with IH : lineshape ?e = true -> _, H : lineshape ?e = true |- _ => rewrite (IH H); clear IH end; reflexivity.
Qed.
Lemma recoupling_plain m n vi e : formulate_recoupling m n vi = Ok e -> plain e = true.
Proof.
  intros E. unfold formulate_recoupling in E. inv_bind E. destruct (negb _); [discriminate|]. destruct (negb _); [discriminate|].
  inv_bind E. inv_bind E. destruct v1 as [la lb].
  destruct (_ || _).
  - inv_bind E. inv_bind E. destruct v2 as [a0 b0].
    match type of E with (if ?c then _ else _) = _ => destruct c end; [inv_bind E|]; ok_inj E; subst e; reflexivity.
  - match type of E with (if ?c then _ else _) = _ => destruct c end; [|discriminate].
    inv_bind E. inv_bind E. inv_bind E. inv_bind E. destruct v4 as [ja jb]. inv_bind E. ok_inj E. subst e. reflexivity.
Qed.
Section Serial.
  Variables (m : model_def) (d : distribution) (s : Z -> state) (r : Z)
    (tl : string -> string) (additional : option (dict string prop_builder))
    (x : chain_def -> content) (w : chain_def -> symbol) (dyn : chain_def -> defexpr).
  Hypothesis H : helicity_definition m d s r tl additional x w dyn.

  Lemma chain_divisors n c l a : nth_error (di_chains d) n = Some c ->
    formulate_chain_amplitude l m n tl additional = Ok a ->
    ca_key a = (amp_name (ct_k (x c)), amp_index l) /\
    forall ev h, divisors ev h (subs_helicities l (ca_expr a)) = divisors ev h (de_expr (dyn c)).
  Proof.
    intros Hn E. assert (Ic : In c (di_chains d)) by (eapply nth_error_In; eauto).
    destruct (hd_dynamics _ _ _ _ _ _ _ _ _ H c Ic) as (y & Y1 & Y2).
    pose proof (hd_lineshape _ _ _ _ _ _ _ _ _ H c Ic) as LS.
    assert (NC : nth_chain m n = Ok c) by (unfold nth_chain; rewrite (hd_chains _ _ _ _ _ _ _ _ _ H); cbn [bind]; rewrite Hn; reflexivity).
    unfold formulate_chain_amplitude in E. rewrite NC in E. cbn [bind] in E. rewrite Y1 in E. cbn [bind] in E. rewrite Y2 in E. cbn [bind] in E.
    inv_bind E. destruct v as [wc wv]. inv_bind E. inv_bind E. destruct v0 as [[i li] [j lj]]. inv_bind E. destruct v0 as [th the].
    destruct (cd_propagators c) as [|p ps]; [discriminate|]. inv_bind E. inv_bind E. destruct v1 as [rn rr]. inv_bind E.
    inv_bind E. inv_bind E. inv_bind E. ok_inj E. subst a. cbn [ca_expr ca_key fst].
    repeat match goal with E : formulate_recoupling _ _ _ = Ok _ |- _ => apply recoupling_plain in E end.
    match goal with E : get_spectator_id _ = Ok ?k |- _ =>
      rewrite (hd_topology m d s r tl additional x w dyn H c Ic) in E; ok_inj E; subst k end.
    split.
    - match goal with E : amp_base _ = Ok _ |- _ => rename E into EB end. pose proof (hd_k m d s r tl additional x w dyn H c Ic) as K.
      unfold amp_base in EB. clear - EB K. cbn [In] in K.
      destruct l as [[[l0 l1] l2] l3]. destruct K as [K|[K|[K|[]]]]; rewrite <- K in *; cbn in EB; injection EB as <-; reflexivity.
    - intros ev h. unfold subs_helicities. cbn [fold_left csub divisors].
      rewrite !(csub_lineshape _ _ (de_expr (dyn c))) by exact LS.
      rewrite !plain_divisors by (rewrite !plain_csub; assumption). reflexivity.
  Qed.
  Lemma loop_divisors ev h work : (forall ln, In ln work -> (snd ln < length (di_chains d))%nat) -> forall amps vars ps amps' vars' ps',
    SerAmplitude.formulate_loop m tl additional work (amps, vars, ps) = Ok (amps', vars', ps') ->
    forall key e z, dget key amps' = Some e -> In z (divisors ev h e) ->
      (exists e0, dget key amps = Some e0 /\ In z (divisors ev h e0)) \/
      exists c, In c (di_chains d) /\ fst key = amp_name (ct_k (x c)) /\ In z (divisors ev h (de_expr (dyn c))).
  Proof.
    induction work as [|[l n] work IH]; intros L amps vars ps amps' vars' ps' E key e z G Hz; cbn [SerAmplitude.formulate_loop] in E.
    - ok_inj E. injection E as <- _ _. left. eauto.
    - inv_bind E. destruct (IH (fun ln I => L ln (or_intror I)) _ _ _ _ _ _ E key e z G Hz) as [(e0 & G0 & Z0)|X]; [|right; exact X].
      rewrite dget_dset in G0. destruct (eq_dec key (ca_key v)) as [->|_]; [|left; eauto].
      assert (Ln : (n < length (di_chains d))%nat) by (apply (L (l, n)); left; reflexivity).
      destruct (nth_error (di_chains d) n) as [c|] eqn:Hn; [|apply nth_error_None in Hn; lia].
      destruct (chain_divisors n c l v Hn E0) as [K D].
      injection G0 as <-. cbn [divisors] in Z0. apply in_app_or in Z0. destruct Z0 as [Z0|Z0].
      + destruct (dget (ca_key v) amps) as [e1|] eqn:G1; [left; eauto|destruct Z0].
      + right. exists c. split; [eapply nth_error_In; eauto|]. rewrite D in Z0. rewrite K. auto.
  Qed.
  Lemma loop_keeps ev h work : forall amps vars ps amps' vars' ps',
    SerAmplitude.formulate_loop m tl additional work (amps, vars, ps) = Ok (amps', vars', ps') ->
    forall key e z, dget key amps = Some e -> In z (divisors ev h e) -> exists e', dget key amps' = Some e' /\ In z (divisors ev h e').
  Proof.
    induction work as [|[l n] work IH]; intros amps vars ps amps' vars' ps' E key e z G Hz; cbn [SerAmplitude.formulate_loop] in E.
    - ok_inj E. injection E as <- _ _. eauto.
    - inv_bind E.
      assert (X : exists e1, dget key (dset (ca_key v) (CAdd match dget (ca_key v) amps with Some e => e | None => CNum 0 end (subs_helicities l (ca_expr v))) amps) = Some e1 /\
        In z (divisors ev h e1)).
      { rewrite dget_dset. destruct (eq_dec key (ca_key v)) as [->|_]; [|eauto]. eexists. split; [reflexivity|]. rewrite G. cbn [divisors]. apply in_or_app. auto. }
      destruct X as (e1 & G1 & Z1). exact (IH _ _ _ _ _ _ E key e1 z G1 Z1).
  Qed.
  Lemma loop_contains ev h work : forall amps vars ps amps' vars' ps',
    SerAmplitude.formulate_loop m tl additional work (amps, vars, ps) = Ok (amps', vars', ps') ->
    forall l n c z, In (l, n) work -> nth_error (di_chains d) n = Some c -> In z (divisors ev h (de_expr (dyn c))) ->
      exists e', dget (amp_name (ct_k (x c)), amp_index l) amps' = Some e' /\ In z (divisors ev h e').
  Proof.
    induction work as [|[l0 n0] work IH]; intros amps vars ps amps' vars' ps' E l n c z I Hn Hz; [destruct I|]. cbn [SerAmplitude.formulate_loop] in E.
    inv_bind E. destruct I as [X|I]; [|exact (IH _ _ _ _ _ _ E l n c z I Hn Hz)].
    assert (l0 = l) by congruence. assert (n0 = n) by congruence. subst l0 n0.
    destruct (chain_divisors n c l v Hn E0) as [K D].
    eapply (loop_keeps ev h work _ _ _ _ _ _ E).
    - rewrite <- K. unfold akey in *. rewrite dget_dset. match goal with |- (if ?q then _ else _) = _ => destruct q as [_|N]; [reflexivity|destruct (N eq_refl)] end.
    - cbn [divisors]. apply in_or_app. right. rewrite D. exact Hz.
  Qed.
  Variables (cl : bool) (M : model).
  Hypothesis F : SerAmplitude.formulate m cl tl additional = Ok M.
  Theorem serial_amplitude_divisors ev key e z : dget key (m_amplitudes M) = Some e -> In z (divisors ev (fun _ => 0) e) ->
    exists c, In c (di_chains d) /\ fst key = amp_name (ct_k (x c)) /\ In z (divisors ev (fun _ => 0) (de_expr (dyn c))).
  Proof.
    destruct (serial_model m d s r tl additional x w dyn H cl) as
      (M' & ks & terms & zdefs & amps & vars & F' & _ & AT & L & _ & SD & EA & _ & EI & _).
    rewrite F in F'. ok_inj F'. subst M'. rewrite EA. intros G Hz.
    assert (W : forall ln, In ln (work d s) -> (snd ln < length (di_chains d))%nat).
    { intros [l n] I. apply (work_In d s) in I. apply I. }
    destruct (loop_divisors ev (fun _ => 0) (work d s) W _ _ _ _ _ _ L key e z G Hz) as [(e0 & G0 & _)|X]; [discriminate G0|exact X].
  Qed.
  Theorem serial_lineshape_divisors ev c l z : In c (di_chains d) -> helicity_tuple s l -> In z (divisors ev (fun _ => 0) (de_expr (dyn c))) ->
    exists e, dget (amp_name (ct_k (x c)), amp_index l) (m_amplitudes M) = Some e /\ In z (divisors ev (fun _ => 0) e).
  Proof.
    destruct (serial_model m d s r tl additional x w dyn H cl) as
      (M' & ks & terms & zdefs & amps & vars & F' & _ & AT & L & _ & SD & EA & _ & EI & _).
    rewrite F in F'. ok_inj F'. subst M'. rewrite EA. intros Hc Hl Hz.
    apply In_nth_error in Hc. destruct Hc as (n & Hn).
    apply (loop_contains ev (fun _ => 0) (work d s) _ _ _ _ _ _ L l n c z); auto.
    apply work_In. split; [exact Hl|]. apply nth_error_Some. congruence.
  Qed.
  Theorem serial_intensity_divisors ev h : divisors ev h (m_intensity M) = [].
  Proof.
    destruct (serial_model m d s r tl additional x w dyn H cl) as
      (M' & ks & terms & zdefs & amps & vars & F' & _ & AT & L & _ & SD & EA & _ & EI & _).
    rewrite F in F'. ok_inj F'. subst M'. rewrite EI. apply plain_divisors. unfold serial_intensity.
    assert (PA : plain (aligned_expr s terms) = true).
    { unfold aligned_expr. cbn [plain]. apply plain_addl. eapply aligned_terms_plain. exact AT. }
    destruct cl; [|exact PA]. apply plain_cleanup. cbn [plain]. apply plain_cleanup. exact PA.
  Qed.
  Lemma serial_variables y e : dget y (m_variables M) = Some e ->
    (exists c, In c (di_chains d) /\ formulate_scattering_angle (ct_i (x c)) (ct_j (x c)) = Ok (y, e)) \/
    (exists i k, formulate_zeta_angle i k r = Ok (y, e)).
  Proof.
    intros E.
    destruct (serial_model m d s r tl additional x w dyn H cl)
      as (M' & ks & terms & zdefs & amps & vars & F' & K & AT & L & _ & SD & EA & EV & EI & EP & _ & EN).
    assert (M' = M) by congruence. subst M'.
    destruct (loop_ok m d s r tl additional x w dyn H (work d s)) with (amps := @nil (akey * cexpr)) (vars := @nil (symbol * rexpr)) (params := @nil (pkey * pval))
      as (amps' & vars' & L' & _ & I2 & I3 & I4 & I5 & I6 & I7).
    { intros [l' n] I. apply work_In in I. apply I. }
    assert (amps' = amps) by (unfold dict, akey in *; congruence). subst amps'.
    assert (vars' = vars) by (unfold dict, akey in *; congruence). subst vars'.
    destruct (subsystems_ok m d s r tl additional x w dyn H) as (ks' & K1 & K2 & K3 & K4).
    assert (ks' = ks) by congruence. subst ks'.
    assert (Hk : forall k, In k ks -> In k [1; 2; 3]).
    { intros k I. apply K3 in I. destruct I as (c & I & <-). apply (hd_k m d s r tl additional x w dyn H). exact I. }
    destruct (aligned_terms_facts s r ks Hk _ _ _ AT) as (_ & O & Z1 & Z2 & _ & Z3 & Z4).
    assert (NZ : NoDup (dkeys zdefs)) by (apply Z4; constructor).
    rewrite EV in E. rewrite dget_dupdate_nodup in E by exact NZ.
    destruct (dget y zdefs) as [e'|] eqn:Ez.
    - assert (e' = e) by congruence. subst e'. right.
      destruct (Z3 ks (incl_refl _) (fun x e Hx => ltac:(discriminate Hx)) _ _ Ez) as (i & k & Hi & Hk' & S & -> & Fz). eauto.
    - destruct (I4 y e E) as [X|(c & Ic & X & _)]; [discriminate X|]. left. exists c. auto.
  Qed.
  Lemma serial_variables_real base : physical (fun y => Re (base y)) -> nonsingular (fun y => Re (base y)) ->
    forall y e, dget y (m_variables M) = Some e -> real_valued (fun y => Re (base y)) e.
  Proof.
    intros Ph Ns y e G. destruct (c17 _ Ph Ns) as (C1 & _ & C3).
    destruct (serial_variables y e G) as [(c & _ & E)|(i & k & E)]; [exact (C1 _ _ _ _ E)|exact (C3 _ _ _ _ _ E)].
  Qed.
End Serial.

(** ** Expressions without poles and cuts *)
Section Fine.
  Variables (ev : env) (h : symbol -> Z).
  Definition fine (e : cexpr) : Prop := (forall z, In z (divisors ev h e) -> z <> RtoC 0) /\ no_cut ev h e.
  Lemma fine_mul a b : fine a -> fine b -> fine (CMul a b).
  Proof. intros [A A'] [B B']. split; [intros z Hz; apply div_mul in Hz; destruct Hz; auto|apply rad_mul; auto]. Qed.
  Lemma fine_sub a b : fine a -> fine b -> fine (CSub a b).
  Proof. intros [A A'] [B B']. split; [intros z Hz; apply div_sub in Hz; destruct Hz; auto|apply rad_sub; auto]. Qed.
  Lemma fine_add a b : fine a -> fine b -> fine (CAdd a b).
  Proof. intros [A A'] [B B']. split; intros z Hz; apply in_app_or in Hz; destruct Hz; auto. Qed.
  Lemma fine_div a b : fine a -> fine b -> ceval ev h b <> RtoC 0 -> fine (CDiv a b).
  Proof. intros [A A'] [B B'] N. split; [intros z Hz; apply div_div in Hz; destruct Hz as [->|[]]; auto|apply rad_div; auto]. Qed.
  Lemma fine_sqr a : fine a -> fine (CSqr a).
  Proof. intros A. exact A. Qed.
  Lemma fine_var y : fine (CVar y).
  Proof. split; intros z []. Qed.
  Lemma fine_num n : fine (CNum n).
  Proof. split; intros z []. Qed.
  Lemma fine_im : fine CIm.
  Proof. split; intros z []. Qed.
  Lemma fine_addl l : (forall e, In e l -> fine e) -> fine (CAddL l).
  Proof.
    induction l as [|e l IH]; intros A; [apply fine_num|]. cbn [CAddL]. apply fine_add; [apply A; left; reflexivity|].
    apply IH. intros; apply A; right; auto.
  Qed.
  Lemma fine_fold xs : (forall y, In y xs -> fine (de_expr y)) -> forall e0, fine (de_expr e0) ->
    fine (de_expr (fold_left (fun e x => de_mul e (MulDef x)) xs e0)).
  Proof.
    induction xs as [|y xs IH]; intros A e0 B; cbn [fold_left]; [exact B|].
    apply IH; [intros; apply A; right; auto|]. cbn [de_mul de_expr]. apply fine_mul; auto. apply A. left. reflexivity.
  Qed.
  Lemma fine_simple es em eG (s m G : R) : fine es -> fine em -> fine eG -> ceval ev h es = RtoC s -> ceval ev h em = RtoC m -> ceval ev h eG = RtoC G ->
    (0 < m)%R -> (0 < G)%R -> fine (simple_breit_wigner es em eG).
  Proof.
    intros A B D Es Em EG M0 G0. unfold simple_breit_wigner. apply fine_div; [apply fine_num| |].
    - apply fine_sub; [apply fine_sub; auto; apply fine_sqr; auto|]. apply fine_mul; [apply fine_mul; auto|apply fine_im].
    - cbn [ceval]. rewrite Es, Em, EG, <- !RtoC_mult, <- RtoC_minus. apply im_neq.
      assert (0 < m * G)%R by (apply Rmult_lt_0_compat; lra). lra.
  Qed.
  Lemma fine_ff0 a b c y : ceval ev h (CVar a) <> RtoC 0 -> fine (CFormFactor (CVar a) (CVar b) (CVar c) 0 (CVar y)).
  Proof.
    assert (P : forall z, bw_poly 0 z = RtoC (bw_coeff 0 0)) by (intros z; unfold bw_poly; cbn [seq Csum cpow]; rewrite Cplus_0_r, Cmult_1_r; reflexivity).
    pose proof (bw_coeff_pos 0 0) as B0.
    intros N. split; intros z; cbn [divisors radicands app In Z.to_nat].
    - intros [<-|[<-|[]]].
      + apply Cmult_neq_0; [apply RtoC_neq; lra|exact N].
      + rewrite P. apply RtoC_pos_neq, B0.
    - intros [<-|[]]. unfold blatt_weisskopf_squared. rewrite !P. cbn [cpow].
      rewrite Cmult_1_l. unfold Cdiv. rewrite Cinv_r by (apply RtoC_pos_neq, B0). apply nonneg_cut. lra.
  Qed.
  Lemma fine_ff es ea eb er s a b r L : real_ev ev h (CVar es) s -> real_ev ev h (CVar ea) a -> real_ev ev h (CVar eb) b -> real_ev ev h (CVar er) r ->
    (0 < s)%R -> L = 0 \/ (0 <= rbreakup s a b)%R -> fine (CFormFactor (CVar es) (CVar ea) (CVar eb) L (CVar er)).
  Proof.
    intros A B D E S0 Q. split.
    - exact (ff_divisors ev h _ _ _ _ s a b r L A B D E S0 Q).
    - apply (ff_cut ev h _ _ _ _ s a b r L); auto.
  Qed.
  Lemma ff_square L s a b r : (0 < s)%R -> L = 0 \/ (0 <= rbreakup s a b)%R ->
    exists y, (0 <= y)%R /\ (form_factor L (RtoC s) (RtoC a) (RtoC b) (RtoC r) * form_factor L (RtoC s) (RtoC a) (RtoC b) (RtoC r))%C = RtoC y.
  Proof.
    intros S0 [->|Q].
    - rewrite form_factor_zero. exists 1%R. split; [lra|]. rewrite <- RtoC_mult. f_equal. ring.
    - unfold form_factor. rewrite csqrt_square, breakup_real, <- !RtoC_mult. unfold blatt_weisskopf_squared.
      assert (Z0 : (0 <= rbreakup s a b * (r * r))%R) by (apply Rmult_le_pos; [exact Q|]; pose proof (Rle_0_sqr r); unfold Rsqr in *; lra).
      destruct (bw_poly_pos (Z.to_nat L) 1 ltac:(lra)) as (p1 & P1 & ->).
      destruct (bw_poly_pos (Z.to_nat L) _ Z0) as (pz & Pz & ->).
      unfold Cdiv. rewrite cpow_real, Cinv_RtoC, <- !RtoC_mult. eexists. split; [|reflexivity].
      apply Rmult_le_pos; [apply Rmult_le_pos; [apply pow_le; exact Z0|lra]|]. left. apply Rinv_0_lt_compat. exact Pz.
  Qed.
  (** One channel *)
  Lemma fine_channel es em eg ea eb er s m g a b r L : real_ev ev h (CVar es) s -> real_ev ev h (CVar em) m -> real_ev ev h (CVar eg) g ->
    real_ev ev h (CVar ea) a -> real_ev ev h (CVar eb) b -> real_ev ev h (CVar er) r ->
    (0 < s)%R -> (0 < m)%R -> (0 <= g)%R -> L = 0 \/ (0 <= rbreakup s a b)%R ->
    let c := Channel (CVar es) (CVar em) (CVar eg) (CVar ea) (CVar eb) L (CVar er) in
    fine (channel_width c) /\ (exists y, (0 <= y)%R /\ channel_value ev h c = RtoC y) /\
    ((0 < g)%R -> (0 <= a)%R -> (0 <= b)%R -> (0 < r)%R -> ((a + b) * (a + b) < s)%R -> exists y, (0 < y)%R /\ channel_value ev h c = RtoC y).
  Proof.
    intros Es Em Eg Ea Eb Er S0 M0 G0 Q c. pose proof (sqrt_lt_R0 _ S0) as SQ. pose proof (Rinv_0_lt_compat _ SQ) as SI.
    assert (V : channel_value ev h c = (RtoC (g * m * / sqrt s) *
      (form_factor L (RtoC s) (RtoC a) (RtoC b) (RtoC r) * form_factor L (RtoC s) (RtoC a) (RtoC b) (RtoC r)))%C).
    { unfold channel_value, c. cbn [cn_width cn_m0 cn_s cn_m1 cn_m2 cn_L cn_radius].
      rewrite (proj1 Es), (proj1 Em), (proj1 Eg), (proj1 Ea), (proj1 Eb), (proj1 Er).
      rewrite csqrt_nonneg by lra. unfold Cdiv. rewrite Cinv_RtoC, !RtoC_mult. ring. }
    split; [|split].
    - unfold c, channel_width. cbn [cn_width cn_m0 cn_s cn_m1 cn_m2 cn_L cn_radius]. apply fine_mul.
      + apply fine_div; [apply fine_mul; apply fine_var| |].
        * split; [intros z []|]. intros z. cbn [radicands In]. intros [<-|[]]. rewrite (proj1 Es). apply nonneg_cut. lra.
        * change (ceval ev h (CSqrt (CVar es))) with (csqrt (ceval ev h (CVar es))). rewrite (proj1 Es), csqrt_nonneg by lra.
          apply RtoC_pos_neq. exact SQ.
      + apply fine_sqr. exact (fine_ff es ea eb er s a b r L Es Ea Eb Er S0 Q).
    - destruct (ff_square L s a b r S0 Q) as (y & Y & E). exists (g * m * / sqrt s * y)%R. rewrite V, E, <- RtoC_mult. split; [|reflexivity].
      repeat apply Rmult_le_pos; lra.
    - intros G1 A0 B0 R0 T. destruct (form_factor_pos L s a b r A0 B0 T R0) as (y & Y & E). rewrite V, E.
      exists (g * m * / sqrt s * (y * y))%R. rewrite <- !RtoC_mult. split; [|reflexivity].
      repeat apply Rmult_lt_0_compat; assumption.
  Qed.
End Fine.

(** ** The lineshapes of serialised models *)
Lemma multichannel_simple s m cs : multichannel_breit_wigner s m cs = simple_breit_wigner s m (CAddL (map channel_width cs)).
Proof. reflexivity. Qed.
Section Regular.
  Variables (m : model_def) (d : distribution) (s : Z -> state) (r : Z) (tl : string -> string)
    (x : chain_def -> content) (w : chain_def -> symbol) (dyn : chain_def -> defexpr).
  Hypothesis H : helicity_definition m d s r tl None x w dyn.
  Variables (base : symbol -> C).
  Hypothesis Ph : physical (fun y => Re (base y)).
  Hypothesis Ns : nonsingular (fun y => Re (base y)).
  Variable c : chain_def.
  Hypothesis Hc : In c (di_chains d).
  Hypothesis Rg : regular_serial m tl x base c.
  Variables (ev : env) (h : symbol -> Z).
  Hypothesis Ev : forall y, sassume y = ANonneg -> e_sym ev y = base y.
  Let name := tl (cd_name c).
  Let k := ct_k (x c).

  Lemma regular_fine : fine ev h (de_expr (dyn c)).
  Proof.
    destruct Rg as (Cc & NB & (Rl & M0 & G0 & D0 & R0) & Th & Ch). fold name k in Rl, M0, G0, R0.
    destruct (hd_dynamics _ _ _ _ _ _ _ _ _ H c Hc) as (e & E1 & E2).
    apply (loop_split m (tl (cd_name c)) None) in E1; [|intros aa Q; discriminate Q]. destruct E1 as (ls & L & ->).
    apply form_factors_split in E2. destruct E2 as (fs & Fs & ->). rewrite <- fold_left_app. apply fine_fold; [|apply fine_num].
    pose proof (hd_perm m d s r tl None x w dyn H c Hc) as P. fold k in P.
    assert (Pk : forall a b, Permutation [a; b] [ct_i (x c); ct_j (x c)] -> Permutation [a; b; k] [1; 2; 3]).
    { intros a b Q. exact (Permutation_trans (Permutation_app_tail [k] Q) P). }
    assert (V : forall y, sassume y = ANonneg -> Im (base y) = 0%R -> real_ev ev h (CVar y) (Re (base y))).
    { intros y A B. split; [|reflexivity]. cbn [ceval]. rewrite (Ev y A). apply real_of. exact B. }
    assert (Vs : real_ev ev h (CVar (sigma_sym k)) (Re (base (sigma_sym k)))) by (apply V; [reflexivity|apply Rl; left; left; reflexivity]).
    assert (Vm : forall n, In n [1; 2; 3] -> real_ev ev h (CVar (mass_sym n)) (Re (base (mass_sym n)))).
    { intros n In'. apply V; [reflexivity|]. apply Rl. left. right. apply in_map. right. exact In'. }
    assert (VM : real_ev ev h (CVar (named "m" name)) (Re (base (named "m" name)))) by (apply V; [reflexivity|apply Rl; right; left; left; reflexivity]).
    assert (VG : real_ev ev h (CVar (named "\Gamma" name)) (Re (base (named "\Gamma" name)))) by (apply V; [reflexivity|apply Rl; right; right; left; left; reflexivity]).
    assert (VD : real_ev ev h (CVar radius_sym) (Re (base radius_sym))) by (apply V; [reflexivity|apply Rl; right; right; right; left; reflexivity]).
    assert (VR : real_ev ev h (CVar (named "R" name)) (Re (base (named "R" name)))) by (apply V; [reflexivity|apply Rl; right; right; right; right; reflexivity]).
    destruct (hd_content _ _ _ _ _ _ _ _ _ H c Hc) as (vp & vd & T & _).
    intros y Hy. apply in_app_or in Hy. destruct Hy as [Hy|Hy].
    - (* lineshapes *)
      destruct (tb_propagator _ _ _ _ _ _ _ T) as (p & a & b & Ep & _ & N & Pab).
      rewrite Ep in L. inversion L as [|? l1 ? ? L1 L2]; subst. inversion L2; subst. destruct Hy as [<-|[]].
      assert (Ip : In p (cd_propagators c)) by (rewrite Ep; left; reflexivity).
      destruct (pair_point base Ph Ns a b k (Pk a b Pab)) as (Ma & Mb & Tab).
      assert (S0 : (0 < Re (base (sigma_sym k)))%R) by nra.
      assert (Q : (0 <= rbreakup (Re (base (sigma_sym k))) (Re (base (mass_sym a))) (Re (base (mass_sym b))))%R) by (apply rbreakup_sign; lra).
      assert (Ia : In a [1; 2; 3]) by (apply (Permutation_in a (Pk a b Pab)); cbn; auto).
      assert (Ib : In b [1; 2; 3]) by (apply (Permutation_in b (Pk a b Pab)); cbn; auto).
      destruct L1 as (f & b0 & Ff & Bf & E). fold name in E. destruct (proj1 Cc p Ip) as (f' & Ff' & Co).
      assert (f' = f) by exact (function_fun m _ _ _ Ff' Ff). subst f'.
      destruct Bf as [(aa & Qx & _)|(_ & Bf)]; [discriminate Qx|].
      destruct Co as [(Ty & HN)|Co].
      + destruct Bf as [[_ ->]|[Qx _]]; [|rewrite Qx in Ty; discriminate Ty].
        destruct (HN "l") as (vl & E1); [cbn; auto 10|]. destruct (HN "mass") as (vm & E2); [cbn; auto 10|].
        destruct (HN "width") as (vw & E3); [cbn; auto 10|]. destruct (HN "ma") as (va & E4); [cbn; auto 10|].
        destruct (HN "mb") as (vb & E5); [cbn; auto 10|]. destruct (HN "d") as (vd' & E6); [cbn; auto 10|].
        rewrite (bw_ok m p a b k name f N (Pk a b Pab) Ff _ _ _ _ _ _ E1 E2 E3 E4 E5 E6) in E. injection E as <-. cbn [de_expr].
        assert (Tm : (Re (base (mass_sym a)) + Re (base (mass_sym b)) < Re (base (named "m" name)))%R).
        { assert (BW : exists p f, In p (cd_propagators c) /\ function_of m (pr_parametrization p) f /\ fd_type f = "BreitWigner") by eauto.
          pose proof (Th BW) as Tm. fold name in Tm. destruct (Permutation_length_2_inv Pab) as [Qx|Qx]; injection Qx as Qi Qj; rewrite Qi, Qj in Tm; lra. }
        unfold breit_wigner.
        replace (breit_wigner_width (CVar (sigma_sym k)) (CVar (named "m" name)) (CVar (named "\Gamma" name)) (CVar (mass_sym a)) (CVar (mass_sym b))
          (int_of vl) (CVar radius_sym) phase_space_factor)
          with (energy_dependent_width (CVar (sigma_sym k)) (CVar (named "m" name)) (CVar (named "\Gamma" name)) (CVar (mass_sym a)) (CVar (mass_sym b))
          (int_of vl) (CVar radius_sym) phase_space_factor)
          by (unfold breit_wigner_width; cbn [is_zero]; rewrite !andb_false_r; reflexivity).
        destruct (running_width_pos (int_of vl) _ _ _ _ _ _ Ma Mb Tab D0 G0 Tm) as (W & W0 & EW).
        apply (fine_simple ev h _ _ _ (Re (base (sigma_sym k))) (Re (base (named "m" name))) W);
          [apply fine_var|apply fine_var| |apply Vs|apply VM| |exact M0|exact W0].
        * assert (er : forall e v, real_ev ev h (CVar e) v -> real_er ev h (CVar e) v) by (intros e v [A _]; split; [exact A|reflexivity]).
          split.
          -- exact (width_divisors ev h _ _ _ _ _ _ _ _ _ _ _ _ (int_of vl) Vs VM VG (Vm a Ia) (Vm b Ib) VD Ma Mb Tab D0 Tm).
          -- exact (width_cut ev h _ _ _ _ _ _ _ _ _ _ _ _ (int_of vl) (er _ _ Vs) (er _ _ VM) (er _ _ VG) (er _ _ (Vm a Ia)) (er _ _ (Vm b Ib)) (er _ _ VD) Ma Mb Tab Tm).
        * rewrite (eval_width ev h _ _ _ _ _ _ _ _ two_body_phsp phase_space_factor_value).
          rewrite (proj1 Vs), (proj1 VM), (proj1 VG), (proj1 (Vm a Ia)), (proj1 (Vm b Ib)), (proj1 VD). exact EW.
      + destruct Bf as [[Qx _]|[_ ->]]; [destruct Co as (Ty & _); rewrite Qx in Ty; discriminate Ty|].
        destruct (multi_ok m p a b k name f N (Pk a b Pab) Ff Co)
          as (e' & c0' & rest' & chs & vm' & vl & va & vb & vg & vd' & E' & EC' & E1' & El & Ea & Eb & Eg & Ed & EE & LC & NC & _).
        rewrite E' in E. injection E as <-. rewrite EE, multichannel_simple.
        destruct (fine_channel ev h _ _ _ _ _ _ _ _ _ _ _ _ (int_of vl) Vs VM VG (Vm a Ia) (Vm b Ib) VR S0 M0 ltac:(lra) (or_intror Q)) as (F1 & _ & F3).
        destruct (F3 G0 Ma Mb R0 Tab) as (W & W0 & EW). clear F3.
        assert (Rest : forall ch, In ch chs -> fine ev h (channel_width ch) /\ exists y, (0 <= y)%R /\ channel_value ev h ch = RtoC y).
        { intros ch Ich. apply In_nth_error in Ich. destruct Ich as (q & Eq).
          assert (Lq : (q < length rest')%nat) by (rewrite <- LC; apply nth_error_Some; congruence).
          destruct (nth_error rest' q) as [cd|] eqn:Er; [|apply nth_error_None in Er; lia].
          destruct (NC q cd Er) as (vl' & va' & vb' & vg' & Dl & _ & _ & _ & Y & _). rewrite Y in Eq. injection Eq as <-.
          destruct (Ch p f c0' rest' q cd Ip Ff EC' Er) as ((Cg & Ca & Cb) & Op). fold name k in Cg, Ca, Cb, Op.
          set (n := 2 + Z.of_nat q) in *.
          assert (Vg : real_ev ev h (CVar (channel_width_sym name n)) (Re (base (channel_width_sym name n)))) by (apply V; [reflexivity|apply Rl; right; right; left; right; eauto]).
          assert (Va : real_ev ev h (CVar (channel_mass_sym "a" n)) (Re (base (channel_mass_sym "a" n)))) by (apply V; [reflexivity|apply Rl; right; left; right; eauto]).
          assert (Vb : real_ev ev h (CVar (channel_mass_sym "b" n)) (Re (base (channel_mass_sym "b" n)))) by (apply V; [reflexivity|apply Rl; right; left; right; eauto]).
          assert (Qc : int_of vl' = 0 \/ (0 <= rbreakup (Re (base (sigma_sym k))) (Re (base (channel_mass_sym "a" n))) (Re (base (channel_mass_sym "b" n))))%R).
          { destruct Op as [O|O]; [left|right].
            - assert (vl' = Q2Qc 0) by congruence. subst vl'. reflexivity.
            - apply rbreakup_sign; lra. }
          destruct (fine_channel ev h _ _ _ _ _ _ _ _ _ _ _ _ (int_of vl') Vs VM Vg Va Vb VR S0 M0 Cg Qc) as (X1 & X2 & _). split; assumption. }
        assert (Sum : exists y, (0 <= y)%R /\ Csum chs (channel_value ev h) = RtoC y).
        { clear - Rest. induction chs as [|ch chs IH]; [exists 0%R; split; [lra|reflexivity]|].
          destruct (Rest ch (or_introl eq_refl)) as (_ & y & Y & E). destruct IH as (y' & Y' & E'); [intros; apply Rest; right; auto|].
          exists (y + y')%R. rewrite Csum_eq_cons, E, E', RtoC_plus. split; [lra|reflexivity]. }
        destruct Sum as (W' & W0' & EW').
        apply (fine_simple ev h _ _ _ (Re (base (sigma_sym k))) (Re (base (named "m" name))) (W + W'));
          [apply fine_var|apply fine_var| |apply Vs|apply VM| |exact M0|lra].
        * apply fine_addl. intros ch Ich. apply in_map_iff in Ich. destruct Ich as (c' & <- & [<-|I']); [exact F1|apply Rest; exact I'].
        * rewrite ceval_CAddL, Csum_map. rewrite Csum_eq_cons. rewrite (Csum_ext chs _ (channel_value ev h)) by reflexivity.
          rewrite EW', RtoC_plus. f_equal. exact EW.
    - (* form factors *)
      assert (Iv : exists v, In v (cd_vertices c) /\ formulate_form_factor v m = Ok y).
      { clear - Fs Hy. induction Fs as [|v f vs fs' E Fs IH]; [destruct Hy|]. destruct Hy as [->|Hy]; [exists v; split; [left; reflexivity|exact E]|].
        destruct (IH Hy) as (v' & I' & E'). exists v'. split; [right; exact I'|exact E']. }
      destruct Iv as (v & Iv & E).
      destruct (tb_production _ _ _ _ _ _ _ T) as (a' & b' & Np & Pp).
      assert (Vv : v = vp \/ v = vd) by (destruct (tb_vertices _ _ _ _ _ _ _ T) as [Ev'|Ev']; rewrite Ev' in Iv; destruct Iv as [<-|[<-|[]]]; auto).
      destruct (proj2 Cc v Iv) as [Qx|[Qx|(nm & f & Vn & NE & Ff & Ty & HN)]].
      1, 2: rewrite (form_factor_none m v ltac:(auto)) in E; injection E as <-; apply fine_num.
      destruct (HN "l") as (vl & E1); [cbn; auto|]. destruct (HN "radius") as (vr & E2); [cbn; auto|].
      destruct Vv as [->| ->].
      + destruct (form_factor_production m vp nm f vl vr Vn NE Ff Ty E1 E2 a' b' k d s r (hd_states _ _ _ _ _ _ _ _ _ H) Np (Pk _ _ Pp)) as (m1 & m2 & E' & _).
        rewrite E' in E. injection E as <-. cbn [de_expr].
        assert (L0 : int_of vl = 0).
        { destruct (NB vp k _ Iv Np) as [Qx|[Qx|(nm' & f' & Qx & Ff' & L0)]]; try congruence.
          assert (nm' = nm) by congruence. subst nm'. rewrite (function_fun m _ _ _ Ff' Ff) in L0.
          assert (vl = Q2Qc 0) by congruence. subst vl. reflexivity. }
        rewrite L0. apply fine_ff0. cbn [ceval]. rewrite Ev by reflexivity.
        destruct (thresholds (fun y => Re (base y)) Ph Ns) as (M00 & _). unfold at_m0 in M00.
        change (Sym "m0" ANonneg) with (mass_sym 0) in M00. rewrite (real_of (base (mass_sym 0))) by (apply Rl; left; right; left; reflexivity).
        apply RtoC_pos_neq. exact M00.
      + pose proof (tb_decay _ _ _ _ _ _ _ T) as Nd.
        rewrite (form_factor_decay m vd nm f vl vr Vn NE Ff Ty E1 E2 _ _ k Nd P) in E. injection E as <-. cbn [de_expr].
        destruct (pair_point base Ph Ns _ _ k P) as (Mi & Mj & Tij).
        assert (S0 : (0 < Re (base (sigma_sym k)))%R) by nra.
        assert (I3 : forall n, In n [ct_i (x c); ct_j (x c)] -> In n [1; 2; 3]).
        { intros n In'. apply (Permutation_in n P). cbn in In' |- *. tauto. }
        apply (fine_ff ev h _ _ _ _ _ _ _ _ (int_of vl) Vs (Vm _ (I3 _ (or_introl eq_refl))) (Vm _ (I3 _ (or_intror (or_introl eq_refl)))) VD S0).
        right. apply rbreakup_sign; lra.
  Qed.
End Regular.

Section Defined.
  Variables (m : model_def) (d : distribution) (s : Z -> state) (r : Z) (tl : string -> string)
    (x : chain_def -> content) (w : chain_def -> symbol) (dyn : chain_def -> defexpr).
  Hypothesis H : helicity_definition m d s r tl None x w dyn.
  Variables (cl : bool) (M : model).
  Hypothesis F : SerAmplitude.formulate m cl tl None = Ok M.
  Theorem serial_well_defined base cpl : physical (fun y => Re (base y)) -> nonsingular (fun y => Re (base y)) ->
    (forall c, In c (di_chains d) -> regular_serial m tl x base c) -> well_defined M base cpl.
  Proof.
    intros Ph Ns Rg. split; [|split].
    - exact (serial_variables_real m d s r tl None x w dyn H cl M F base Ph Ns).
    - intros key e G z Hz.
      destruct (serial_amplitude_divisors m d s r tl None x w dyn H cl M F _ key e z G Hz) as (c & Hc & _ & Hd).
      refine (proj1 (regular_fine m d s r tl x w dyn H base Ph Ns c Hc (Rg c Hc) _ _ _) z Hd).
      intros y Hy. apply (serial_at_point m d s r tl None x w dyn H cl M F). congruence.
    - intros z Hz. rewrite (serial_intensity_divisors m d s r tl None x w dyn H cl M F) in Hz. destruct Hz.
  Qed.
End Defined.

(** ** Continuity *)
Section Limit.
  Context {T : Type} (L : (T -> Prop) -> Prop) {FL : Filter L}.
  Variables (m : model_def) (d : distribution) (s : Z -> state) (r : Z)
    (tl : string -> string) (additional : option (dict string prop_builder))
    (x : chain_def -> content) (w : chain_def -> symbol) (dyn : chain_def -> defexpr).
  Hypothesis H : helicity_definition m d s r tl additional x w dyn.
  Variables (cl : bool) (M : model).
  Hypothesis F : SerAmplitude.formulate m cl tl additional = Ok M.
  Variables (base : T -> symbol -> C) (base0 : symbol -> C) (cpl : T -> string -> list ival -> C) (cpl0 : string -> list ival -> C).
  Hypothesis Ph : physical (fun y => Re (base0 y)).
  Hypothesis Ns : nonsingular (fun y => Re (base0 y)).
  Hypothesis LB : forall y, tends L (fun t => base t y) (base0 y).
  Hypothesis LX : forall c, In c (di_chains d) ->
    tends L (fun t => ceval (Env (base t) (cpl t)) (fun _ => 0) (de_expr (dyn c))) (ceval (Env base0 cpl0) (fun _ => 0) (de_expr (dyn c))).
  Let ev t := at_point (m_variables M) (base t) (cpl t).
  Let ev0 := at_point (m_variables M) base0 cpl0.
  Lemma serial_sym_tends y : tends L (fun t => e_sym (ev t) y) (e_sym ev0 y).
  Proof. apply (point_tends L base base0 cpl cpl0 LB). exact (serial_variables_real m d s r tl additional x w dyn H cl M F base0 Ph Ns). Qed.
  Lemma serial_amp_tends k l : In k [1; 2; 3] -> helicity_tuple s l -> tends L (fun t => amp_value (ev t) M k l) (amp_value ev0 M k l).
  Proof.
    intros Hk Hl.
    apply (t_ext L _ _ _ _ (fun t => eq_sym (serial_amplitude_value m d s r tl additional x w dyn H cl M F (ev t) k l Hl Hk))
      (eq_sym (serial_amplitude_value m d s r tl additional x w dyn H cl M F ev0 k l Hl Hk))).
    apply (t_sum L). intros c Hc. apply in_chains_in in Hc. destruct Hc as [Hc _]. unfold chain_contribution, serial_term.
    assert (X : tends L (fun t => ceval (ev t) (fun _ => 0) (de_expr (dyn c))) (ceval ev0 (fun _ => 0) (de_expr (dyn c)))).
    { apply (t_ext L _ _ _ _ (fun t => eq_sym (serial_lineshape m d s r tl additional x w dyn H cl M F _ _ c Hc))
        (eq_sym (serial_lineshape m d s r tl additional x w dyn H cl M F _ _ c Hc)) (LX c Hc)). }
    pose proof (serial_sym_tends (w c)) as W.
    pose proof (fun j a b => rt_wigner L j a b _ _ (proj1 (serial_sym_tends (theta_name (ct_i (x c)) (ct_j (x c)))))) as Th.
    apply (t_mult L); [|exact X]. apply (t_mult L); [|apply (t_real L), Th]. apply (t_mult L); [|apply (t_const L)].
    apply (t_mult L); [exact W|apply (t_const L)].
  Qed.
  Theorem serial_continuous : tends L (fun t => full_value (ev t) M) (full_value ev0 M).
  Proof.
    destruct (serial_intensity_value m d s r tl additional x w dyn H cl M F) as (ks & N & So & K & I).
    apply (t_ext L _ _ _ _ (fun t => eq_sym (I (ev t))) (eq_sym (I ev0))). apply (t_real L). unfold intensity_value.
    apply (rt_sum L). intros l _. apply (rt_pow L), (t_cmod L). unfold aligned_amplitude. apply (t_sum L). intros l' Hl'. apply (t_sum L). intros k Hk.
    apply (t_mult L).
    - apply serial_amp_tends; [|apply tuples_In; exact Hl']. exact (subsystem_range m d s r tl additional x w dyn H ks K k Hk).
    - apply (t_real L). unfold alignment.
      pose proof (fun i j a b => rt_wigner L j a b _ _ (proj1 (serial_sym_tends (zeta_symbol i k r)))) as Z.
      apply (rt_mult L); [apply (rt_mult L); [apply (rt_mult L)|]|]; apply Z.
  Qed.
End Limit.
Theorem serial_builtin_continuous {T : Type} (L : (T -> Prop) -> Prop) {FL : Filter L} m d s r tl x w dyn cl M base base0 cpl cpl0 :
  helicity_definition m d s r tl None x w dyn -> SerAmplitude.formulate m cl tl None = Ok M ->
  physical (fun y => Re (base0 y)) -> nonsingular (fun y => Re (base0 y)) ->
  (forall y, tends L (fun t => base t y) (base0 y)) -> (forall n i, tends L (fun t => cpl t n i) (cpl0 n i)) ->
  (forall c, In c (di_chains d) -> regular_serial m tl x base0 c) ->
  tends L (fun t => full_value (at_point (m_variables M) (base t) (cpl t)) M) (full_value (at_point (m_variables M) base0 cpl0) M).
Proof.
  intros H F Ph Ns LB LC Rg. apply (serial_continuous L m d s r tl None x w dyn H cl M F base base0 cpl cpl0 Ph Ns LB).
  intros c Hc. destruct (regular_fine m d s r tl x w dyn H base0 Ph Ns c Hc (Rg c Hc) (Env base0 cpl0) (fun _ => 0) (fun y _ => eq_refl)) as [A B].
  exact (ceval_tends L _ (fun t => Env (base t) (cpl t)) (Env base0 cpl0) LB LC (fun _ => 0) A B).
Qed.
