(** A serialised decay without poles, and one with a pole in the form factor of the production vertex *)
From Coq Require Import String Ascii ZArith QArith Qcanon Qreals List Bool Reals Lia Lra Psatz Permutation.
From Coquelicot Require Import Hierarchy Complex.
From Verif Require Import Prelude Spin Decay Expr SpecKin SpecDPD CExpr Sums Builder AnglesProofs SpecFinite FiniteShapes SpecContinuity ContinuityFacts
  SerFormat SerDynamics SerAmplitude SpecSerial SerTotal SerWeights SerExamples SpecSerPoints SerPoints SerPointExamples SpecSerFinite SerFinite.
Import ListNotations.
Local Open Scope string_scope.
Local Open Scope Z_scope.
Local Open Scope list_scope.

(** The point of px_base, with an open second and a closed third channel *)
Definition nx_base (y : symbol) : C :=
  match sname y with
  | String "m" (String "_" (String "{" (String "a" (String "," (String "2" _))))) => RtoC 3
  | String "m" (String "_" (String "{" (String "b" (String "," (String "2" _))))) => RtoC 4
  | _ => px_base y
  end.
(** A point that moves on the Dalitz plot, and a resonance that becomes heavier *)
Definition nx_moving (t : R) (y : symbol) : C :=
  if eqb (sname y) "sigma1" then (nx_base y + RtoC t)%C
  else if eqb (sname y) "sigma2" then (nx_base y + RtoC (- t))%C
  else if eqb (sname y) "m_{D}" then (nx_base y + RtoC t)%C else nx_base y.
Lemma nx_physical : physical (fun y => Re (nx_base y)) /\ nonsingular (fun y => Re (nx_base y)).
Proof. split; [|exact ex_nonsingular]. exists ex_p1, ex_p2, ex_p3. exact ex_momenta. Qed.
Lemma nx_regular c : In c px_chains -> regular_serial px_model sx_tl sx_x nx_base c.
Proof.
  intros I. split; [exact (proj2 (px_hyp c I))|]. split; [exact (px_barrier c I)|]. split; [|split].
  - split.
    + intros y [X|[[->|(n & [->| ->])]|[[->|(n & ->)]|[->| ->]]]].
      * destruct I as [<-|[<-|[<-|[]]]]; cbn in X; repeat (destruct X as [<-|X]; [reflexivity|]); destruct X.
      * destruct I as [<-|[<-|[<-|[]]]]; reflexivity.
      * unfold nx_base, channel_mass_sym, SerDynamics.channel_mass_symbol. cbn [sname append]. destruct (str_of_Z n) as [|[[] [] [] [] [] [] [] []] ?]; reflexivity.
      * unfold nx_base, channel_mass_sym, SerDynamics.channel_mass_symbol. cbn [sname append]. destruct (str_of_Z n) as [|[[] [] [] [] [] [] [] []] ?]; reflexivity.
      * destruct I as [<-|[<-|[<-|[]]]]; reflexivity.
      * reflexivity.
      * reflexivity.
      * destruct I as [<-|[<-|[<-|[]]]]; reflexivity.
    + destruct I as [<-|[<-|[<-|[]]]]; cbn; lra.
  - destruct I as [<-|[<-|[<-|[]]]] ; intros _; cbn; lra.
  - intros p f ch0 chs q ch Ip Ff Ech Eq.
    assert (Bw : forall g, function_of px_model (pr_parametrization p) g -> f = g) by (intros g Hg; exact (function_fun px_model _ _ _ Ff Hg)).
    destruct I as [<-|[<-|[<-|[]]]]; destruct Ip as [<-|[]].
    + rewrite (Bw (sx_bw "D_BW" 1 2 1 1 0 3)) in Ech by (fn (@nil func_def) (tl px_functions)). discriminate Ech.
    + rewrite (Bw (sx_multi "L_MC" 3 [sx_channel 0 1 1 2 3; sx_channel 1 1 2 4 5; sx_channel 0 2 2 6 7])) in Ech by (fn (firstn 1 px_functions) (skipn 2 px_functions)).
      injection Ech as <- <-. destruct q as [|[|[|q]]]; cbn [nth_error] in Eq; try discriminate Eq; injection Eq as <-; (split; [cbn; lra|]).
      * right. cbn. lra.
      * left. reflexivity.
    + rewrite (Bw (sx_bw "K_BW" 1 2 1 0 1 3)) in Ech by (fn (firstn 2 px_functions) (skipn 3 px_functions)). discriminate Ech.
Qed.
Lemma nx_moves y : tends (locally 0%R) (fun t => nx_moving t y) (nx_base y).
Proof.
  assert (I : rtends (locally 0%R) (fun t => t) 0%R) by apply filterlim_id.
  assert (P : tends (locally 0%R) (fun t => nx_base y + RtoC t)%C (nx_base y)).
  { apply (t_ext (locally 0%R) (fun t => nx_base y + RtoC t)%C _ (nx_base y + RtoC 0)%C); [reflexivity|apply Cplus_0_r|].
    apply (t_plus (locally 0%R)); [apply (t_const (locally 0%R))|exact (t_real (locally 0%R) _ _ I)]. }
  assert (Q : tends (locally 0%R) (fun t => nx_base y + RtoC (- t))%C (nx_base y)).
  { apply (t_ext (locally 0%R) (fun t => nx_base y + RtoC (- t))%C _ (nx_base y + RtoC (- 0))%C); [reflexivity|rewrite Ropp_0; apply Cplus_0_r|].
    apply (t_plus (locally 0%R)); [apply (t_const (locally 0%R))|]. apply (t_real (locally 0%R)). apply (rt_opp (locally 0%R)). exact I. }
  unfold nx_moving. destruct (eqb (sname y) "sigma1"); [exact P|]. destruct (eqb (sname y) "sigma2"); [exact Q|].
  destruct (eqb (sname y) "m_{D}"); [exact P|apply (t_const (locally 0%R))].
Qed.

(** The same momenta in units that are ten times larger; the radii are such that R^2 q^2 = -1 *)
Definition qx_env (y : symbol) : R := match sname y with String "s" _ => ex_env y / 100 | _ => ex_env y / 10 end.
Definition qx_radius : R := sqrt (4 * (23 / 10) / (((3 / 4 + 12 / 10) * (3 / 4 + 12 / 10) - 23 / 10) * (23 / 10 - (3 / 4 - 12 / 10) * (3 / 4 - 12 / 10)))).
Definition qx_base (y : symbol) : C :=
  match sname y with
  | String "c" _ => (2, 1)%R
  | String "m" (String "_" (String "{" (String "a" (String "," (String "2" _))))) => RtoC (3 / 10)
  | String "m" (String "_" (String "{" (String "b" (String "," (String "2" _))))) => RtoC (4 / 10)
  | String "m" (String "_" _) => RtoC 2
  | String "\" _ => RtoC (1 / 2)
  | String "R" _ => RtoC qx_radius
  | _ => RtoC (qx_env y)
  end.
Definition qx_scale (p : vec4) : vec4 := V4 (vE p / 10) (V3 (vx (vp p) / 10) (vy (vp p) / 10) (vz (vp p) / 10)).
Lemma qx_vals : at_m0 (fun y => Re (qx_base y)) = (23 / 10)%R /\ at_m1 (fun y => Re (qx_base y)) = (4 / 10)%R /\ at_m2 (fun y => Re (qx_base y)) = (3 / 10)%R /\
  at_m3 (fun y => Re (qx_base y)) = (12 / 10)%R /\ at_s1 (fun y => Re (qx_base y)) = (315 / 100)%R /\ at_s2 (fun y => Re (qx_base y)) = (308 / 100)%R /\
  at_s3 (fun y => Re (qx_base y)) = (75 / 100)%R.
Proof. repeat split. Qed.
Lemma qx_physical : physical (fun y => Re (qx_base y)) /\ nonsingular (fun y => Re (qx_base y)).
Proof.
  split.
  - exists (qx_scale ex_p1), (qx_scale ex_p2), (qx_scale ex_p3). unfold momenta_of, on_shell. destruct qx_vals as (-> & -> & -> & -> & -> & -> & ->).
    unfold qx_scale, ex_p1, ex_p2, ex_p3, msq, add4, add3, dot; cbn [vE vp vx vy vz]. repeat split; lra.
  - unfold nonsingular. destruct qx_vals as (-> & -> & -> & -> & -> & -> & ->). unfold kallen. repeat split; lra.
Qed.
Lemma qx_radius_pos : (0 < qx_radius)%R.
Proof. apply sqrt_lt_R0. lra. Qed.
Lemma qx_regular c : In c sx_chains -> complete_chain sx_model c /\ real_serial sx_tl sx_x qx_base c /\ above_threshold sx_model sx_tl sx_x qx_base c /\
  regular_channels sx_model sx_tl sx_x qx_base c.
Proof.
  pose proof qx_radius_pos as R0.
  intros I. split; [exact (sx_complete c I)|]. split; [|split].
  - split.
    + intros y [X|[[->|(n & [->| ->])]|[[->|(n & ->)]|[->| ->]]]].
      * destruct I as [<-|[<-|[<-|[]]]]; cbn in X; repeat (destruct X as [<-|X]; [reflexivity|]); destruct X.
      * destruct I as [<-|[<-|[<-|[]]]]; reflexivity.
      * unfold qx_base, channel_mass_sym, SerDynamics.channel_mass_symbol. cbn [sname append]. destruct (str_of_Z n) as [|[[] [] [] [] [] [] [] []] ?]; reflexivity.
      * unfold qx_base, channel_mass_sym, SerDynamics.channel_mass_symbol. cbn [sname append]. destruct (str_of_Z n) as [|[[] [] [] [] [] [] [] []] ?]; reflexivity.
      * destruct I as [<-|[<-|[<-|[]]]]; reflexivity.
      * reflexivity.
      * reflexivity.
      * destruct I as [<-|[<-|[<-|[]]]]; reflexivity.
    + assert (E : qx_base radius_sym = RtoC qx_radius) by reflexivity. rewrite E.
      assert (E' : qx_base (named "R" (sx_tl (cd_name c))) = RtoC qx_radius) by (destruct I as [<-|[<-|[<-|[]]]]; reflexivity). rewrite E'.
      assert (E1 : qx_base (named "m" (sx_tl (cd_name c))) = RtoC 2) by (destruct I as [<-|[<-|[<-|[]]]]; reflexivity). rewrite E1.
      assert (E2 : qx_base (named "\Gamma" (sx_tl (cd_name c))) = RtoC (1 / 2)) by (destruct I as [<-|[<-|[<-|[]]]]; reflexivity). rewrite E2.
      cbn [Re RtoC fst]. lra.
  - destruct I as [<-|[<-|[<-|[]]]] ; intros _; cbn; lra.
  - intros p f ch0 chs q ch Ip Ff Ech Eq.
    assert (Bw : forall g, function_of sx_model (pr_parametrization p) g -> f = g) by (intros g Hg; exact (function_fun sx_model _ _ _ Ff Hg)).
    destruct I as [<-|[<-|[<-|[]]]]; destruct Ip as [<-|[]].
    + rewrite (Bw (sx_bw "D_BW" 1 2 1 1 0 3)) in Ech by (fn (@nil func_def) (tl sx_functions)). discriminate Ech.
    + rewrite (Bw (sx_multi "L_MC" 3 [sx_channel 0 1 1 2 3; sx_channel 1 1 2 4 5; sx_channel 0 2 2 6 7])) in Ech by (fn (firstn 1 sx_functions) (skipn 2 sx_functions)).
      injection Ech as <- <-. destruct q as [|[|[|q]]]; cbn [nth_error] in Eq; try discriminate Eq; injection Eq as <-; (split; [cbn; lra|]).
      * right. cbn. lra.
      * left. reflexivity.
    + rewrite (Bw (sx_bw "K_BW" 1 2 1 0 1 3)) in Ech by (fn (firstn 2 sx_functions) (skipn 3 sx_functions)). discriminate Ech.
Qed.
Lemma qx_zero ev : (forall y, sassume y = ANonneg -> e_sym ev y = qx_base y) ->
  In (RtoC 0) (divisors ev (fun _ => 0) (de_expr (sx_dyn sx_A))).
Proof.
  intros Ev.
  assert (E : exists a b, de_expr (sx_dyn sx_A) = CMul (CMul a (CFormFactor (CVar (mass_sym 0)) (CVar (sigma_sym 3)) (CVar (mass_sym 3)) 1 (CVar (named "R" (p_latex (sx_s 0)))))) b).
  { eexists _, _. reflexivity. }
  destruct E as (a & b & ->). apply in_or_app. left. apply in_or_app. right. right. left.
  cbn [ceval]. rewrite !Ev by reflexivity.
  change (qx_base (mass_sym 0)) with (RtoC (23 / 10)). change (qx_base (sigma_sym 3)) with (RtoC (75 / 100)).
  change (qx_base (mass_sym 3)) with (RtoC (12 / 10)). change (qx_base (named "R" (p_latex (sx_s 0)))) with (RtoC qx_radius).
  rewrite <- RtoC_mult, breakup_real, <- RtoC_mult, bw_poly_real. f_equal. unfold qx_radius. rewrite sqrt_sqrt by lra.
  change (Z.to_nat 1) with 1%nat. cbn [seq Rsum pow]. unfold bw_coeff, rbreakup. cbn [fact Nat.mul Nat.add Nat.sub INR pow]. field.
Qed.
Theorem qx_pole cl M cpl : SerAmplitude.formulate sx_model cl sx_tl None = Ok M -> ~ well_defined M qx_base cpl.
Proof.
  intros F (_ & A & _). destruct sx_definition as [H _].
  assert (Hl : helicity_tuple sx_s (1, -1, 0, 0)) by (apply sy_tuple; right; left; reflexivity).
  destruct (serial_lineshape_divisors sx_model (sx_dist sx_chains) sx_s 1 sx_tl None sx_x sx_w sx_dyn H cl M F (at_point (m_variables M) qx_base cpl) sx_A
    (1, -1, 0, 0) (RtoC 0) (or_introl eq_refl) Hl) as (e & G & I).
  { apply qx_zero. intros y Hy. apply (serial_at_point sx_model (sx_dist sx_chains) sx_s 1 sx_tl None sx_x sx_w sx_dyn H cl M F). congruence. }
  exact (A _ e G _ I eq_refl).
Qed.
