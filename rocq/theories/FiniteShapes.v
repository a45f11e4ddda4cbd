(** The divisors of Breit-Wigner lineshapes (proofs for C96) *)
From Coq Require Import String ZArith QArith Qcanon Qreals List Bool Reals Lia Lra Psatz Permutation.
From Coquelicot Require Import Complex.
From Verif Require Import Prelude Spin Decay Expr Angles Sums Wigner CG CExpr SpecKin SpecDPD Builder SpecBuilder Dynamics
  SpecDynamics SpinFacts DecayFacts CExprFacts BuilderFacts ModelFacts RefFacts KinFacts AnglesProofs DynamicsProofs LineshapeFacts
  LineshapeProofs SpecFinite FiniteFacts.
Import ListNotations.
Local Open Scope R_scope.

(** ** Real arguments *)
Lemma bw_coeff_pos n k : 0 < bw_coeff n k.
Proof.
  unfold bw_coeff. assert (P : forall a, 0 < INR (fact a)) by (intros a; apply lt_0_INR, lt_O_fact).
  assert (Q : 0 < 4 ^ (n - k)) by (apply pow_lt; lra).
  apply Rdiv_lt_0_compat; repeat apply Rmult_lt_0_compat; auto.
Qed.
Lemma cpow_real x n : cpow (RtoC x) n = RtoC (x ^ n).
Proof. induction n as [|n IH]; cbn [cpow pow]; auto. rewrite IH, <- RtoC_mult. reflexivity. Qed.
Lemma bw_poly_real n x : bw_poly n (RtoC x) = RtoC (Rsum (seq 0 (S n)) (fun k => bw_coeff n k * x ^ k)).
Proof.
  unfold bw_poly. generalize (seq 0 (S n)) as l. induction l as [|k l IH]; cbn [Csum Rsum]; auto.
  rewrite IH, cpow_real, <- RtoC_mult, <- RtoC_plus. reflexivity.
Qed.
Lemma bw_poly_pos n x : 0 <= x -> exists y, 0 < y /\ bw_poly n (RtoC x) = RtoC y.
Proof.
  intros Hx. rewrite bw_poly_real. eexists. split; [|reflexivity].
  change (seq 0 (S n)) with (0%nat :: seq 1 n). cbn [Rsum].
  assert (N : 0 <= Rsum (seq 1 n) (fun k => bw_coeff n k * x ^ k)).
  { generalize (seq 1 n) as l. induction l as [|k l IH]; cbn [Rsum]; [lra|].
    pose proof (bw_coeff_pos n k). pose proof (pow_le x k Hx).
    assert (0 <= bw_coeff n k * x ^ k) by (apply Rmult_le_pos; lra). lra. }
  pose proof (bw_coeff_pos n 0). cbn [pow]. lra.
Qed.
Definition rbreakup (s a b : R) : R := (s - (a + b) * (a + b)) * (s - (a - b) * (a - b)) / (4 * s).
Lemma breakup_real s a b : breakup_squared (RtoC s) (RtoC a) (RtoC b) = RtoC (rbreakup s a b).
Proof.
  unfold breakup_squared, rbreakup, Cdiv, Rdiv.
  rewrite <- !RtoC_mult, Cinv_RtoC, <- RtoC_plus, <- !RtoC_minus, <- !RtoC_mult, <- !RtoC_minus, <- !RtoC_mult. reflexivity.
Qed.
Lemma rbreakup_sign s a b : 0 <= a -> 0 <= b -> 0 < s ->
  ((a + b) * (a + b) <= s -> 0 <= rbreakup s a b) /\ ((a + b) * (a + b) < s -> 0 < rbreakup s a b).
Proof.
  intros Ha Hb Hs. unfold rbreakup.
  assert (Le : (a - b) * (a - b) <= (a + b) * (a + b)) by nra.
  split; intros H.
  - apply Rmult_le_pos; [apply Rmult_le_pos; lra|]. left. apply Rinv_0_lt_compat. lra.
  - apply Rdiv_lt_0_compat; [apply Rmult_lt_0_compat; lra|lra].
Qed.
Lemma form_factor_pos L s a b r : 0 <= a -> 0 <= b -> (a + b) * (a + b) < s -> 0 < r ->
  exists y, 0 < y /\ form_factor L (RtoC s) (RtoC a) (RtoC b) (RtoC r) = RtoC y.
Proof.
  intros Ha Hb Hs Hr. assert (S0 : 0 < s) by nra.
  pose proof (proj2 (rbreakup_sign s a b Ha Hb S0) Hs) as Q.
  unfold form_factor, blatt_weisskopf_squared. rewrite breakup_real, <- !RtoC_mult.
  set (z := rbreakup s a b * (r * r)). assert (Z0 : 0 < z) by (apply Rmult_lt_0_compat; nra).
  destruct (bw_poly_pos (Z.to_nat L) 1 ltac:(lra)) as (p1 & P1 & ->).
  destruct (bw_poly_pos (Z.to_nat L) z ltac:(lra)) as (pz & Pz & ->).
  unfold Cdiv. rewrite cpow_real, Cinv_RtoC, <- !RtoC_mult.
  assert (P : 0 < z ^ Z.to_nat L * p1 * / pz).
  { repeat apply Rmult_lt_0_compat; auto. - apply pow_lt; auto. - apply Rinv_0_lt_compat; auto. }
  rewrite csqrt_nonneg by lra. eexists. split; [|reflexivity]. apply sqrt_lt_R0. exact P.
Qed.
Lemma phsp_pos s a b : 0 <= a -> 0 <= b -> (a + b) * (a + b) < s ->
  exists y, 0 < y /\ two_body_phsp (RtoC s) (RtoC a) (RtoC b) = RtoC y.
Proof.
  intros Ha Hb Hs. assert (S0 : 0 < s) by nra.
  pose proof (proj2 (rbreakup_sign s a b Ha Hb S0) Hs) as Q. unfold two_body_phsp.
  rewrite breakup_real, !csqrt_nonneg by lra. unfold Cdiv. rewrite Cinv_RtoC, <- !RtoC_mult.
  eexists. split; [|reflexivity]. pose proof (sqrt_lt_R0 _ Q). pose proof (sqrt_lt_R0 _ S0).
  repeat apply Rmult_lt_0_compat; try lra. apply Rinv_0_lt_compat. auto.
Qed.
Lemma running_width_pos L s m G a b r : 0 <= a -> 0 <= b -> (a + b) * (a + b) < s -> 0 < r -> 0 < G -> a + b < m ->
  exists y, 0 < y /\ running_width two_body_phsp L (RtoC s) (RtoC m) (RtoC G) (RtoC a) (RtoC b) (RtoC r) = RtoC y.
Proof.
  intros Ha Hb Hs Hr HG Hm. assert (Hm2 : (a + b) * (a + b) < m * m) by nra. unfold running_width. rewrite <- RtoC_mult.
  destruct (form_factor_pos L s a b r) as (f1 & F1 & ->); auto.
  destruct (form_factor_pos L (m * m) a b r) as (f2 & F2 & ->); auto.
  destruct (phsp_pos s a b) as (p1 & P1 & ->); auto.
  destruct (phsp_pos (m * m) a b) as (p2 & P2 & ->); auto.
  unfold Cdiv. rewrite <- !RtoC_mult, !Cinv_RtoC, <- !RtoC_mult. eexists. split; [|reflexivity].
  pose proof (Rinv_0_lt_compat _ P2).
  assert (0 < / (f2 * f2)) by (apply Rinv_0_lt_compat; nra).
  repeat apply Rmult_lt_0_compat; auto.
Qed.

Lemma RtoC_pos_neq x : 0 < x -> RtoC x <> RtoC 0.
Proof. intros H. apply RtoC_neq. lra. Qed.
Lemma im_neq x y : y <> 0 -> (RtoC x - RtoC y * Ci)%C <> RtoC 0.
Proof.
  intros H E. apply (f_equal snd) in E. unfold Cminus, Cplus, Copp, Cmult, Ci, RtoC in E. cbn in E. lra.
Qed.

Section Values.
  Variables (ev : env) (h : symbol -> Z).
  Definition real_ev (e : cexpr) (x : R) : Prop := ceval ev h e = RtoC x /\ divisors ev h e = [].
  Lemma real_sqr e x : real_ev e x -> real_ev (CSqr e) (x * x).
  Proof. intros [E N]. split; cbn [ceval divisors]; auto. rewrite E, RtoC_mult. reflexivity. Qed.

  Lemma div_mul a b x : In x (divisors ev h (CMul a b)) -> In x (divisors ev h a) \/ In x (divisors ev h b).
  Proof. apply in_app_or. Qed.
  Lemma div_sub a b x : In x (divisors ev h (CSub a b)) -> In x (divisors ev h a) \/ In x (divisors ev h b).
  Proof. apply in_app_or. Qed.
  Lemma div_div a b x : In x (divisors ev h (CDiv a b)) -> x = ceval ev h b \/ In x (divisors ev h a) \/ In x (divisors ev h b).
  Proof. intros [<-|H]; auto. right. apply in_app_or. exact H. Qed.

  (** divisors of a form factor *)
  Lemma ff_divisors es ea eb er s a b r L : real_ev es s -> real_ev ea a -> real_ev eb b -> real_ev er r ->
    0 < s -> L = 0%Z \/ 0 <= rbreakup s a b ->
    forall x, In x (divisors ev h (CFormFactor es ea eb L er)) -> x <> RtoC 0.
  Proof.
    intros [Es Ns] [Ea Na] [Eb Nb] [Er Nr] S0 Q x. cbn [divisors]. rewrite Ns, Na, Nb, Nr. cbn [app In].
    intros [<-|[<-|[]]].
    - rewrite Es, <- RtoC_mult. apply RtoC_pos_neq. lra.
    - rewrite Es, Ea, Eb, Er, breakup_real, <- !RtoC_mult. destruct Q as [->|Q].
      + cbn [Z.to_nat]. unfold bw_poly. cbn [seq Csum cpow]. rewrite Cplus_0_r, Cmult_1_r. apply RtoC_pos_neq, bw_coeff_pos.
      + destruct (bw_poly_pos (Z.to_nat L) (rbreakup s a b * (r * r))) as (y & Y & ->); [|apply RtoC_pos_neq; auto].
        apply Rmult_le_pos; [auto|]. pose proof (Rle_0_sqr r). unfold Rsqr in *. lra.
  Qed.
  Lemma phsp_divisors es ea eb s a b : real_ev es s -> real_ev ea a -> real_ev eb b -> 0 < s ->
    forall x, In x (divisors ev h (phase_space_factor es ea eb)) -> x <> RtoC 0.
  Proof.
    intros [Es Ns] [Ea Na] [Eb Nb] S0 x. unfold phase_space_factor. cbn [divisors]. rewrite Ns, Na, Nb. cbn [app In].
    intros [<-|[<-|[]]].
    - cbn [ceval]. rewrite Es, csqrt_nonneg by lra. apply RtoC_pos_neq, sqrt_lt_R0, S0.
    - rewrite Es, <- RtoC_mult. apply RtoC_pos_neq. lra.
  Qed.
  Lemma width_divisors es em eG ea eb er s m G a b r L : real_ev es s -> real_ev em m -> real_ev eG G ->
    real_ev ea a -> real_ev eb b -> real_ev er r ->
    0 <= a -> 0 <= b -> (a + b) * (a + b) < s -> 0 < r -> a + b < m ->
    forall x, In x (divisors ev h (energy_dependent_width es em eG ea eb L er phase_space_factor)) -> x <> RtoC 0.
  Proof.
    intros Hs Hm HG Ha Hb Hr A0 B0 S R0 M x. unfold energy_dependent_width. pose proof (real_sqr _ _ Hm) as Hm2.
    assert (M2 : (a + b) * (a + b) < m * m) by nra.
    assert (S0 : 0 < s) by nra. assert (MM : 0 < m * m) by nra.
    intros H. apply div_mul in H. destruct H as [H|H]; [apply div_mul in H; destruct H as [H|H]; [|apply div_div in H]|apply div_div in H].
    - rewrite (proj2 HG) in H. destruct H.
    - destruct H as [->|[H|H]].
      + cbn [ceval]. change (csqrt _) with (form_factor L (ceval ev h (CSqr em)) (ceval ev h ea) (ceval ev h eb) (ceval ev h er)).
        destruct Hm2 as [-> _], Ha as [-> _], Hb as [-> _], Hr as [-> _].
        destruct (form_factor_pos L (m * m) a b r) as (y & Y & ->); auto. rewrite <- RtoC_mult. apply RtoC_pos_neq. nra.
      + change (In x (divisors ev h (CFormFactor es ea eb L er))) in H.
        eapply (ff_divisors es ea eb er s a b r L); eauto. right. apply rbreakup_sign; lra.
      + change (In x (divisors ev h (CFormFactor (CSqr em) ea eb L er))) in H.
        eapply (ff_divisors (CSqr em) ea eb er (m * m) a b r L); eauto. right. apply rbreakup_sign; lra.
    - destruct H as [->|[H|H]].
      + rewrite (phase_space_factor_value ev h).
        destruct Hm2 as [-> _], Ha as [-> _], Hb as [-> _].
        destruct (phsp_pos (m * m) a b) as (y & Y & ->); auto. apply RtoC_pos_neq; auto.
      + eapply (phsp_divisors es ea eb s a b); eauto.
      + eapply (phsp_divisors (CSqr em) ea eb (m * m) a b); eauto.
  Qed.
  Lemma relativistic_divisors es em eG ea eb er s m G a b r L : real_ev es s -> real_ev em m -> real_ev eG G ->
    real_ev ea a -> real_ev eb b -> real_ev er r ->
    0 <= a -> 0 <= b -> (a + b) * (a + b) < s -> 0 < r -> 0 < G -> a + b < m ->
    forall x, In x (divisors ev h (relativistic_breit_wigner es em eG ea eb L er phase_space_factor)) -> x <> RtoC 0.
  Proof.
    intros Hs Hm HG Ha Hb Hr A0 B0 S R0 G0 M x. unfold relativistic_breit_wigner.
    intros H. apply div_div in H. destruct H as [->|[H|H]].
    - cbn [ceval]. fold (ceval ev h). rewrite (eval_width ev h es em eG ea eb L er phase_space_factor two_body_phsp phase_space_factor_value).
      destruct Hs as [-> _], Hm as [-> _], HG as [-> _], Ha as [-> _], Hb as [-> _], Hr as [-> _].
      destruct (running_width_pos L s m G a b r) as (y & Y & ->); auto.
      rewrite <- !RtoC_mult, <- RtoC_minus. apply im_neq. assert (0 < y * m) by (apply Rmult_lt_0_compat; lra). lra.
    - apply div_mul in H. destruct H as [H|H]; [rewrite (proj2 Hm) in H|rewrite (proj2 HG) in H]; destruct H.
    - apply div_sub in H. destruct H as [H|H].
      + apply div_sub in H. destruct H as [H|H]; [rewrite (proj2 (real_sqr _ _ Hm)) in H|rewrite (proj2 Hs) in H]; destruct H.
      + apply div_mul in H. destruct H as [H|[]]. apply div_mul in H. destruct H as [H|H]; [|rewrite (proj2 Hm) in H; destruct H].
        exact (width_divisors es em eG ea eb er s m G a b r L Hs Hm HG Ha Hb Hr A0 B0 S R0 M x H).
  Qed.
  Lemma simple_divisors es em eG s m G : real_ev es s -> real_ev em m -> real_ev eG G -> 0 < m -> 0 < G ->
    forall x, In x (divisors ev h (simple_breit_wigner es em eG)) -> x <> RtoC 0.
  Proof.
    intros Hs Hm HG M G0 x. unfold simple_breit_wigner, CNum.
    cbn [divisors In]. rewrite (proj2 Hs), (proj2 Hm), (proj2 HG). cbn [app In]. intros [<-|[]].
    cbn [ceval]. destruct Hs as [-> _], Hm as [-> _], HG as [-> _].
    rewrite <- !RtoC_mult, <- RtoC_minus. apply im_neq. assert (0 < m * G) by (apply Rmult_lt_0_compat; lra). lra.
  Qed.
End Values.

(** ** Kinematics *)
Lemma pair_threshold p q a b : on_shell a p -> on_shell b q -> 0 < kallen (msq (add4 p q)) (a * a) (b * b) ->
  (a + b) * (a + b) < msq (add4 p q).
Proof.
  intros Hp Hq K. pose proof (future_mdot p q a b Hp Hq) as F. destruct Hp as (A0 & _ & Mp), Hq as (B0 & _ & Mq).
  assert (E : msq (add4 p q) = a * a + b * b + 2 * (vE p * vE q - dot (vp p) (vp q))).
  { rewrite <- Mp, <- Mq. unfold msq, add4, add3, dot. cbn [vE vp vx vy vz]. ring. }
  set (s := msq (add4 p q)) in *. clearbody s.
  replace (kallen s (a * a) (b * b)) with ((s - (a + b) * (a + b)) * (s - (a - b) * (a - b))) in K by (unfold kallen; ring).
  assert (0 <= a * b) by (apply Rmult_le_pos; auto).
  assert (L : 0 <= s - (a - b) * (a - b)) by nra.
  destruct (Rlt_or_le ((a + b) * (a + b)) s) as [X|X]; auto. exfalso.
  assert (0 <= ((a + b) * (a + b) - s) * (s - (a - b) * (a - b))) by (apply Rmult_le_pos; lra). nra.
Qed.
Lemma thresholds env : physical env -> nonsingular env ->
  0 < at_m0 env /\ 0 <= at_m1 env /\ 0 <= at_m2 env /\ 0 <= at_m3 env /\
  (at_m2 env + at_m3 env) * (at_m2 env + at_m3 env) < at_s1 env /\
  (at_m3 env + at_m1 env) * (at_m3 env + at_m1 env) < at_s2 env /\
  (at_m1 env + at_m2 env) * (at_m1 env + at_m2 env) < at_s3 env.
Proof.
  intros (p1 & p2 & p3 & H1 & H2 & H3 & H0 & S1 & S2 & S3) (_ & _ & _ & K1 & K2 & K3).
  assert (T1 : (at_m2 env + at_m3 env) * (at_m2 env + at_m3 env) < at_s1 env).
  { rewrite S1 in *. apply pair_threshold; auto. }
  assert (T2 : (at_m3 env + at_m1 env) * (at_m3 env + at_m1 env) < at_s2 env).
  { rewrite S2 in *. apply pair_threshold; auto. }
  assert (T3 : (at_m1 env + at_m2 env) * (at_m1 env + at_m2 env) < at_s3 env).
  { rewrite S3 in *. apply pair_threshold; auto. }
  pose proof (future_mdot _ _ _ _ H1 H2) as F12. pose proof (future_mdot _ _ _ _ H1 H3) as F13.
  destruct H1 as (A1 & _ & M1), H2 as (A2 & _ & M2), H3 as (A3 & _ & M3), H0 as (A0 & _ & M0).
  repeat split; auto.
  assert (E : at_m0 env * at_m0 env = at_s1 env + at_m1 env * at_m1 env
    + 2 * (vE p1 * vE p2 - dot (vp p1) (vp p2)) + 2 * (vE p1 * vE p3 - dot (vp p1) (vp p3))).
  { rewrite <- M0, S1, <- M1. unfold msq, add4, add3, dot. cbn [vE vp vx vy vz]. ring. }
  assert (0 <= at_m1 env * at_m1 env) by nra. assert (0 < at_s1 env) by nra.
  destruct (Rle_lt_or_eq_dec 0 (at_m0 env) A0) as [X|X]; auto. exfalso. rewrite <- X in E. lra.
Qed.
Lemma chain_thresholds base p0 (a b k : state) : st_index p0 = 0%Z ->
  Permutation [st_index a; st_index b; st_index k] [1; 2; 3]%Z ->
  physical (fun x => Re (base x)) -> nonsingular (fun x => Re (base x)) ->
  0 < Re (base (outer_mass p0)) /\ 0 <= Re (base (outer_mass a)) /\ 0 <= Re (base (outer_mass b)) /\ 0 <= Re (base (outer_mass k)) /\
  (Re (base (outer_mass a)) + Re (base (outer_mass b))) * (Re (base (outer_mass a)) + Re (base (outer_mass b))) < Re (base (sigma_of k)).
Proof.
  intros I0 P Ph Ns. destruct (thresholds _ Ph Ns) as (A0 & A1 & A2 & A3 & T1 & T2 & T3).
  unfold at_m0, at_m1, at_m2, at_m3, at_s1, at_s2, at_s3 in *.
  unfold outer_mass, sigma_of. rewrite I0.
  destruct (index_cases a b k P) as [(E1 & E2 & E3)|[(E1 & E2 & E3)|[(E1 & E2 & E3)|[(E1 & E2 & E3)|[(E1 & E2 & E3)|(E1 & E2 & E3)]]]]];
    rewrite E1, E2, E3; cbn [str_of_Z append]; repeat split; auto;
    match goal with |- (?x + ?y) * _ < _ => rewrite (Rplus_comm x y); assumption end.
Qed.

(** ** The lineshape of a chain *)
Lemma bw_divisors w c p0 r a b k i j e ev base h : bw_phsp_factor w = phase_space_factor ->
  isobar_chain c p0 r a b k i j -> bw_call w c = Ok e ->
  (forall x, sassume x = ANonneg -> e_sym ev x = base x) ->
  real_parameters base p0 r a b k -> between_masses base p0 r a b k ->
  physical (fun x => Re (base x)) -> nonsingular (fun x => Re (base x)) ->
  (bw_decay_form_factor w = true -> orbital j = 0%Z \/
      (Re (base (outer_mass a)) + Re (base (outer_mass b))) * (Re (base (outer_mass a)) + Re (base (outer_mass b)))
       <= Re (base (sigma_of k)) * Re (base (sigma_of k))) ->
  forall x, In x (divisors ev h (de_expr e)) -> x <> RtoC 0.
Proof.
  intros Ph Iso E Ev Rp (M0 & G0 & R0 & Bt & Pt) Phy Ns Dff x Hx.
  destruct (bw_ok_inv _ _ _ _ _ _ _ _ _ _ Iso E) as [H1 H2]. destruct Iso as (Hc & I0 & P).
  destruct (chain_thresholds base p0 a b k I0 P Phy Ns) as (T0 & Ta & Tb & Tk & Ts).
  destruct (bw_call_spec w p0 r a b k i j I0 P c Hc) as [_ B]. destruct (B H1 H2) as (y & fp & E' & _ & Hp & Ex).
  rewrite E in E'. inversion E'; subst y. cbv zeta in Ex. rewrite Ex in Hx. clear Ex E' B.
  assert (V : forall y, In y [sigma_of k; outer_mass p0; outer_mass a; outer_mass b; outer_mass k;
                  resonance_mass r; resonance_width r; resonance_radius; parent_radius p0] -> real_ev ev h (CVar y) (Re (base y))).
  { intros y Hy. split; [|reflexivity]. cbn [ceval]. rewrite <- (Rp y Hy). apply Ev.
    cbn [In] in Hy. repeat destruct Hy as [<-|Hy]; try reflexivity. destruct Hy. }
  assert (S0 : 0 < Re (base (sigma_of k))) by nra.
  assert (FP : forall x, In x (divisors ev h fp) -> x <> RtoC 0).
  { destruct Hp as [[_ ->]|[_ ->]].
    - apply (ff_divisors ev h _ _ _ _ _ _ _ _ (orbital i) (real_sqr ev h _ _ (V (outer_mass p0) ltac:(cbn; tauto)))
        (V (resonance_mass r) ltac:(cbn; tauto)) (V (outer_mass k) ltac:(cbn; tauto)) (V (parent_radius p0) ltac:(cbn; tauto))).
      + nra.
      + right. apply rbreakup_sign; try lra; nra.
    - apply (ff_divisors ev h _ _ _ _ _ _ _ _ (orbital i) (real_sqr ev h _ _ (V (outer_mass p0) ltac:(cbn; tauto)))
        (V (outer_mass k) ltac:(cbn; tauto)) (V (resonance_mass r) ltac:(cbn; tauto)) (V (parent_radius p0) ltac:(cbn; tauto))).
      + nra.
      + right. apply rbreakup_sign; try lra; nra. }
  assert (BW : forall x, In x (divisors ev h (if bw_energy_dependent_width w then bw_expr r a b (sigma_of k) (orbital j) (bw_phsp_factor w)
       else simple_breit_wigner (CVar (sigma_of k)) (CVar (resonance_mass r)) (CVar (resonance_width r)))) -> x <> RtoC 0).
  { destruct (bw_energy_dependent_width w).
    - rewrite Ph. unfold bw_expr.
      apply (relativistic_divisors ev h _ _ _ _ _ _ _ _ _ _ _ _ (orbital j) (V (sigma_of k) ltac:(cbn; tauto)) (V (resonance_mass r) ltac:(cbn; tauto))
        (V (resonance_width r) ltac:(cbn; tauto)) (V (outer_mass a) ltac:(cbn; tauto)) (V (outer_mass b) ltac:(cbn; tauto))
        (V resonance_radius ltac:(cbn; tauto))); auto.
    - apply (simple_divisors ev h _ _ _ _ _ _ (V (sigma_of k) ltac:(cbn; tauto)) (V (resonance_mass r) ltac:(cbn; tauto))
        (V (resonance_width r) ltac:(cbn; tauto))); auto. }
  set (e0 := if bw_energy_dependent_width w then _ else _) in *. clearbody e0.
  assert (DF : bw_decay_form_factor w = true -> forall x, In x (divisors ev h (CFormFactor (CSqr (CVar (sigma_of k))) (CVar (outer_mass a))
      (CVar (outer_mass b)) (orbital j) (CVar resonance_radius))) -> x <> RtoC 0).
  { intros W. apply (ff_divisors ev h _ _ _ _ _ _ _ _ (orbital j) (real_sqr ev h _ _ (V (sigma_of k) ltac:(cbn; tauto)))
        (V (outer_mass a) ltac:(cbn; tauto)) (V (outer_mass b) ltac:(cbn; tauto)) (V resonance_radius ltac:(cbn; tauto))).
    - nra.
    - destruct (Dff W) as [D|D]; [auto|]. right. apply rbreakup_sign; auto. nra. }
  destruct (bw_production_form_factor w).
  - apply div_mul in Hx. destruct Hx as [Hx|Hx]; [|auto].
    destruct (bw_decay_form_factor w); [apply div_mul in Hx; destruct Hx|]; auto.
  - destruct (bw_decay_form_factor w); [apply div_mul in Hx; destruct Hx|]; auto.
Qed.

(** *** C96 *)
Theorem c96 b s dyn ref cl uc m base cpl : std_decay (b_decay b) s -> dynamics_of b dyn -> 
  (b_prod_helicity b = false -> plain_resonances (b_decay b)) -> formulate b ref cl uc = Ok m ->
  physical (fun x => Re (base x)) -> nonsingular (fun x => Re (base x)) ->
  regular_dynamics (b_decay b) dyn base -> decay_form_factors_regular (b_decay b) dyn base ->
  well_defined m base cpl.
Proof.
  intros D Dyn PR F Ph Ns Rg Df. destruct (c17 _ Ph Ns) as (C1 & _ & C3). split; [|split].
  - intros x e G.
    destruct (formulate_inv b s D _ _ _ _ F)
      as (r & ks & terms & zdefs & amps & vars & params & masses & inv & Hr & _).
    assert (K : In x (dkeys (m_variables m))) by (apply dget_In; eauto).
    apply (variable_names b s D _ _ _ _ r F Hr) in K.
    destruct K as [(i & j & k & Cy & -> & Hk)|(i & k & Hi & Hk & Sp & ->)].
    + destruct (tuples s) as [|l ls] eqn:Et; [destruct (OccFacts.tuples_nonempty _ s D Et)|].
      assert (Hl : helicity_tuple s l) by (apply tuples_In; rewrite Et; left; reflexivity).
      destruct (amplitude_formula b s D dyn ref cl uc m Dyn PR F l i j k Hl Cy) as (_ & (th & Fth & Gth) & _).
      { destruct (b_all_subsystems b); auto. }
      rewrite G in Gth. inversion Gth; subst th. exact (C1 _ _ _ _ Fth).
    + destruct (zeta_variable b s D _ _ _ _ r F Hr i k Hi Hk Sp) as (z & Fz & Gz).
      rewrite G in Gz. inversion Gz; subst z. exact (C3 _ _ _ _ _ Fz).
  - intros key e G x Hx.
    destruct (amplitude_divisors b s dyn uc D Dyn ref cl m F _ key e x G Hx) as (k & c & _ & Hc & _ & Hd).
    destruct (Rg c Hc) as [E|(w & Phw & E & (p0 & r & a & b' & k' & i & j & Iso & Rp & Bt))].
    { rewrite E in Hd. destruct Hd. }
    eapply (bw_divisors w c p0 r a b' k' i j _ _ base (fun _ => 0%Z) Phw Iso E); eauto.
    intros y Hy. unfold at_point. cbn [e_sym]. destruct (dget y (m_variables m)) as [v|] eqn:Gy; [|reflexivity].
    assert (K : In y (dkeys (m_variables m))) by (apply dget_In; eauto).
    apply (variables_real b s D _ _ _ _ F) in K. congruence.
  - intros x Hx. rewrite (intensity_divisors b s uc D ref cl m F) in Hx. destruct Hx.
Qed.
