(** Rates of serialised models as a function of the weights (proofs for C146) *)
From Coq Require Import String ZArith List Bool Reals Lra Lia Psatz Permutation FunctionalExtensionality.
From Coquelicot Require Import Coquelicot.
From Verif Require Import Prelude Spin Decay Expr Sums Wigner CExpr Angles SpecKin SpecDPD Builder DecayFacts CExprFacts ModelFacts AnglesProofs RefFacts
  SpecFractions FractionProofs SpecContinuity SpecObs SpecBounded SpecNormal NormalFacts NormalKin NormalProofs RateFacts RateProofs RateForm
  SerFormat SerDynamics SpecSerial SerModel SerProofs SerDyn SerFormal SerTotal SpecWeights SerWeights SerPoints SpecParts SerParts SerFinite SerSmooth SerRate.
From Verif Require SerAmplitude.
Import ListNotations.
Local Open Scope R_scope.

(** The integral as a function of the distribution *)
Definition total (base : symbol -> C) (i j k : Z) (I : (symbol -> C) -> R) : R :=
  RInt (fun t => RInt (fun x => I (dalitz_line (with_sigma base k t) i j k x)) (line_at base i j k t (-1)) (line_at base i j k t 1))
    (lower_limit base k) (upper_limit base k).
Lemma total_rate base i j k I N : cyclic i j k -> open_phase_space base -> integrates_to base I i j k N -> total base i j k I = N.
Proof.
  intros Cy Op (P & H & J). unfold total. refine (is_RInt_unique _ _ _ _ (is_RInt_ext _ _ _ _ _ _ J)).
  pose proof (line_open base i j k Cy Op) as L. intros t. rewrite Rmin_left, Rmax_right by lra. intros Ht. symmetry.
  exact (is_RInt_unique _ _ _ _ (projects_line base i j k Cy Op I P t H Ht)).
Qed.

Lemma physical_ext env env' : (forall y, sassume y = ANonneg -> env y = env' y) -> physical env -> physical env'.
Proof.
  intros E (p1 & p2 & p3 & Q). exists p1, p2, p3. unfold momenta_of, at_m0, at_m1, at_m2, at_m3, at_s1, at_s2, at_s3 in *.
  rewrite !E in Q by reflexivity. exact Q.
Qed.

Section Weights.
  Variables (m : model_def) (d : distribution) (s : Z -> state) (r : Z)
    (tl : string -> string) (additional : option (dict string prop_builder))
    (x : chain_def -> content) (w : chain_def -> symbol) (dyn : chain_def -> defexpr).
  Hypothesis H : helicity_definition m d s r tl additional x w dyn.
  Definition weightb (y : symbol) : bool := existsb (fun c => eqb y (w c)) (di_chains d).
  Definition reweigh (v pt : symbol -> C) (y : symbol) : C := if weightb y then v y else pt y.
  Lemma weightb_spec y : weightb y = true <-> is_weight w (di_chains d) y.
  Proof.
    unfold weightb. rewrite existsb_exists. split.
    - intros (c & Hc & E). exists c. split; [exact Hc|]. exact (proj1 (Prelude.eqb_eq _ _) E).
    - intros (c & Hc & ->). exists c. split; [exact Hc|apply Prelude.eqb_refl].
  Qed.
  Lemma weightb_false y : sassume y <> ANone -> weightb y = false.
  Proof.
    intros N. destruct (weightb y) eqn:E; [|reflexivity]. exfalso. apply N. apply (weight_none m d s r tl additional x w dyn H). apply weightb_spec. exact E.
  Qed.
  Lemma reweigh_other v pt y : sassume y <> ANone -> reweigh v pt y = pt y.
  Proof. intros N. unfold reweigh. rewrite (weightb_false y N). reflexivity. Qed.

  Section Transfer.
    Variables (base v : symbol -> C).
    Hypothesis Sv : same_but_weights w (di_chains d) v base.
    Lemma same_other y : sassume y <> ANone -> v y = base y.
    Proof. intros N. apply Sv. intros Q. apply N. exact (weight_none m d s r tl additional x w dyn H y Q). Qed.
    Lemma same_mass n : particle_mass v n = particle_mass base n.
    Proof. unfold particle_mass. rewrite same_other; [reflexivity|discriminate]. Qed.
    Lemma reweigh_cases y : reweigh v base y = v y.
    Proof. unfold reweigh. destruct (weightb y) eqn:E; [reflexivity|]. symmetry. apply Sv. intros Q. apply weightb_spec in Q. congruence. Qed.
    Lemma reweigh_line i j k t z : dalitz_line (with_sigma v k t) i j k z = reweigh v (dalitz_line (with_sigma base k t) i j k z).
    Proof.
      apply functional_extensionality. intros y.
      assert (WS : forall y, with_sigma v k t y = reweigh v (with_sigma base k t) y).
      { intros u. unfold with_sigma, reweigh. destruct (eqb u (sigma_at k)) eqn:E.
        - apply (proj1 (Prelude.eqb_eq _ _)) in E. subst u. rewrite weightb_false by discriminate. reflexivity.
        - fold (reweigh v base u). symmetry. apply reweigh_cases. }
      assert (WO : forall y, sassume y <> ANone -> with_sigma v k t y = with_sigma base k t y) by (intros u Nu; rewrite WS; apply reweigh_other; exact Nu).
      unfold dalitz_line, square_at. rewrite !WO by discriminate. unfold reweigh at 1.
      destruct (eqb y (sigma_at j)) eqn:E1; [apply (proj1 (Prelude.eqb_eq _ _)) in E1; subst y; rewrite weightb_false by discriminate; reflexivity|].
      destruct (eqb y (sigma_at i)) eqn:E2; [apply (proj1 (Prelude.eqb_eq _ _)) in E2; subst y; rewrite weightb_false by discriminate; reflexivity|].
      rewrite WS. reflexivity.
    Qed.
    Lemma reweigh_range i j k t a b : dalitz_range (with_sigma v k t) i j k a b <-> dalitz_range (with_sigma base k t) i j k a b.
    Proof.
      assert (Q : forall z, physical (fun y => Re (dalitz_line (with_sigma v k t) i j k z y)) <-> physical (fun y => Re (dalitz_line (with_sigma base k t) i j k z y))).
      { intros z. rewrite reweigh_line. split; apply physical_ext; intros y Hy; rewrite reweigh_other; congruence. }
      unfold dalitz_range. split; intros E z; [rewrite <- Q|rewrite Q]; apply E.
    Qed.
    Lemma reweigh_limits k : lower_limit v k = lower_limit base k /\ upper_limit v k = upper_limit base k.
    Proof. unfold lower_limit, upper_limit. rewrite !same_mass. split; reflexivity. Qed.
    Lemma reweigh_open : open_phase_space base -> open_phase_space v.
    Proof. unfold open_phase_space. rewrite !same_mass. auto. Qed.
    Lemma reweigh_rate I i j k N : integrates_to v I i j k N <-> integrates_to base (fun pt => I (reweigh v pt)) i j k N.
    Proof.
      unfold integrates_to, projects_to. destruct (reweigh_limits k) as [-> ->].
      split; intros (P & HP & J); exists P; (split; [|exact J]); intros t Ht; destruct (HP t Ht) as (a & b & L & Rg & K); exists a, b; (split; [exact L|]);
        (split; [apply reweigh_range; exact Rg|]); (eapply is_RInt_ext; [|exact K]); intros z _; cbn beta; rewrite reweigh_line; reflexivity.
    Qed.
    Lemma reweigh_sigmas s1 s2 s3 y : ~ is_weight w (di_chains d) y -> at_sigmas v s1 s2 s3 y = at_sigmas base s1 s2 s3 y.
    Proof. intros Ny. unfold at_sigmas. rewrite (Sv y Ny). reflexivity. Qed.
    Hypothesis W : weights_only w dyn (di_chains d).
    Lemma reweigh_shape cpl c s1 s2 s3 : In c (di_chains d) ->
      ceval (Env (at_sigmas v s1 s2 s3) cpl) (fun _ => 0%Z) (de_expr (dyn c)) = ceval (Env (at_sigmas base s1 s2 s3) cpl) (fun _ => 0%Z) (de_expr (dyn c)).
    Proof.
      intros Hc. apply lineshape_eval; [exact (hd_lineshape _ _ _ _ _ _ _ _ _ H c Hc)|]. intros y _ Iy. apply reweigh_sigmas. intros Wy. exact (W c y Hc Wy Iy).
    Qed.
    Lemma reweigh_shapes cpl :
      (forall c, In c (di_chains d) -> own_sigma_only base cpl (ct_k (x c)) (de_expr (dyn c)) /\ continuous_on_range base cpl (ct_k (x c)) (de_expr (dyn c))) ->
      (forall c, In c (di_chains d) -> own_sigma_only v cpl (ct_k (x c)) (de_expr (dyn c)) /\ continuous_on_range v cpl (ct_k (x c)) (de_expr (dyn c))).
    Proof.
      intros Q c Hc. destruct (Q c Hc) as [O Ct]. split.
      - intros s1 s2 s3. cbv zeta. rewrite !(reweigh_shape cpl c) by exact Hc. exact (O s1 s2 s3).
      - intros t0 Ht. destruct (reweigh_limits (ct_k (x c))) as [E1 E2]. rewrite E1, E2 in Ht. destruct (Ct t0 Ht) as [A B]. rewrite !(reweigh_shape cpl c) by exact Hc.
        split; [refine (filterlim_ext _ _ _ A)|refine (filterlim_ext _ _ _ B)]; intros t; cbn beta; rewrite (reweigh_shape cpl c) by exact Hc; reflexivity.
    Qed.
  End Transfer.

  Variables (cl : bool) (M : model).
  Hypothesis F : SerAmplitude.formulate m cl tl additional = Ok M.
  Variables (base : symbol -> C) (cpl : string -> list ival -> C) (i j k : Z).
  Hypothesis (Cy : cyclic i j k) (Op : open_phase_space base).

  (** *** At a point *)
  Definition values (v pt : symbol -> C) : symbol -> C := e_sym (at_point (m_variables M) (reweigh v pt) cpl).
  Lemma values_weight v pt y : is_weight w (di_chains d) y -> values v pt y = v y.
  Proof.
    intros Wy. unfold values. rewrite (serial_at_point m d s r tl additional x w dyn H cl M F).
    - unfold reweigh. rewrite (proj2 (weightb_spec y) Wy). reflexivity.
    - rewrite (weight_none m d s r tl additional x w dyn H y Wy). discriminate.
  Qed.
  Lemma values_other v v' pt y : ~ is_weight w (di_chains d) y -> values v pt y = values v' pt y.
  Proof.
    intros Ny. unfold values, at_point. cbn [e_sym]. destruct (dget y (m_variables M)) as [e|] eqn:G.
    - f_equal. apply nonneg_eval.
      + destruct (serial_variables m d s r tl additional x w dyn H cl M F y e G) as [(c & _ & E)|(n & q & E)]; [exact (theta_symbols_ok _ _ _ _ E)|exact (zeta_symbols_ok _ _ _ _ _ E)].
      + intros z Hz. rewrite !reweigh_other by congruence. reflexivity.
    - unfold reweigh. destruct (weightb y) eqn:E; [|reflexivity]. apply weightb_spec in E. destruct (Ny E).
  Qed.
  Lemma values_superposed xs v pt : weights_superposed w (di_chains d) xs v ->
    weights_superposed w (di_chains d) (map (fun u => (fst u, values (snd u) pt)) xs) (values v pt).
  Proof.
    intros Su y. split.
    - intros Wy. rewrite (values_weight v pt y Wy), (proj1 (Su y) Wy), Csum_map. apply Csum_ext. intros u _. cbn [fst snd]. rewrite (values_weight _ pt y Wy). reflexivity.
    - intros Ny u Hu. apply in_map_iff in Hu. destruct Hu as (u0 & <- & _). cbn [snd]. apply values_other. exact Ny.
  Qed.

  Hypothesis W : weights_only w dyn (di_chains d).
  Hypothesis Sh : forall c, In c (di_chains d) ->
    own_sigma_only base cpl (ct_k (x c)) (de_expr (dyn c)) /\ continuous_on_range base cpl (ct_k (x c)) (de_expr (dyn c)).

  Lemma point_form pt : exists G : (symbol -> C) -> (symbol -> C) -> C, (forall v v', G v' v = Cconj (G v v')) /\
    (forall v, same_but_weights w (di_chains d) v base -> G v v = RtoC (intensity_at M cpl (reweigh v pt))) /\
    (forall xs v, same_but_weights w (di_chains d) v base -> (forall u, In u xs -> same_but_weights w (di_chains d) (snd u) base) ->
       weights_superposed w (di_chains d) xs v ->
       RtoC (intensity_at M cpl (reweigh v pt)) = Csum xs (fun u => Csum xs (fun u' => fst u * Cconj (fst u') * G (snd u) (snd u'))%C)).
  Proof.
    destruct (c124_weights m d s r tl additional x w dyn H cl M F W (values base pt) cpl) as (G & Dg & Hm & _ & Su).
    assert (Sm : forall v, same_but_weights w (di_chains d) (values v pt) (values base pt)) by (intros v y Ny; apply values_other; exact Ny).
    assert (Rl : forall v, full_value (Env (values v pt) cpl) M = RtoC (intensity_at M cpl (reweigh v pt))).
    { intros v. unfold intensity_at. change (at_point (m_variables M) (reweigh v pt) cpl) with (Env (values v pt) cpl).
      rewrite (serial_all m d s r tl additional x w dyn H cl M F (Env (values v pt) cpl)). reflexivity. }
    exists (fun v v' => G (values v pt) (values v' pt)). split; [intros; apply Hm|]. split.
    - intros v _. rewrite (Dg _ (Sm v)). apply Rl.
    - intros xs v _ _ Sx. rewrite <- Rl, (Su _ _ (Sm v) (values_superposed xs v pt Sx)), Csum_map. apply Csum_ext. intros u _.
      rewrite Csum_map. reflexivity.
  Qed.

  Definition rate_at (v : symbol -> C) : R := total base i j k (fun pt => intensity_at M cpl (reweigh v pt)).
  Lemma rate_at_value v N : same_but_weights w (di_chains d) v base -> integrates_to v (intensity_at M cpl) i j k N -> rate_at v = N.
  Proof. intros Sv HN. apply (total_rate base i j k _ N Cy Op). apply (reweigh_rate base v Sv). exact HN. Qed.
  Lemma rate_at_exists v : same_but_weights w (di_chains d) v base -> integrates_to v (intensity_at M cpl) i j k (rate_at v).
  Proof.
    intros Sv. pose proof (reweigh_shapes base v Sv W cpl Sh) as Q.
    destruct (c142_serial m d s r tl additional x w dyn cl M v cpl i j k H F Cy (reweigh_open base v Sv Op) (fun c Hc => proj1 (Q c Hc)) (fun c Hc => proj2 (Q c Hc))) as (N & HN & _).
    rewrite (rate_at_value v N Sv HN). exact HN.
  Qed.
  Theorem c146_weights : exists G : (symbol -> C) -> (symbol -> C) -> C,
    (forall v N, same_but_weights w (di_chains d) v base -> integrates_to v (intensity_at M cpl) i j k N -> G v v = RtoC N) /\
    (forall v v', same_but_weights w (di_chains d) v base -> same_but_weights w (di_chains d) v' base ->
       G v' v = Cconj (G v v') /\ Cmod (G v v') ^ 2 <= Re (G v v) * Re (G v' v')) /\
    (forall xs v, same_but_weights w (di_chains d) v base -> weights_superposed w (di_chains d) xs v ->
       G v v = Csum xs (fun u => Csum xs (fun u' => fst u * Cconj (fst u') * G (snd u) (snd u'))%C)).
  Proof.
    destruct (rate_form base i j k Cy Op (symbol -> C) (fun v => same_but_weights w (di_chains d) v base) (weights_superposed w (di_chains d))
      (fun a b v v' y => if weightb y then (a * v y + b * v' y)%C else base y) (fun v pt => intensity_at M cpl (reweigh v pt)) rate_at) as (G & Dg & Hm & Bd & Su).
    - intros a b v v' Sv Sv'. assert (NW : forall y, ~ is_weight w (di_chains d) y -> weightb y = false).
      { intros y Ny. destruct (weightb y) eqn:E; [|reflexivity]. apply weightb_spec in E. destruct (Ny E). }
      split.
      + intros y Ny. rewrite (NW y Ny). reflexivity.
      + intros y. split.
        * intros Wy. rewrite (proj2 (weightb_spec y) Wy). cbn [Csum fst snd]. ring.
        * intros Ny u Hu. rewrite (NW y Ny). destruct Hu as [<-|[<-|[]]]; cbn [snd]; auto.
    - intros v Sv. apply (reweigh_rate base v Sv). exact (rate_at_exists v Sv).
    - intros v pt. unfold intensity_at. rewrite (serial_all m d s r tl additional x w dyn H cl M F). cbn [RtoC Re fst]. unfold intensity_value.
      apply Rsum_nonneg. intros l _. apply pow2_ge_0.
    - exact point_form.
    - exists G. split; [|split].
      + intros v N Sv HN. rewrite (Dg v Sv), (rate_at_value v N Sv HN). reflexivity.
      + intros v v' Sv Sv'. split; [exact (Hm v v' Sv Sv')|]. rewrite (Dg v Sv), (Dg v' Sv'). exact (Bd v v' Sv Sv').
      + intros xs v Sv Sx. rewrite (Dg v Sv). apply Su; [exact Sv| |exact Sx]. intros u Hu y Ny. rewrite (proj2 (Sx y) Ny u Hu). exact (Sv y Ny).
  Qed.

  (** *** The matrix of the chains *)
  Hypothesis Di : NoDup (map w (di_chains d)).
  Definition unit_weight (c : chain_def) (y : symbol) : C := if weightb y then (if eqb y (w c) then RtoC 1 else RtoC 0) else base y.
  Lemma unit_same c : same_but_weights w (di_chains d) (unit_weight c) base.
  Proof. intros y Ny. unfold unit_weight. destruct (weightb y) eqn:E; [|reflexivity]. apply weightb_spec in E. destruct (Ny E). Qed.
  Lemma unit_self c : In c (di_chains d) -> unit_weight c (w c) = RtoC 1.
  Proof. intros Hc. unfold unit_weight. rewrite (proj2 (weightb_spec (w c))) by (exists c; auto). rewrite Prelude.eqb_refl. reflexivity. Qed.
  Lemma unit_zero c c' : In c' (di_chains d) -> w c' <> w c -> unit_weight c (w c') = RtoC 0.
  Proof.
    intros Hc N. unfold unit_weight. rewrite (proj2 (weightb_spec (w c'))) by (exists c'; auto).
    destruct (eqb (w c') (w c)) eqn:E; [|reflexivity]. apply (proj1 (Prelude.eqb_eq _ _)) in E. destruct (N E).
  Qed.
  Lemma units_sum (v : symbol -> C) y : is_weight w (di_chains d) y -> v y = Csum (di_chains d) (fun c => v (w c) * unit_weight c y)%C.
  Proof.
    intros (c0 & H0 & ->).
    assert (Q : forall l, incl l (di_chains d) -> NoDup (map w l) -> (In c0 l -> Csum l (fun c => v (w c) * unit_weight c (w c0))%C = v (w c0)) /\
      (~ In (w c0) (map w l) -> Csum l (fun c => v (w c) * unit_weight c (w c0))%C = RtoC 0)).
    { induction l as [|c l IH]; intros Ic Nd; cbn [Csum]; [split; [intros []|reflexivity]|].
      inversion Nd as [|? ? Nc Nl]; subst. destruct (IH (fun q Hq => Ic q (or_intror Hq)) Nl) as [I1 I2]. split.
      - intros [->|Hl].
        + rewrite (unit_self c0 H0), (I2 Nc). ring.
        + rewrite (I1 Hl), unit_zero; [ring|exact H0|]. intros E. apply Nc. rewrite <- E. apply in_map. exact Hl.
      - intros Nn. rewrite (I2 (fun q => Nn (or_intror q))), unit_zero; [ring|exact H0|]. intros E. apply Nn. left. symmetry. exact E. }
    symmetry. exact (proj1 (Q _ (incl_refl _) Di) H0).
  Qed.
  Hypothesis FO : chains_unused additional.
  Theorem c146_fractions : exists G : chain_def -> chain_def -> C,
    (forall c c', G c' c = Cconj (G c c')) /\
    (forall c c', Cmod (G c c') ^ 2 <= Re (G c c) * Re (G c' c')) /\
    (forall v N, same_but_weights w (di_chains d) v base -> integrates_to v (intensity_at M cpl) i j k N ->
       RtoC N = Csum (di_chains d) (fun c => Csum (di_chains d) (fun c' => v (w c) * Cconj (v (w c')) * G c c')%C)) /\
    (forall c cl1 M1 v N, In c (di_chains d) -> SerAmplitude.formulate (with_chains m [c]) cl1 tl additional = Ok M1 ->
       same_but_weights w (di_chains d) v base -> integrates_to v (intensity_at M1 cpl) i j k N -> N = Cmod (v (w c)) ^ 2 * Re (G c c)).
  Proof.
    destruct c146_weights as (G & Dg & Hb & Su).
    exists (fun c c' => G (unit_weight c) (unit_weight c')).
    split; [intros; apply Hb; apply unit_same|]. split; [intros; apply Hb; apply unit_same|]. split.
    - intros v N Sv HN. rewrite <- (Dg v N Sv HN).
      rewrite (Su (map (fun c => (v (w c), unit_weight c)) (di_chains d)) v Sv).
      + rewrite Csum_map. apply Csum_ext. intros c _. rewrite Csum_map. reflexivity.
      + intros y. split; [intros Wy; rewrite Csum_map; exact (units_sum v y Wy)|]. intros Ny u Hu. apply in_map_iff in Hu. destruct Hu as (c & <- & _). cbn [snd].
        rewrite (unit_same c y Ny), (Sv y Ny). reflexivity.
    - intros c cl1 M1 v N Hc F1 Sv HN.
      set (v0 := fun y => if weightb y then (v (w c) * unit_weight c y)%C else v y).
      assert (NW : forall y, ~ is_weight w (di_chains d) y -> weightb y = false).
      { intros y Ny. destruct (weightb y) eqn:E; [|reflexivity]. apply weightb_spec in E. destruct (Ny E). }
      assert (S0 : same_but_weights w (di_chains d) v0 base) by (intros y Ny; unfold v0; rewrite (NW y Ny); exact (Sv y Ny)).
      assert (HN0 : integrates_to v0 (intensity_at M cpl) i j k N).
      { apply (reweigh_rate base v0 S0). apply (reweigh_rate base v Sv) in HN. refine (rate_same base i j k _ _ N _ HN). intros pt. cbn beta. unfold intensity_at. f_equal.
        destruct (in_split _ _ Hc) as (l1 & l2 & El).
        assert (Ic : incl [c] (di_chains d)) by (intros q [<-|[]]; exact Hc).
        assert (Pm : Permutation (di_chains d) ([c] ++ (l1 ++ l2))) by (rewrite El; apply Permutation_sym; exact (Permutation_middle l1 l2 c)).
        rewrite (serial_part_at_point m d s r tl additional x w dyn H cl M F FO [c] cl1 M1 Ic F1 (reweigh v pt) cpl).
        change (at_point (m_variables M) (reweigh v pt) cpl) with (Env (values v pt) cpl).
        change (at_point (m_variables M) (reweigh v0 pt) cpl) with (Env (values v0 pt) cpl).
        rewrite (c124_switched_off m d s r tl additional x w dyn H cl M F [c] (l1 ++ l2) cl1 M1 (values v0 pt) cpl FO Pm F1).
        - pose proof (part_definition m d s r tl additional x w dyn H FO [c] Ic) as H1.
          assert (EV : forall y, (is_weight w (di_chains d) y -> y = w c) -> values v pt y = values v0 pt y).
          { intros y Q. destruct (weightb y) eqn:E.
            - apply weightb_spec in E. rewrite !values_weight by exact E. rewrite (Q E). unfold v0. rewrite (proj2 (weightb_spec (w c))) by (exists c; auto).
              rewrite (unit_self c Hc). ring.
            - apply values_other. intros Wy. apply weightb_spec in Wy. congruence. }
          rewrite !(serial_all _ _ s r tl additional x w dyn H1 cl1 M1 F1). f_equal.
          assert (EZ : forall n q, e_sym (Env (values v pt) cpl) (zeta_symbol n q r) = e_sym (Env (values v0 pt) cpl) (zeta_symbol n q r)).
          { intros n q. cbn [e_sym]. apply values_other. apply (zeta_no_weight m d s r tl additional x w dyn H). }
          rewrite (intensity_zeta_ext s [1; 2; 3]%Z _ _ (fun n q => Re (e_sym (Env (values v0 pt) cpl) (zeta_symbol n q r)))).
          2:{ intros n q _ _ _. rewrite EZ. reflexivity. }
          apply (intensity_amp_ext s). intros q l Hq Hl.
          rewrite !(serial_amplitude_value _ _ s r tl additional x w dyn H1 cl1 M1 F1 _ q l Hl Hq). apply Csum_ext. intros c' Hc'. apply in_chains_in in Hc'.
          destruct Hc' as [[<-|[]] _]. unfold chain_contribution, serial_term. cbn [e_sym].
          rewrite (EV (w c)) by (intros _; reflexivity). rewrite (values_other v v0 pt (theta_name _ _)) by apply (theta_no_weight m d s r tl additional x w dyn H).
          rewrite (lineshape_eval (Env (values v pt) cpl) (Env (values v0 pt) cpl) (fun _ => 0%Z) (fun _ => 0%Z) _ (hd_lineshape _ _ _ _ _ _ _ _ _ H c Hc)); [reflexivity|].
          intros y _ Iy. cbn [e_sym]. apply values_other. intros Wy. exact (W c y Hc Wy Iy).
        - intros c' Hc'. assert (Hi : In c' (di_chains d)) by (rewrite El; apply in_app_or in Hc'; apply in_or_app; destruct Hc'; [left|right; right]; assumption).
          rewrite values_weight by (exists c'; auto). unfold v0. rewrite (proj2 (weightb_spec (w c'))) by (exists c'; auto).
          rewrite unit_zero; [ring|exact Hi|]. intros E. pose proof Di as Dn. rewrite El, map_app in Dn. cbn [map] in Dn. apply NoDup_remove_2 in Dn. apply Dn.
          rewrite <- map_app, <- E. apply in_map. exact Hc'. }
      pose proof (Dg v0 N S0 HN0) as E.
      rewrite (Su [(v (w c), unit_weight c)] v0 S0) in E.
      + cbn [Csum fst snd] in E. apply (f_equal Re) in E. cbn [RtoC Re fst] in E. rewrite <- E.
        assert (Im0 : Im (G (unit_weight c) (unit_weight c)) = 0).
        { pose proof (proj1 (Hb _ _ (unit_same c) (unit_same c))) as Q. destruct (G (unit_weight c) (unit_weight c)) as [g h]. injection Q as Q. cbn [Im snd]. lra. }
        assert (Mz : forall z, Cmod z ^ 2 = fst z * fst z + snd z * snd z).
        { intros [p q]. unfold Cmod. cbn [fst snd]. rewrite <- (Rsqr_pow2 (sqrt _)), Rsqr_sqrt; [ring|]. pose proof (pow2_ge_0 p). pose proof (pow2_ge_0 q). lra. }
        rewrite Mz. destruct (v (w c)) as [p q], (G (unit_weight c) (unit_weight c)) as [g h]. unfold Im in Im0. cbn [snd] in Im0. subst h.
        unfold Re. cbn [fst snd RtoC Cplus Cmult Cconj]. ring.
      + intros y. split.
        * intros Wy. unfold v0. rewrite (proj2 (weightb_spec y) Wy). cbn [Csum fst snd]. ring.
        * intros Ny u [<-|[]]. cbn [snd]. rewrite (unit_same c y Ny). symmetry. exact (S0 y Ny).
  Qed.
End Weights.
