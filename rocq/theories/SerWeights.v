(** The weights and the reference subsystem of serialised models. *)
From Coq Require Import String ZArith QArith Qcanon Qreals List Bool Reals Lia Lra Permutation Sorted.
From Coquelicot Require Import Complex.
From Verif Require Import Prelude Spin Decay Expr Angles Sums Wigner CG CExpr SpecKin SpecDPD Builder
  SpinFacts DecayFacts AnglesFacts WignerFacts CExprFacts BuilderFacts ModelFacts RefFacts TurnFacts SpecTurn FormProofs Dynamics SerFormat SerDynamics
  SerAmplitude SpecSerial SerDecay SerAmpFacts SerModel SerProofs SerDyn SerTotal SerFormal SpecWeights.
From Verif Require IdenticalProofs OccFacts.
Import ListNotations.
Local Open Scope string_scope.
Local Open Scope Z_scope.
Local Open Scope list_scope.

(** The change of the reference, for any amplitudes *)
Lemma reference_core (s : Z -> state) ks A r1 r2 env (z1 z2 : Z -> Z -> R) :
  0 <= p_spin (s 0) -> physical env -> nonsingular env -> In r1 [1; 2; 3] -> In r2 [1; 2; 3] ->
  (forall k, In k ks -> In k [1; 2; 3]) ->
  (forall i k, In i [0; 1; 2; 3] -> In k ks -> p_spin (s i) <> 0 -> z1 i k = rv env (formulate_zeta_angle i k r1)) ->
  (forall i k, In i [0; 1; 2; 3] -> In k ks -> p_spin (s i) <> 0 -> z2 i k = rv env (formulate_zeta_angle i k r2)) ->
  intensity_value s ks A z2 = intensity_value s ks (fun k l => RtoC (turn_sign s r1 r2 k) * A k l)%C z1.
Proof.
  intros Hs0 Ph NS R1 R2 K Z1 Z2.
  assert (RR1 : 1 <= r1 <= 3) by (simpl in R1; lia). assert (RR2 : 1 <= r2 <= 3) by (simpl in R2; lia).
  set (d0 := rv env (formulate_zeta_angle 0 r1 r2)).
  set (dl := fun i => if i =? 0 then d0 else rv env (formulate_zeta_angle i r1 r2)).
  set (z1' := fun i k => if i =? 0 then (z2 0%Z k - d0)%R else z1 i k).
  rewrite (intensity_rot s ks _ z1' z2 1%R dl ltac:(ring)).
  - apply intensity_sign.
    + intros k Hk mm m'. unfold z1'. cbn [Z.eqb].
      destruct (Z.eq_dec (p_spin (s 0)) 0) as [E0|N0].
      { unfold turn_sign. rewrite E0. cbn [Z.even orb]. rewrite Rmult_1_l. apply spin0_any; auto. }
      assert (Hk3 : 1 <= k <= 3) by (specialize (K k Hk); simpl in K; lia).
      destruct (hat_rule_exact env k r1 r2 Ph NS Hk3 RR1 RR2) as (n & Hn & E).
      rewrite (Z1 0 k ltac:(simpl; auto) Hk N0), (Z2 0 k ltac:(simpl; auto) Hk N0), E.
      match goal with |- wigner_d _ _ _ ?x = _ =>
        replace x with (rv env (formulate_zeta_angle 0 k r1) + IZR n * (2 * PI))%R by (unfold d0; ring) end.
      rewrite wigner_d_turns by lia. f_equal. unfold turn_sign.
      destruct Hn as [[-> Eq]|[Hn (Na & Nb & Nc)]].
      * change (0 =? 0) with true. cbv iota.
        assert (T : (r1 =? r2) || (k =? r1) || (k =? r2) = true).
        { destruct Eq as [->|[->| ->]]; rewrite Z.eqb_refl, ?orb_true_r; reflexivity. }
        rewrite <- !orb_assoc in *. rewrite T, orb_true_r. reflexivity.
      * replace (n =? 0) with false by (symmetry; apply Z.eqb_neq; lia). cbv iota.
        rewrite (proj2 (Z.eqb_neq r1 r2) Nc), (proj2 (Z.eqb_neq k r1) Na), (proj2 (Z.eqb_neq k r2) Nb), !orb_false_r.
        destruct (Z.even (p_spin (s 0))) eqn:Ev.
        -- apply Z.even_spec in Ev. destruct Ev as [q Hq]. rewrite Hq.
           replace (Z.to_nat (2 * q)) with (2 * Z.to_nat q)%nat by lia. rewrite pow_1_even. reflexivity.
        -- assert (Od : Z.odd (p_spin (s 0)) = true) by (rewrite <- Z.negb_even, Ev; reflexivity).
           apply Z.odd_spec in Od. destruct Od as [q Hq]. rewrite Hq.
           replace (Z.to_nat (2 * q + 1)) with (S (2 * Z.to_nat q))%nat by lia. rewrite pow_1_odd. reflexivity.
    + intros i k Hi Hk. unfold z1'. destruct (Z.eqb_spec i 0) as [->|_]; [simpl in Hi; lia|reflexivity].
  - intros k Hk mm m'. rewrite Rmult_1_l. f_equal. unfold dl, z1'. cbn [Z.eqb]. ring.
  - intros i k Hi Hk mm m'.
    destruct (Z.eq_dec (p_spin (s i)) 0) as [E0|N0]; [apply spin0_any; auto|].
    assert (Ni : (i =? 0) = false) by (apply Z.eqb_neq; simpl in Hi; lia).
    unfold z1', dl. rewrite !Ni, (Z1 i k (or_intror Hi) Hk N0), (Z2 i k (or_intror Hi) Hk N0).
    f_equal. apply zeta_cocycle; auto.
    + simpl in Hi; lia.
    + specialize (K k Hk). simpl in K; lia.
Qed.
(** Amplitudes with a common sign *)
Lemma intensity_unit (s : Z -> state) ks A z (sg : R) : (sg * sg = 1)%R ->
  intensity_value s ks (fun k l => RtoC sg * A k l)%C z = intensity_value s ks A z.
Proof.
  intros E. unfold intensity_value. apply Rsum_ext. intros l _.
  assert (Q : aligned_amplitude s ks (fun k l0 => RtoC sg * A k l0)%C z l = (RtoC sg * aligned_amplitude s ks A z l)%C).
  { unfold aligned_amplitude. rewrite <- Csum_scal_l. apply Csum_ext. intros l' _.
    rewrite <- Csum_scal_l. apply Csum_ext. intros k _. ring. }
  rewrite Q, Cmod_mult, Cmod_R, Rpow_mult_distr.
  replace (Rabs sg ^ 2)%R with 1%R; [ring|]. rewrite pow2_abs. simpl. lra.
Qed.

Lemma sorted_same (l l' : list Z) : StronglySorted Z.lt l -> StronglySorted Z.lt l' -> (forall k, In k l <-> In k l') -> l = l'.
Proof.
  intros S1. revert l'. induction S1 as [|a l S IH Fa]; intros l' S2 E.
  - destruct l' as [|b l']; [reflexivity|]. exfalso. apply (E b). left. reflexivity.
  - destruct S2 as [|b l' S2 Fb]; [exfalso; apply (E a); left; reflexivity|].
    rewrite Forall_forall in Fa, Fb.
    assert (Q : a = b).
    { destruct (proj1 (E a) (or_introl eq_refl)) as [X|X]; [auto|].
      destruct (proj2 (E b) (or_introl eq_refl)) as [Y|Y]; [auto|].
      pose proof (Fa _ Y). pose proof (Fb _ X). lia. }
    subst b. f_equal. apply IH; [exact S2|]. intros k. split; intros I.
    + destruct (proj1 (E k) (or_intror I)) as [X|X]; [|exact X]. exfalso. pose proof (Fa _ I). lia.
    + destruct (proj2 (E k) (or_intror I)) as [X|X]; [|exact X]. exfalso. pose proof (Fb _ I). lia.
Qed.

(** ** Names *)
Lemma theta_perm_inj i j k i' j' k' : Permutation [i; j; k] [1; 2; 3] -> Permutation [i'; j'; k'] [1; 2; 3] ->
  theta_name i j = theta_name i' j' -> i = i' /\ j = j'.
Proof.
  intros P P'.
  assert (A : forall n, In n [i; j; k] -> n = 1 \/ n = 2 \/ n = 3) by (intros n I; apply (Permutation_in _ P) in I; simpl in I; lia).
  assert (A' : forall n, In n [i'; j'; k'] -> n = 1 \/ n = 2 \/ n = 3) by (intros n I; apply (Permutation_in _ P') in I; simpl in I; lia).
  pose proof (A i ltac:(simpl; auto)) as Hi. pose proof (A j ltac:(simpl; auto)) as Hj.
  pose proof (A' i' ltac:(simpl; auto)) as Hi'. pose proof (A' j' ltac:(simpl; auto)) as Hj'. clear A A' P P'.
  destruct Hi as [->|[->| ->]], Hj as [->|[->| ->]], Hi' as [->|[->| ->]], Hj' as [->|[->| ->]];
    intros E; vm_compute in E; first [discriminate E|split; reflexivity].
Qed.
Lemma theta_zeta i j n k r : theta_name i j <> zeta_symbol n k r.
Proof. intros E. apply (f_equal sname) in E. cbn in E. discriminate E. Qed.
Lemma weight_shape c tl w v : get_weight c tl = Ok (w, v) -> sassume w = ANone.
Proof.
  unfold get_weight. destruct (resonance_helicity _) as [[? ?]|]; cbn [bind]; [|discriminate].
  destruct (final_state_helicities c); cbn [bind]; [|discriminate]. intros E. injection E as <- _. reflexivity.
Qed.

(** The angles are functions of masses and Mandelstam variables. *)
Fixpoint nonneg_symbols (e : rexpr) : bool :=
  match e with
  | RNum _ => true
  | RVar y => match sassume y with ANonneg => true | _ => false end
  | RAdd a b | RSub a b | RMul a b | RDiv a b => nonneg_symbols a && nonneg_symbols b
  | ROpp a | RSq a | RSqrt a | RAcos a => nonneg_symbols a
  | RKallen a b c => nonneg_symbols a && nonneg_symbols b && nonneg_symbols c
  end.
Lemma nonneg_eval env env' e : nonneg_symbols e = true -> (forall y, sassume y = ANonneg -> env y = env' y) -> reval env e = reval env' e.
Proof.
  intros N E. induction e; cbn [nonneg_symbols] in N; cbn [reval]; rewrite ?andb_true_iff in N;
    repeat match goal with X : _ /\ _ |- _ => destruct X end; auto;
    try (apply E; destruct (sassume s) eqn:Q; first [reflexivity|discriminate N]);
    repeat match goal with X : ?a = true -> _, Y : ?a = true |- _ => specialize (X Y); rewrite X; clear X end; reflexivity.
Qed.
Lemma theta_nonneg i j env env' : In i [1; 2; 3] -> In j [1; 2; 3] -> (forall y, sassume y = ANonneg -> env y = env' y) ->
  rv env (formulate_scattering_angle i j) = rv env' (formulate_scattering_angle i j).
Proof.
  intros Hi Hj E.
  assert (Q : match formulate_scattering_angle i j with Ok (_, e) => nonneg_symbols e = true | Err _ => True end).
  { simpl in Hi, Hj. destruct Hi as [<-|[<-|[<-|[]]]], Hj as [<-|[<-|[<-|[]]]]; vm_compute; auto. }
  unfold rv. destruct (formulate_scattering_angle i j) as [[y e]|]; [apply nonneg_eval; assumption|reflexivity].
Qed.
Lemma zeta_nonneg i k r env env' : In i [0; 1; 2; 3] -> In k [1; 2; 3] -> In r [1; 2; 3] -> (forall y, sassume y = ANonneg -> env y = env' y) ->
  rv env (formulate_zeta_angle i k r) = rv env' (formulate_zeta_angle i k r).
Proof.
  intros Hi Hk Hr E.
  assert (Q : match formulate_zeta_angle i k r with Ok (_, e) => nonneg_symbols e = true | Err _ => True end).
  { simpl in Hi, Hk, Hr. destruct Hi as [<-|[<-|[<-|[<-|[]]]]], Hk as [<-|[<-|[<-|[]]]], Hr as [<-|[<-|[<-|[]]]]; vm_compute; auto. }
  unfold rv. destruct (formulate_zeta_angle i k r) as [[y e]|]; [apply nonneg_eval; assumption|reflexivity].
Qed.

Section Model.
  Variables (m : model_def) (d : distribution) (s : Z -> state) (r : Z)
    (tl : string -> string) (additional : option (dict string prop_builder))
    (x : chain_def -> content) (w : chain_def -> symbol) (dyn : chain_def -> defexpr).
  Hypothesis H : helicity_definition m d s r tl additional x w dyn.
  Variables (cl : bool) (M : model).
  Hypothesis F : SerAmplitude.formulate m cl tl additional = Ok M.

  Lemma weight_none y : is_weight w (di_chains d) y -> sassume y = ANone.
  Proof. intros (c & I & ->). destruct (hd_weight _ _ _ _ _ _ _ _ _ H c I) as (v & E). exact (weight_shape _ _ _ _ E). Qed.
  Lemma theta_no_weight i j : ~ is_weight w (di_chains d) (theta_name i j).
  Proof. intros N. apply weight_none in N. discriminate N. Qed.
  Lemma zeta_no_weight i k q : ~ is_weight w (di_chains d) (zeta_symbol i k q).
  Proof. intros N. apply weight_none in N. discriminate N. Qed.

  (** The angles *)
  Lemma serial_angles : (forall c, In c (di_chains d) -> exists th,
      formulate_scattering_angle (ct_i (x c)) (ct_j (x c)) = Ok (theta_name (ct_i (x c)) (ct_j (x c)), th) /\
      dget (theta_name (ct_i (x c)) (ct_j (x c))) (m_variables M) = Some th) /\
    (forall i c, In i [0; 1; 2; 3] -> In c (di_chains d) -> p_spin (s i) <> 0 -> exists z,
      formulate_zeta_angle i (ct_k (x c)) r = Ok (zeta_symbol i (ct_k (x c)) r, z) /\
      dget (zeta_symbol i (ct_k (x c)) r) (m_variables M) = Some z) /\
    (forall y, In y (dkeys (m_variables M)) -> sassume y = AReal).
  Proof.
    destruct (serial_model m d s r tl additional x w dyn H cl)
      as (M' & ks & terms & zdefs & amps & vars & F' & K & AT & L & _ & SD & EA & EV & EI & EP & _ & EN).
    assert (M' = M) by congruence. subst M'.
    destruct (loop_ok m d s r tl additional x w dyn H (work d s)) with (amps := @nil (akey * cexpr)) (vars := @nil (symbol * rexpr)) (params := @nil (pkey * pval))
      as (amps' & vars' & L' & _ & I2 & I3 & I4 & I5 & I6 & I7).
    { intros [l' n] I. apply work_In in I. apply I. }
    assert (vars' = vars) by (unfold dict, akey in *; congruence). subst vars'.
    destruct (subsystems_ok m d s r tl additional x w dyn H) as (ks' & K1 & K2 & K3 & K4).
    assert (ks' = ks) by congruence. subst ks'.
    assert (Hk : forall k, In k ks -> In k [1; 2; 3]).
    { intros k I. apply K3 in I. destruct I as (c & I & <-). apply (hd_k m d s r tl additional x w dyn H). exact I. }
    destruct (aligned_terms_facts s r ks Hk _ _ _ AT) as (_ & O & Z1 & Z2 & _ & Z3 & Z4).
    assert (NZ : NoDup (dkeys zdefs)) by (apply Z4; constructor).
    assert (ZO : zdefs_ok s r ks zdefs) by (apply Z3; [intros q Hq; exact Hq|intros y e E; discriminate E]).
    split; [|split].
    - intros c Ic. set (y := theta_name (ct_i (x c)) (ct_j (x c))).
      assert (Iy : In y (dkeys vars)).
      { apply I3. right. destruct (chain_index d c Ic) as (n & Ln & En).
        destruct (IdenticalProofs.nonempty_in (tuples s)) as [l Hl]; [apply (OccFacts.tuples_nonempty _ s SD)|].
        exists (l, n). split; [apply work_In; split; [apply tuples_In; exact Hl|exact Ln]|].
        cbn [snd]. rewrite En. reflexivity. }
      apply dget_In in Iy. destruct Iy as (e & G). destruct (I4 _ _ G) as [Q|(c' & Ic' & E & Ey)]; [discriminate Q|].
      assert (Q : ct_i (x c) = ct_i (x c') /\ ct_j (x c) = ct_j (x c')).
      { apply (theta_perm_inj _ _ (ct_k (x c)) _ _ (ct_k (x c'))).
        - apply (hd_perm m d s r tl additional x w dyn H c Ic).
        - apply (hd_perm m d s r tl additional x w dyn H c' Ic').
        - exact Ey. }
      destruct Q as [Q1 Q2]. exists e. split; [rewrite Q1, Q2, E; reflexivity|].
      rewrite EV, dget_dupdate_nodup by exact NZ.
      destruct (dget y zdefs) as [e'|] eqn:Z; [|exact G]. exfalso.
      destruct (ZO _ _ Z) as (i & k & _ & _ & _ & Q & _). exact (theta_zeta _ _ _ _ _ Q).
    - intros i c Hi Ic Sp. assert (Ik : In (ct_k (x c)) ks) by (apply K3; exists c; auto).
      rewrite <- (spin4_eq s) in Sp by exact Hi.
      destruct (Z1 i _ Ik Hi Sp) as (z & E). exists z. split; [exact E|].
      rewrite EV, dget_dupdate_nodup by exact NZ.
      pose proof (Z2 i _ Ik Hi Sp) as Iz. apply dget_In in Iz. destruct Iz as (e & G). rewrite G.
      destruct (ZO _ _ G) as (i' & k' & Hi' & Ik' & _ & Ey & E').
      destruct (zeta_symbol_inj _ _ _ _ _ Hi Hi' (Hk _ Ik) (Hk _ Ik') Ey) as [<- <-]. congruence.
    - intros y I. rewrite EV in I. apply dupdate_keys in I. destruct I as [I|I].
      + apply I3 in I. destruct I as [[]|(ln & _ & ->)]. reflexivity.
      + apply dget_In in I. destruct I as (e & G). destruct (ZO _ _ G) as (i & k & _ & _ & _ & -> & _). reflexivity.
  Qed.

  Lemma serial_at_point base cpl y : sassume y <> AReal -> e_sym (at_point (m_variables M) base cpl) y = base y.
  Proof.
    intros N. unfold at_point. cbn [e_sym]. destruct (dget y (m_variables M)) as [e|] eqn:G; [|reflexivity].
    exfalso. apply N. apply (proj2 (proj2 serial_angles)). apply dget_In. eauto.
  Qed.
  Lemma subsystem_range ks : (forall k, In k ks <-> exists c, In c (di_chains d) /\ ct_k (x c) = k) ->
    forall k, In k ks -> In k [1; 2; 3].
  Proof. intros K k I. apply K in I. destruct I as (c & I & <-). apply (hd_k m d s r tl additional x w dyn H c I). Qed.

  (** *** The weights *)
  Hypothesis W : weights_only w dyn (di_chains d).

  Lemma contribution_weight v v' idx idx' c l (f : C) : In c (di_chains d) ->
    (forall y, ~ is_weight w (di_chains d) y -> v y = v' y) -> v' (w c) = (f * v (w c))%C ->
    chain_contribution x w dyn (Env v' idx') l c = (f * chain_contribution x w dyn (Env v idx) l c)%C.
  Proof.
    intros Ic E Ew. unfold chain_contribution, serial_term. cbn [e_sym]. rewrite Ew, <- (E (theta_name _ _)) by apply theta_no_weight.
    rewrite (lineshape_eval (Env v' idx') (Env v idx) (fun _ => 0) (fun _ => 0) _ (hd_lineshape _ _ _ _ _ _ _ _ _ H c Ic)).
    - ring.
    - intros y _ Iy. cbn [e_sym]. symmetry. apply E. intros Wy. exact (W c y Ic Wy Iy).
  Qed.
  Lemma contribution_combined v1 v2 v idx a b c l : In c (di_chains d) -> weights_combined w (di_chains d) a b v1 v2 v ->
    chain_contribution x w dyn (Env v idx) l c
    = (a * chain_contribution x w dyn (Env v1 idx) l c + b * chain_contribution x w dyn (Env v2 idx) l c)%C.
  Proof.
    intros Ic Co. unfold chain_contribution, serial_term. cbn [e_sym].
    destruct (Co (theta_name (ct_i (x c)) (ct_j (x c)))) as [_ T]. destruct (T (theta_no_weight _ _)) as [-> ->].
    assert (Q : forall v', (forall y, ~ is_weight w (di_chains d) y -> v' y = v y) ->
      ceval (Env v' idx) (fun _ => 0) (de_expr (dyn c)) = ceval (Env v idx) (fun _ => 0) (de_expr (dyn c))).
    { intros v' E. apply lineshape_eval; [exact (hd_lineshape _ _ _ _ _ _ _ _ _ H c Ic)|].
      intros y _ Iy. cbn [e_sym]. apply E. intros Wy. exact (W c y Ic Wy Iy). }
    rewrite (Q v1), (Q v2) by (intros y N; apply (Co y); exact N).
    destruct (Co (w c)) as [E _]. rewrite E by (exists c; auto). ring.
  Qed.
  Lemma c117_linear v1 v2 v idx a b k l : weights_combined w (di_chains d) a b v1 v2 v ->
    In k [1; 2; 3] -> helicity_tuple s l ->
    amp_value (Env v idx) M k l = (a * amp_value (Env v1 idx) M k l + b * amp_value (Env v2 idx) M k l)%C.
  Proof.
    intros Co Hk Hl. rewrite !(serial_amplitude_value m d s r tl additional x w dyn H cl M F) by assumption.
    rewrite <- Csum_linear. apply Csum_ext. intros c I. apply in_chains_in in I. apply contribution_combined; [apply I|exact Co].
  Qed.
  Lemma c117_interference v1 v2 idx : (forall y, ~ is_weight w (di_chains d) y -> v1 y = v2 y) -> exists Q : C,
    (Cmod Q ^ 2 <= Re (full_value (Env v1 idx) M) * Re (full_value (Env v2 idx) M))%R /\
    forall a b v, weights_combined w (di_chains d) a b v1 v2 v ->
      full_value (Env v idx) M =
      RtoC (Cmod a ^ 2 * Re (full_value (Env v1 idx) M) + Cmod b ^ 2 * Re (full_value (Env v2 idx) M)
            + 2 * Re (a * Cconj b * Q)%C)%R.
  Proof.
    intros E12. destruct (serial_intensity_value m d s r tl additional x w dyn H cl M F) as (ks & _ & _ & K & V).
    pose proof (subsystem_range ks K) as Hks.
    set (z := fun i k => Re (v1 (zeta_symbol i k r))).
    assert (Z : forall v, (forall y, ~ is_weight w (di_chains d) y -> v1 y = v y) ->
      full_value (Env v idx) M = RtoC (intensity_value s ks (amp_value (Env v idx) M) z)).
    { intros v E. rewrite V. f_equal. unfold intensity_value. apply Rsum_ext. intros l _. do 2 f_equal.
      unfold aligned_amplitude. apply Csum_ext. intros l' _. apply Csum_ext. intros k _. unfold alignment. cbn [e_sym].
      unfold z. rewrite !E by apply zeta_no_weight. reflexivity. }
    set (A := fun v => aligned_amplitude s ks (amp_value (Env v idx) M) z).
    exists (Csum (tuples s) (fun l => A v1 l * Cconj (A v2 l))%C).
    rewrite (Z v1), (Z v2) by auto. cbn [Re fst RtoC]. unfold intensity_value.
    split; [apply Csum_cauchy|]. intros a b v Co. rewrite Z by (intros y N; apply (Co y); exact N).
    f_equal. unfold intensity_value. rewrite <- Cmod_sum_combined. apply Rsum_ext. intros l _. do 2 f_equal.
    unfold A, aligned_amplitude. rewrite <- Csum_linear. apply Csum_ext. intros l' Hl'.
    apply tuples_In in Hl'. rewrite <- Csum_linear. apply Csum_ext. intros k Hk.
    rewrite (c117_linear v1 v2 v idx a b k l' Co (Hks k Hk) Hl'). ring.
  Qed.
  Lemma c117_scale v v' idx f : weights_scaled w (di_chains d) (fun _ => f) v v' ->
    full_value (Env v' idx) M = (RtoC (Cmod f ^ 2) * full_value (Env v idx) M)%C.
  Proof.
    intros [E1 E2]. destruct (c117_interference v v idx) as (Q & _ & X); [auto|].
    rewrite (X f (RtoC 0) v').
    - destruct (serial_intensity_value m d s r tl additional x w dyn H cl M F) as (ks & _ & _ & K & V). rewrite V. cbn [Re fst RtoC].
      rewrite <- RtoC_mult. f_equal. rewrite Cmod_0. destruct f, Q. unfold Cconj, Cmult, Re, RtoC. cbn [fst snd]. ring.
    - intros y. split; [|intros N; split; exact (E2 y N)]. intros (c & Ic & ->). rewrite (E1 c Ic). ring.
  Qed.
End Model.

Lemma c117_nonnegative m d s r tl additional x w dyn cl M :
  helicity_definition m d s r tl additional x w dyn -> SerAmplitude.formulate m cl tl additional = Ok M ->
  forall ev, exists v, (0 <= v)%R /\ full_value ev M = RtoC v.
Proof.
  intros H F ev. destruct (serial_intensity_value m d s r tl additional x w dyn H cl M F) as (ks & _ & _ & _ & V).
  eexists. split; [|apply V]. unfold intensity_value. apply Rsum_nonneg. intros; apply pow2_ge_0.
Qed.
Lemma c117_additive m m1 m2 d d1 d2 s r r1 r2 tl additional x w dyn cl cl1 cl2 M M1 M2 :
  helicity_definition m d s r tl additional x w dyn -> helicity_definition m1 d1 s r1 tl additional x w dyn ->
  helicity_definition m2 d2 s r2 tl additional x w dyn -> Permutation (di_chains d) (di_chains d1 ++ di_chains d2) ->
  SerAmplitude.formulate m cl tl additional = Ok M -> SerAmplitude.formulate m1 cl1 tl additional = Ok M1 ->
  SerAmplitude.formulate m2 cl2 tl additional = Ok M2 ->
  forall ev k l, In k [1; 2; 3] -> helicity_tuple s l -> amp_value ev M k l = (amp_value ev M1 k l + amp_value ev M2 k l)%C.
Proof.
  intros H H1 H2 P F F1 F2 ev k l Hk Hl.
  rewrite (serial_amplitude_value m d s r tl additional x w dyn H cl M F) by assumption.
  rewrite (serial_amplitude_value m1 d1 s r1 tl additional x w dyn H1 cl1 M1 F1) by assumption.
  rewrite (serial_amplitude_value m2 d2 s r2 tl additional x w dyn H2 cl2 M2 F2) by assumption.
  rewrite <- Csum_app. apply Csum_perm. unfold chains_in. rewrite <- filter_app. apply filter_perm. exact P.
Qed.

(** ** C118: the reference subsystem *)
Section Reference.
  Variables (m1 m2 : model_def) (d1 d2 : distribution) (s : Z -> state) (r1 r2 : Z)
    (tl : string -> string) (additional : option (dict string prop_builder))
    (x : chain_def -> content) (w : chain_def -> symbol) (dyn : chain_def -> defexpr).
  Hypothesis H1 : helicity_definition m1 d1 s r1 tl additional x w dyn.
  Hypothesis H2 : helicity_definition m2 d2 s r2 tl additional x w dyn.
  Hypothesis P : Permutation (di_chains d1) (di_chains d2).
  Variables (cl1 cl2 : bool) (M1 M2 : model).
  Hypothesis F1 : SerAmplitude.formulate m1 cl1 tl additional = Ok M1.
  Hypothesis F2 : SerAmplitude.formulate m2 cl2 tl additional = Ok M2.

  Lemma theta_point m d r cl M : helicity_definition m d s r tl additional x w dyn ->
    SerAmplitude.formulate m cl tl additional = Ok M -> forall base cpl c, In c (di_chains d) ->
    Re (e_sym (at_point (m_variables M) base cpl) (theta_name (ct_i (x c)) (ct_j (x c))))
    = rv (fun y => Re (base y)) (formulate_scattering_angle (ct_i (x c)) (ct_j (x c))).
  Proof.
    intros H F base cpl c I. destruct (serial_angles m d s r tl additional x w dyn H cl M F) as (T & _ & _).
    destruct (T c I) as (th & E & G). rewrite E. unfold at_point. cbn [e_sym]. rewrite G. reflexivity.
  Qed.
  Lemma zeta_point m d r cl M : helicity_definition m d s r tl additional x w dyn ->
    SerAmplitude.formulate m cl tl additional = Ok M -> forall base cpl i c, In i [0; 1; 2; 3] -> In c (di_chains d) -> p_spin (s i) <> 0 ->
    Re (e_sym (at_point (m_variables M) base cpl) (zeta_symbol i (ct_k (x c)) r))
    = rv (fun y => Re (base y)) (formulate_zeta_angle i (ct_k (x c)) r).
  Proof.
    intros H F base cpl i c Hi I Sp. destruct (serial_angles m d s r tl additional x w dyn H cl M F) as (_ & T & _).
    destruct (T i c Hi I Sp) as (z & E & G). rewrite E. unfold at_point. cbn [e_sym]. rewrite G. reflexivity.
  Qed.

  Section Values.
    Variables (base base' : symbol -> C) (cpl : string -> list ival -> C) (f : chain_def -> C).
    Hypothesis W : weights_only w dyn (di_chains d1).
    Hypothesis S : weights_scaled w (di_chains d1) f base base'.

    Lemma nonneg_same y : sassume y = ANonneg -> Re (base' y) = Re (base y).
    Proof.
      intros N. rewrite (proj2 S y); [reflexivity|]. intros Q. apply (weight_none m1 d1 s r1 tl additional x w dyn H1) in Q. congruence.
    Qed.
    Lemma contribution_point l c : In c (di_chains d1) ->
      chain_contribution x w dyn (at_point (m_variables M1) base' cpl) l c
      = (f c * chain_contribution x w dyn (at_point (m_variables M2) base cpl) l c)%C.
    Proof.
      intros Ic.
      assert (Ic2 : In c (di_chains d2)) by (apply (Permutation_in _ P); exact Ic).
      pose proof (fun y => serial_at_point m1 d1 s r1 tl additional x w dyn H1 cl1 M1 F1 base' cpl y) as A1.
      pose proof (fun y => serial_at_point m2 d2 s r2 tl additional x w dyn H2 cl2 M2 F2 base cpl y) as A2.
      assert (Wc : is_weight w (di_chains d1) (w c)) by (exists c; auto).
      pose proof (weight_none m1 d1 s r1 tl additional x w dyn H1 _ Wc) as Nc.
      unfold chain_contribution. rewrite (theta_point m1 d1 r1 cl1 M1 H1 F1 base' cpl c Ic), (theta_point m2 d2 r2 cl2 M2 H2 F2 base cpl c Ic2).
      pose proof (hd_perm m1 d1 s r1 tl additional x w dyn H1 c Ic) as Pc. destruct (perm_in _ _ _ Pc) as (Pi & Pj & _).
      rewrite (theta_nonneg _ _ (fun y => Re (base' y)) (fun y => Re (base y)) Pi Pj nonneg_same).
      rewrite A1, A2 by (rewrite Nc; discriminate).
      rewrite (lineshape_eval (at_point (m_variables M1) base' cpl) (at_point (m_variables M2) base cpl) (fun _ => 0) (fun _ => 0) _
                 (hd_lineshape _ _ _ _ _ _ _ _ _ H1 c Ic)).
      - rewrite (proj1 S c Ic). unfold serial_term. ring.
      - intros y Ny Iy. rewrite A1, A2 by exact Ny. symmetry. apply (proj2 S). intros Wy. exact (W c y Ic Wy Iy).
    Qed.
    Lemma amp_point g k l : In k [1; 2; 3] -> helicity_tuple s l -> (forall c, In c (di_chains d1) -> ct_k (x c) = k -> f c = g) ->
      amp_value (at_point (m_variables M1) base' cpl) M1 k l = (g * amp_value (at_point (m_variables M2) base cpl) M2 k l)%C.
    Proof.
      intros Hk Hl G. rewrite (serial_amplitude_value m1 d1 s r1 tl additional x w dyn H1 cl1 M1 F1) by assumption.
      rewrite (serial_amplitude_value m2 d2 s r2 tl additional x w dyn H2 cl2 M2 F2) by assumption.
      rewrite <- (Csum_perm (chains_in x d1 k) (chains_in x d2 k)) by (apply filter_perm; exact P).
      rewrite <- Csum_scal_l. apply Csum_ext. intros c I. apply in_chains_in in I. destruct I as [I E].
      rewrite contribution_point by exact I. rewrite (G c I E). reflexivity.
    Qed.
  End Values.

  Lemma c118_core base base' cpl (g : Z -> R) : weights_only w dyn (di_chains d1) ->
    weights_scaled w (di_chains d1) (fun c => RtoC (g (ct_k (x c)))) base base' ->
    physical (fun y => Re (base y)) -> nonsingular (fun y => Re (base y)) -> exists ks A z,
    (forall k, In k ks <-> exists c, In c (di_chains d1) /\ ct_k (x c) = k) /\
    full_value (at_point (m_variables M1) base' cpl) M1 = RtoC (intensity_value s ks (fun k l => RtoC (g k) * A k l)%C z) /\
    full_value (at_point (m_variables M2) base cpl) M2 = RtoC (intensity_value s ks (fun k l => RtoC (turn_sign s r1 r2 k) * A k l)%C z).
  Proof.
    intros W S Ph NS.
    destruct (serial_intensity_value m1 d1 s r1 tl additional x w dyn H1 cl1 M1 F1) as (ks & N1 & S1 & I1 & V1).
    destruct (serial_intensity_value m2 d2 s r2 tl additional x w dyn H2 cl2 M2 F2) as (ks' & N2 & S2 & I2 & V2).
    assert (E : ks' = ks).
    { apply (sorted_same _ _ S2 S1). intros k. rewrite I1, I2. split; intros (c & I & E); exists c; split; auto;
        [apply (Permutation_in _ (Permutation_sym P))|apply (Permutation_in _ P)]; exact I. }
    subst ks'.
    pose proof (subsystem_range m1 d1 s r1 tl additional x w dyn H1 ks I1) as K.
    pose proof (hd_states _ _ _ _ _ _ _ _ _ H1) as D1. pose proof (hd_states _ _ _ _ _ _ _ _ _ H2) as D2.
    exists ks, (amp_value (at_point (m_variables M2) base cpl) M2),
      (fun i k => Re (e_sym (at_point (m_variables M1) base' cpl) (zeta_symbol i k r1))).
    split; [exact I1|]. rewrite V1, V2. split; f_equal.
    - apply intensity_amp_ext. intros k l Hk Hl. apply (amp_point base base' cpl _ W S); [apply K; exact Hk|exact Hl|].
      intros c _ <-. reflexivity.
    - apply (reference_core s ks _ r1 r2 (fun y => Re (base y))); auto.
      + destruct (ds_initial _ _ _ _ _ D1) as (_ & j & J & _ & ->). exact J.
      + apply (ds_reference _ _ _ _ _ D1).
      + apply (ds_reference _ _ _ _ _ D2).
      + intros i k Hi Hk Sp. pose proof (K k Hk) as Hk3. apply I1 in Hk. destruct Hk as (c & Ic & <-).
        rewrite (zeta_point m1 d1 r1 cl1 M1 H1 F1 base' cpl i c Hi Ic Sp). apply zeta_nonneg; auto.
        * apply (ds_reference _ _ _ _ _ D1).
        * exact (nonneg_same base base' _ S).
      + intros i k Hi Hk Sp. apply I2 in Hk. destruct Hk as (c & Ic & <-).
        exact (zeta_point m2 d2 r2 cl2 M2 H2 F2 base cpl i c Hi Ic Sp).
  Qed.
  Lemma c118_change base base' cpl : weights_only w dyn (di_chains d1) ->
    weights_scaled w (di_chains d1) (fun c => RtoC (turn_sign s r1 r2 (ct_k (x c)))) base base' ->
    physical (fun y => Re (base y)) -> nonsingular (fun y => Re (base y)) ->
    full_value (at_point (m_variables M2) base cpl) M2 = full_value (at_point (m_variables M1) base' cpl) M1.
  Proof. intros W S Ph NS. destruct (c118_core base base' cpl (turn_sign s r1 r2) W S Ph NS) as (ks & A & z & _ & -> & ->). reflexivity. Qed.
  Lemma c118_independence base cpl : turn_safe s r1 r2 (map (fun c => ct_k (x c)) (di_chains d1)) ->
    weights_only w dyn (di_chains d1) ->
    physical (fun y => Re (base y)) -> nonsingular (fun y => Re (base y)) ->
    full_value (at_point (m_variables M2) base cpl) M2 = full_value (at_point (m_variables M1) base cpl) M1.
  Proof.
    intros TS W Ph NS. destruct (c118_core base base cpl (fun _ => 1%R) W) as (ks & A & z & K & E1 & E2); auto.
    { split; [|auto]. intros c _. ring. }
    rewrite E1, E2. clear E1 E2. f_equal.
    assert (Km : forall k, In k ks -> In k (map (fun c => ct_k (x c)) (di_chains d1))).
    { intros k Hk. apply K in Hk. destruct Hk as (c & I & <-). apply in_map_iff. eauto. }
    assert (C : exists g, (g * g = 1)%R /\ forall k, In k ks -> turn_sign s r1 r2 k = g).
    { destruct TS as [Ev|[Two|One]].
      - exists 1%R. split; [ring|]. intros k _. unfold turn_sign. rewrite Ev. reflexivity.
      - exists 1%R. split; [ring|]. intros k Hk. unfold turn_sign. destruct (Two k (Km k Hk)) as [->| ->];
          rewrite Z.eqb_refl, !orb_true_r; reflexivity.
      - destruct ks as [|k0 ks0]; [exists 1%R; split; [ring|]; intros k []|].
        exists (turn_sign s r1 r2 k0). split; [unfold turn_sign; destruct (_ || _); ring|].
        intros k Hk. rewrite (One k k0); auto. apply Km. left. reflexivity. }
    destruct C as (g & G & Gk). rewrite (intensity_unit s ks A z 1%R) by ring.
    rewrite <- (intensity_unit s ks A z g G). apply intensity_amp_ext. intros k l Hk _. rewrite Gk by exact Hk. reflexivity.
  Qed.
End Reference.
