(** C133: serialised models: the amplitudes of all chains are added in one frame *)
From Coq Require Import String ZArith QArith Qcanon List Bool Reals Lia Lra Permutation Sorted.
From Coquelicot Require Import Complex.
From Verif Require Import DecayProofs.
From Verif Require Import Prelude Spin Decay Expr Angles Sums Wigner CExpr SpecSpin SpecKin SpecDPD Builder AnglesFacts AnglesProofs
  CExprFacts ModelFacts RefFacts SpecWigner WignerProofs SpecCovariant CovariantProofs
  Dynamics SerFormat SerDynamics SerAmplitude SpecSerial SerDecay SerAmpFacts SerModel SerProofs SerDyn SerTotal SerFormal SpecWeights SerWeights SerExamples SerWeightExamples.
Import ListNotations.
Local Open Scope R_scope.

Section Serial.
  Variables (m : model_def) (d : distribution) (s : Z -> state) (r : Z) (tl : string -> string)
    (additional : option (dict string prop_builder)) (x : chain_def -> content) (w : chain_def -> symbol) (dyn : chain_def -> defexpr).
  Hypothesis H : helicity_definition m d s r tl additional x w dyn.
  Variables (cl : bool) (M : model).
  Hypothesis F : SerAmplitude.formulate m cl tl additional = Ok M.

  Lemma c133_coherent base cpl th hat T ks :
    NoDup ks -> (forall k, In k ks <-> exists c, In c (di_chains d) /\ ct_k (x c) = k) ->
    let env y := Re (base y) in let ev := at_point (m_variables M) base cpl in
    physical env -> nonsingular env -> (forall i, (1 <= i <= 3)%Z -> 0 < mass_at env i) ->
    (forall k, (1 <= k <= 3)%Z -> scattering_angle env k (th k)) ->
    (forall k, (1 <= k <= 3)%Z -> exists y e, formulate_theta_hat_angle k r = Ok (y, e) /\ hat k = reval env e) ->
    (forall k l, In k ks -> helicity_tuple s l ->
       amp_value ev M k l = in_frames s (chain_frames env k (th k)) (T k) l) ->
    full_value ev M = RtoC (Rsum (tuples s) (fun l => Cmod (in_frames s (chain_frames env r (th r))
      (fun t => Csum ks (fun k => RtoC (chain_sign s k r) * turned_amplitude s (hat k) (T k) t)%C) l) ^ 2)).
  Proof.
    assert (R13 : (1 <= r <= 3)%Z) by (pose proof (ds_reference _ _ _ _ _ (hd_states _ _ _ _ _ _ _ _ _ H)) as X; simpl in X; lia).
    intros ND Hks env ev PH NS MP Hth Hhat HA.
    destruct (serial_intensity_value m d s r tl additional x w dyn H cl M F) as (ks' & ND' & _ & Hks' & V).
    assert (P : Permutation ks' ks).
    { apply NoDup_Permutation; auto. intros k. rewrite Hks, Hks'. reflexivity. }
    assert (K : forall k, In k ks' -> (1 <= k <= 3)%Z).
    { intros k I. apply Hks' in I. destruct I as (c & I & <-). pose proof (hd_k m d s r tl additional x w dyn H c I) as X. simpl in X. lia. }
    rewrite V. clear V. f_equal. unfold intensity_value. apply Rsum_ext. intros l Hl. f_equal. f_equal.
    transitivity (aligned_amplitude s ks' (amp_value ev M) (fun i k => rv env (formulate_zeta_angle i k r)) l).
    - unfold aligned_amplitude. apply Csum_ext. intros l' Hl'. apply Csum_ext. intros k Hk. f_equal. f_equal. unfold alignment.
      assert (Z : forall i, (0 <= i <= 3)%Z -> forall a c, wigner_d (p_spin (s i)) a c (Re (e_sym ev (zeta_symbol i k r)))
        = wigner_d (p_spin (s i)) a c (rv env (formulate_zeta_angle i k r))).
      { intros i Hi a c. destruct (Z.eq_dec (p_spin (s i)) 0) as [E|N]; [apply spin0_any; exact E|].
        apply Hks' in Hk. destruct Hk as (q & Iq & <-). f_equal.
        exact (zeta_point s tl additional x w dyn m d r cl M H F base cpl i q ltac:(simpl; lia) Iq N). }
      rewrite !Z by lia. reflexivity.
    - rewrite (aligned_covariant env PH NS MP s ks' r _ th hat (amp_value ev M) T l Hl K R13 Hth Hhat).
      + apply in_frames_ext; [reflexivity|]. intros t Ht. apply Csum_perm. exact P.
      + intros i k Hi Hk. destruct (zeta_defined i k r Hi Hk R13) as (y & f & E). exists y, f. split; [exact E|]. symmetry. apply (rv_of env _ _ _ E).
      + intros k t Hk Ht. apply HA; [apply (Permutation_in _ P); exact Hk|apply tuples_In; exact Ht].
  Qed.
  Lemma c133_intensity base cpl th hat T ks :
    NoDup ks -> (forall k, In k ks <-> exists c, In c (di_chains d) /\ ct_k (x c) = k) ->
    let env y := Re (base y) in let ev := at_point (m_variables M) base cpl in
    physical env -> nonsingular env -> (forall i, (1 <= i <= 3)%Z -> 0 < mass_at env i) ->
    (forall k, (1 <= k <= 3)%Z -> scattering_angle env k (th k)) ->
    (forall k, (1 <= k <= 3)%Z -> exists y e, formulate_theta_hat_angle k r = Ok (y, e) /\ hat k = reval env e) ->
    (forall k l, In k ks -> helicity_tuple s l ->
       amp_value ev M k l = in_frames s (chain_frames env k (th k)) (T k) l) ->
    let total t := Csum ks (fun k => RtoC (chain_sign s k r) * turned_amplitude s (hat k) (T k) t)%C in
    let p i := helicity_frame env r (th r) i (at_rest (mass_at env i)) in
    full_value ev M = Csum (tuples s) (fun t => Csum (tuples s) (fun t' =>
      total t * Cconj (total t') * RtoC (spin_matrices s (momentum_matrices env p) t t')))%C.
  Proof.
    intros ND Hks env ev PH NS MP Hth Hhat HA total p.
    pose proof (c133_coherent base cpl th hat T ks ND Hks PH NS MP Hth Hhat HA) as V. cbv zeta in V. fold env ev in V. rewrite V.
    assert (R13 : (1 <= r <= 3)%Z) by (pose proof (ds_reference _ _ _ _ _ (hd_states _ _ _ _ _ _ _ _ _ H)) as X; simpl in X; lia).
    apply c132_spin_sum; assumption.
  Qed.
End Serial.

(** ** An example *)
Definition angle_th (env : symbol -> R) (k : Z) : R := rv env (formulate_scattering_angle (next_label k) (next_label (next_label k))).
Definition angle_hat (env : symbol -> R) (r k : Z) : R := rv env (formulate_theta_hat_angle k r).
Lemma sx_covariant a b c cpl : exists M T,
  let env y := Re (wx_base a b c y) in
  SerAmplitude.formulate sx_model true sx_tl None = Ok M /\
  helicity_definition sx_model (sx_dist sx_chains) sx_s 1 sx_tl None sx_x sx_w sx_dyn /\
  NoDup [1; 2; 3]%Z /\ (forall k, In k [1; 2; 3]%Z <-> exists q, In q sx_chains /\ ct_k (sx_x q) = k) /\
  physical env /\ nonsingular env /\ (forall i, (1 <= i <= 3)%Z -> 0 < mass_at env i) /\
  (forall k, (1 <= k <= 3)%Z -> scattering_angle env k (angle_th env k)) /\
  (forall k, (1 <= k <= 3)%Z -> exists y e, formulate_theta_hat_angle k 1 = Ok (y, e) /\ angle_hat env 1 k = reval env e) /\
  (forall k l, In k [1; 2; 3]%Z -> helicity_tuple sx_s l ->
     amp_value (at_point (m_variables M) (wx_base a b c) cpl) M k l = in_frames sx_s (chain_frames env k (angle_th env k)) (T k) l).
Proof.
  destruct (sx_formulate true) as [M F]. destruct (wx_physical a b c) as [PH NS].
  assert (MP : forall i, (1 <= i <= 3)%Z -> 0 < mass_at (fun y => Re (wx_base a b c y)) i).
  { intros i Hi. destruct (in123 i Hi) as [-> | [-> | ->]]; unfold mass_at; cbn; lra. }
  destruct (proj1 (c132_exists (fun y => Re (wx_base a b c y)) sx_s (angle_th (fun y => Re (wx_base a b c y)))
    (amp_value (at_point (m_variables M) (wx_base a b c) cpl) M) PH MP)) as [T HT].
  exists M, T. split; [exact F|]. split; [exact (proj1 sx_definition)|].
  split; [repeat constructor; simpl; lia|]. split.
  { intros k. apply conj.
    - intros [<- | [<- | [<- |[]]]]; [exists sx_C|exists sx_B|exists sx_A]; split; try reflexivity; simpl; auto.
    - intros (q & I & <-). simpl in I. destruct I as [<- | [<- | [<- |[]]]]; simpl; auto. }
  split; [exact PH|]. split; [exact NS|]. split; [exact MP|]. split; [|split].
  - intros k Hk. unfold scattering_angle, angle_th. destruct (in123 k Hk) as [-> | [-> | ->]]; eexists _, _; split; reflexivity.
  - intros k Hk. unfold angle_hat. destruct (in123 k Hk) as [-> | [-> | ->]]; eexists _, _; split; reflexivity.
  - intros k l Hk Hl. apply HT; [|exact Hl]. simpl in Hk. lia.
Qed.
