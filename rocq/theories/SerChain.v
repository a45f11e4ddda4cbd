(** The mass distribution of one chain of a model file (proofs for C155) *)
From Coq Require Import String ZArith List Bool Reals Lia Lra Psatz Permutation Classical.
From Coquelicot Require Import Coquelicot.
From Verif Require Import Prelude AnglesFacts Spin Decay Expr Angles Sums Wigner CExpr SpecKin SpecDPD Builder
  SpinFacts DecayFacts CExprFacts BuilderFacts ModelFacts KinFacts AnglesProofs RefFacts RelabelFacts BoundedProofs LSProofs SpecEnvelope EnvelopeFacts SpecObs ObsKin ObsProofs EffectProofs
  SerFormat SerDynamics SpecSerial SerModel SerProofs SerDyn SerFormal SerTotal SpecWeights SerWeights SerPoints SerSymbols SerRateWeights EnvelopeSerial SpecSerEffect SerEffectProofs SpecSerChain.
From Verif Require SerAmplitude SerDecay WignerFacts SerRate JacobiFacts.
Import ListNotations.
Local Open Scope R_scope.

(** ** Sums of the squares of couplings *)
Lemma production_sum js q : NoDup js -> In (ct_lk q) js -> In (- ct_lk q)%Z js ->
  Rsum js (fun b => coupling_of (ct_fp q) (ct_r q) b (ct_r q) (ct_lk q) ^ 2) = production_count q.
Proof.
  intros ND I1 I2. unfold production_count.
  rewrite (Rsum_ext js _ (fun b => (if (b =? ct_lk q)%Z then 1 + (if ((ct_r q =? 0) && (ct_lk q =? 0))%Z then IZR (ct_fp q) * (2 + IZR (ct_fp q)) else 0) else 0)
    + (if (b =? - ct_lk q)%Z then (if ((ct_r q =? 0) && negb (ct_lk q =? 0))%Z then IZR (ct_fp q) ^ 2 else 0) else 0))).
  - rewrite Rsum_plus, (Rsum_single js (ct_lk q)), (Rsum_single js (- ct_lk q)%Z); auto.
    + rewrite !Z.eqb_refl. destruct (Z.eqb_spec (ct_r q) 0), (Z.eqb_spec (ct_lk q) 0); cbn [andb negb]; ring.
    + intros b _ N. destruct (Z.eqb_spec b (- ct_lk q)); [contradiction|reflexivity].
    + intros b _ N. destruct (Z.eqb_spec b (ct_lk q)); [contradiction|reflexivity].
  - intros b _. unfold coupling_of. rewrite Z.eqb_refl. cbn [andb].
    destruct (Z.eqb_spec b (ct_lk q)), (Z.eqb_spec b (- ct_lk q)), (Z.eqb_spec (ct_r q) (- ct_r q)), (Z.eqb_spec (ct_r q) 0), (Z.eqb_spec (ct_lk q) 0);
      cbn [andb negb]; try (exfalso; lia); ring.
Qed.
Lemma decay_sum is js q : NoDup is -> NoDup js -> In (ct_li q) is -> In (- ct_li q)%Z is -> In (ct_lj q) js -> In (- ct_lj q)%Z js ->
  Rsum is (fun a => Rsum js (fun b => coupling_of (ct_fd q) a b (ct_li q) (ct_lj q) ^ 2)) = decay_count q.
Proof.
  intros N1 N2 I1 I2 J1 J2. unfold decay_count.
  set (zero := ((ct_li q =? 0) && (ct_lj q =? 0))%Z). set (f := IZR (ct_fd q)).
  rewrite (Rsum_ext is _ (fun a =>
    (if (a =? ct_li q)%Z then 1 + (if zero then f * (2 + f) else 0) else 0) + (if (a =? - ct_li q)%Z then (if zero then 0 else f ^ 2) else 0))).
  - rewrite Rsum_plus, (Rsum_single is (ct_li q)), (Rsum_single is (- ct_li q)%Z); auto.
    + rewrite !Z.eqb_refl. destruct zero; ring.
    + intros b _ N. destruct (Z.eqb_spec b (- ct_li q)); [contradiction|reflexivity].
    + intros b _ N. destruct (Z.eqb_spec b (ct_li q)); [contradiction|reflexivity].
  - intros a _.
    rewrite (Rsum_ext js _ (fun b =>
      (if (b =? ct_lj q)%Z then (if (a =? ct_li q)%Z then 1 + (if zero then f * (2 + f) else 0) else 0) else 0)
      + (if (b =? - ct_lj q)%Z then (if (a =? - ct_li q)%Z then (if zero then 0 else f ^ 2) else 0) else 0))).
    + rewrite Rsum_plus, (Rsum_single js (ct_lj q)), (Rsum_single js (- ct_lj q)%Z); auto.
      * rewrite !Z.eqb_refl. reflexivity.
      * intros b _ N. destruct (Z.eqb_spec b (- ct_lj q)); [contradiction|reflexivity].
      * intros b _ N. destruct (Z.eqb_spec b (ct_lj q)); [contradiction|reflexivity].
    + intros b _. unfold coupling_of, zero. fold f.
      destruct (Z.eqb_spec a (ct_li q)), (Z.eqb_spec b (ct_lj q)), (Z.eqb_spec a (- ct_li q)), (Z.eqb_spec b (- ct_lj q)), (Z.eqb_spec (ct_li q) 0), (Z.eqb_spec (ct_lj q) 0);
        cbn [andb]; try (exfalso; lia); ring.
Qed.

Section Model.
  Variables (m : model_def) (d : distribution) (s : Z -> state) (r : Z)
    (tl : string -> string) (additional : option (dict string prop_builder))
    (x : chain_def -> content) (w : chain_def -> symbol) (dyn : chain_def -> defexpr).
  Hypothesis H : helicity_definition m d s r tl additional x w dyn.
  Variables (cl : bool) (M : model).
  Hypothesis F : SerAmplitude.formulate m cl tl additional = Ok M.
  Hypothesis ND : NoDup (di_chains d).
  Variable c : chain_def.
  Hypothesis Hc : In c (di_chains d).

  Lemma coupling_total : final_possible s (x c) ->
    Rsum (tuples s) (fun l => coupling_of (ct_fp (x c)) (ct_r (x c)) (at4 l (ct_k (x c))) (ct_r (x c)) (ct_lk (x c)) ^ 2
      * coupling_of (ct_fd (x c)) (at4 l (ct_i (x c))) (at4 l (ct_j (x c))) (ct_li (x c)) (ct_lj (x c)) ^ 2)
    = IZR (p_spin (s 0%Z) + 1) * (production_count (x c) * decay_count (x c)).
  Proof.
    intros (Pk & Pi' & Pj & _). pose proof (hd_perm m d s r tl additional x w dyn H c Hc) as P.
    assert (J0 : (0 <= p_spin (s 0%Z))%Z).
    { destruct (ds_initial _ _ _ _ _ (hd_states _ _ _ _ _ _ _ _ _ H)) as (_ & j & Hj & _ & E). rewrite E. exact Hj. }
    rewrite tuples_final.
    rewrite (Rsum_ext (final_tuples s) _ (fun l => IZR (p_spin (s 0%Z) + 1) *
      (coupling_of (ct_fp (x c)) (ct_r (x c)) (at4 l (ct_k (x c))) (ct_r (x c)) (ct_lk (x c)) ^ 2
       * coupling_of (ct_fd (x c)) (at4 l (ct_i (x c))) (at4 l (ct_j (x c))) (ct_li (x c)) (ct_lj (x c)) ^ 2))).
    - rewrite Rsum_scal_l, (final_factors_perm s (ct_i (x c)) (ct_j (x c)) (ct_k (x c))
        (fun b => coupling_of (ct_fp (x c)) (ct_r (x c)) b (ct_r (x c)) (ct_lk (x c)) ^ 2)
        (fun b b' => coupling_of (ct_fd (x c)) b b' (ct_li (x c)) (ct_lj (x c)) ^ 2) P).
      rewrite production_sum, decay_sum; try apply helicities_NoDup; try assumption; try (apply (proj1 (hel_opposite _ _)); assumption). reflexivity.
    - intros l _.
      rewrite (Rsum_ext (helicities (p_spin (s 0%Z))) _ (fun _ =>
        coupling_of (ct_fp (x c)) (ct_r (x c)) (at4 l (ct_k (x c))) (ct_r (x c)) (ct_lk (x c)) ^ 2
        * coupling_of (ct_fd (x c)) (at4 l (ct_i (x c))) (at4 l (ct_j (x c))) (ct_li (x c)) (ct_lj (x c)) ^ 2)).
      + set (v := _ ^ 2 * _). clearbody v. unfold helicities. rewrite Rsum_map.
        assert (K : forall n o, Rsum (seq o n) (fun _ => v) = INR n * v).
        { induction n as [|n IH]; intros o; cbn [seq Rsum]; [change (INR 0) with 0; ring|]. rewrite IH, S_INR. ring. }
        rewrite K, INR_IZR_INZ, Z2Nat.id by lia. reflexivity.
      + intros z _.
        assert (A : forall q, In q [1; 2; 3]%Z -> at4 (with_parent l z) q = at4 l q).
        { intros q Hq. destruct l as [[[l0 l1] l2] l3]. destruct Hq as [<-|[<-|[<-|[]]]]; reflexivity. }
        rewrite !A by (eapply Permutation_in; [exact P|simpl; auto]). reflexivity.
  Qed.

  Variables (i j : Z) (base : symbol -> C) (cpl : string -> list ival -> C) (lo hi : R).
  Let k := ct_k (x c).
  Hypothesis Cy : cyclic i j k.
  Hypothesis BT : between_thresholds base i j k.
  Hypothesis Rg : dalitz_range base i j k lo hi.
  Hypothesis Only : only_chain w (di_chains d) base c.
  Hypothesis Ni : ~ In (sigma_at i) (symbols_of (de_expr (dyn c))).
  Hypothesis Nj : ~ In (sigma_at j) (symbols_of (de_expr (dyn c))).
  Let ev (t : R) := at_point (m_variables M) (dalitz_line base i j k t) cpl.
  Let X := ceval (Env base cpl) (fun _ => 0%Z) (de_expr (dyn c)).

  Lemma line_weight t c' : In c' (di_chains d) -> e_sym (ev t) (w c') = base (w c').
  Proof.
    intros I'. unfold ev. rewrite (serial_weight_at m d s r tl additional x w dyn H cl M F) by exact I'.
    pose proof (weight_none m d s r tl additional x w dyn H (w c') (ex_intro _ c' (conj I' eq_refl))) as A. unfold dalitz_line.
    destruct (eqb (w c') (sigma_at j)) eqn:E1; [apply (proj1 (Prelude.eqb_eq _ _)) in E1; rewrite E1 in A; discriminate A|].
    destruct (eqb (w c') (sigma_at i)) eqn:E2; [apply (proj1 (Prelude.eqb_eq _ _)) in E2; rewrite E2 in A; discriminate A|reflexivity].
  Qed.
  Lemma other_zero t l c' : In c' (di_chains d) -> c' <> c -> chain_contribution x w dyn (ev t) l c' = RtoC 0.
  Proof. intros I' N. unfold chain_contribution, serial_term. rewrite line_weight, (Only c' I' N) by exact I'. ring. Qed.
  Lemma line_dyn t : ceval (ev t) (fun _ => 0%Z) (de_expr (dyn c)) = X.
  Proof.
    unfold ev, X. apply lineshape_eval; [exact (hd_lineshape _ _ _ _ _ _ _ _ _ H c Hc)|]. intros y Hy Iy. unfold at_point. cbn [e_sym].
    destruct (dget y (m_variables M)) as [e|] eqn:G.
    { exfalso. apply Hy. apply (proj2 (proj2 (serial_angles m d s r tl additional x w dyn H cl M F))). apply (proj1 (dget_In _ _)). eauto. }
    unfold dalitz_line.
    destruct (eqb y (sigma_at j)) eqn:E2; [apply (proj1 (Prelude.eqb_eq _ _)) in E2; rewrite E2 in Iy; contradiction|].
    destruct (eqb y (sigma_at i)) eqn:E3; [apply (proj1 (Prelude.eqb_eq _ _)) in E3; rewrite E3 in Iy; contradiction|reflexivity].
  Qed.
  Let mu := (if ct_i (x c) =? i then ct_li (x c) - ct_lj (x c) else - (ct_li (x c) - ct_lj (x c)))%Z.
  Lemma line_wigner t : wigner_d (ct_spin (x c)) (ct_r (x c)) (ct_li (x c) - ct_lj (x c)) (Re (e_sym (ev t) (theta_name (ct_i (x c)) (ct_j (x c))))) ^ 2
    = wigner_d (ct_spin (x c)) (ct_r (x c)) mu (acos (line_N base i j k t / line_root base i j k)) ^ 2.
  Proof.
    pose proof (hd_perm m d s r tl additional x w dyn H c Hc) as P. unfold mu.
    destruct (proj1 (serial_angles m d s r tl additional x w dyn H cl M F) c Hc) as (th & T & G).
    set (a := ct_i (x c)) in *. set (b := ct_j (x c)) in *. fold k in P.
    assert (Ord : (a = i /\ b = j) \/ (a = j /\ b = i)).
    { apply SerDecay.perm_123 in P. clear - P Cy. clearbody a b k. cbn [In] in P.
      destruct Cy as [E|[E|[E|[]]]]; apply pair_equal_spec in E; destruct E as [E E3]; apply pair_equal_spec in E; destruct E as [E1 E2]; subst i j k;
        repeat destruct P as [P|P]; try contradiction; apply pair_equal_spec in P; destruct P as [P P3]; apply pair_equal_spec in P; destruct P as [P1 P2];
        subst a b; try discriminate P3; auto. }
    assert (TV : Re (e_sym (ev t) (theta_name a b)) = rv (fun y => Re (dalitz_line base i j k t y)) (formulate_scattering_angle a b)).
    { unfold ev, at_point. cbn [e_sym]. rewrite G, T. reflexivity. }
    rewrite TV. pose proof (line_theta base i j k Cy BT t) as LT. unfold line_env in LT.
    destruct Ord as [[Ea Eb]|[Ea Eb]]; rewrite Ea, Eb in *.
    - rewrite Z.eqb_refl, LT. reflexivity.
    - assert (Nij : j <> i) by (destruct Cy as [Q|[Q|[Q|[]]]]; injection Q as <- <- _; discriminate).
      replace (j =? i)%Z with false by (symmetry; apply Z.eqb_neq; exact Nij).
      rewrite (line_angle base i j k t Cy), LT.
      rewrite <- (Z.opp_involutive (ct_li (x c) - ct_lj (x c))) at 1. rewrite wigner_d_pi_minus, Rpow_mult_distr.
      replace (parity_sign _ ^ 2) with 1 by (cbn [pow]; rewrite Rmult_1_r, parity_sign_sq; reflexivity). ring.
  Qed.
  Lemma line_value t : full_value (ev t) M = RtoC (Rsum (tuples s) (fun l => coupling_of (ct_fp (x c)) (ct_r (x c)) (at4 l (ct_k (x c))) (ct_r (x c)) (ct_lk (x c)) ^ 2
      * coupling_of (ct_fd (x c)) (at4 l (ct_i (x c))) (at4 l (ct_j (x c))) (ct_li (x c)) (ct_lj (x c)) ^ 2)
    * (Cmod (base (w c)) ^ 2 * Cmod X ^ 2 * wigner_d (ct_spin (x c)) (ct_r (x c)) mu (acos (line_N base i j k t / line_root base i j k)) ^ 2)).
  Proof.
    pose proof (hd_perm m d s r tl additional x w dyn H c Hc) as P.
    assert (Ik : In k [1; 2; 3]%Z) by (apply (Permutation_in k P); cbn; auto).
    rewrite (serial_one m d s r tl additional x w dyn H cl M F c Hc k (ev t) eq_refl).
    - f_equal. rewrite <- Rsum_scal_r. apply Rsum_ext. intros l Hl. apply tuples_In in Hl.
      rewrite (serial_amplitude_value m d s r tl additional x w dyn H cl M F) by assumption.
      rewrite (Csum_only _ c).
      + unfold chain_contribution, serial_term. rewrite line_weight, line_dyn by exact Hc.
        rewrite !Cmod_mult, !Cmod_R, !Rpow_mult_distr, !pow2_abs, line_wigner. ring.
      + intros c' I' N'. apply in_chains_in in I'. apply other_zero; [apply I'|exact N'].
      + apply NoDup_filter. exact ND.
      + apply filter_In. split; [exact Hc|apply Z.eqb_refl].
    - intros k' l Ik' N' Hl. rewrite (serial_amplitude_value m d s r tl additional x w dyn H cl M F) by assumption.
      apply Csum_zero. intros c' I'. apply in_chains_in in I'. destruct I' as [I' E']. apply other_zero; [exact I'|].
      intros ->. apply N'. symmetry. exact E'.
  Qed.
  Theorem chain_projection : resonance_possible (x c) -> final_possible s (x c) ->
    is_RInt (fun t => Re (full_value (at_point (m_variables M) (dalitz_line base i j k t) cpl) M)) lo hi
      ((hi - lo) * (IZR (p_spin (s 0%Z) + 1) / IZR (ct_spin (x c) + 1)) * (production_count (x c) * decay_count (x c))
       * (Cmod (base (w c)) ^ 2 * Cmod X ^ 2)).
  Proof.
    intros (Rr & Rd) Fp. set (J := ct_spin (x c)). set (K := IZR (p_spin (s 0%Z) + 1) * (production_count (x c) * decay_count (x c))).
    set (A := Cmod (base (w c)) ^ 2 * Cmod X ^ 2).
    assert (Pr : is_projection J (ct_r (x c)) = true).
    { rewrite is_projection_hel. apply memb_In. exact Rr. }
    assert (Pm : is_projection J mu = true).
    { rewrite is_projection_hel. apply memb_In. unfold mu. destruct (ct_i (x c) =? i)%Z; [exact Rd|]. apply (proj1 (hel_opposite _ _)). exact Rd. }
    pose proof (JacobiFacts.wigner_d_overlap J J (ct_r (x c)) mu Pr Pm Pr Pm) as I0.
    pose proof (line_integral base i j k Cy BT lo hi _ _ Rg I0) as I1. cbv beta in I1.
    apply (is_RInt_scal (V := R_NormedModule) _ _ _ (K * A)) in I1. unfold scal in I1; cbn in I1; unfold mult in I1; cbn in I1.
    unfold JacobiFacts.d_norm in I1. rewrite Z.eqb_refl in I1.
    assert (J0 : (0 <= J)%Z).
    { apply WignerFacts.is_projection_spec in Pr. lia. }
    assert (J1 : IZR (J + 1) <> 0) by (apply not_0_IZR; lia).
    replace ((hi - lo) * (IZR (p_spin (s 0%Z) + 1) / IZR (J + 1)) * (production_count (x c) * decay_count (x c)) * A)
      with (K * A * ((hi - lo) / 2 * (2 / IZR (J + 1)))) by (unfold K; field; exact J1).
    eapply is_RInt_ext; [|exact I1]. intros t _. cbv beta. fold (ev t). rewrite line_value, coupling_total by exact Fp.
    fold A K J. change (Re (RtoC ?a)) with a. match goal with |- @eq _ ?l ?r => change (@eq R l r) end.
    unfold Re, RtoC; cbn [fst pow]. ring.
  Qed.
End Model.
