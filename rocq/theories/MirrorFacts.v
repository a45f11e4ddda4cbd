(** Lines through the Dalitz plot, forward-backward symmetry and helicity selection rules. *)
From Coq Require Import String ZArith QArith Qcanon Qreals List Bool Reals Lia Lra Permutation Sorted.
From Coquelicot Require Import Complex.
From Verif Require Import Prelude Spin Decay Expr Angles Sums Wigner CG CExpr SpecKin SpecDPD Builder
  SpinFacts DecayFacts AnglesFacts WignerFacts CExprFacts BuilderFacts ModelFacts RefFacts CGFacts CGComplete LSBasis SpecLS LSProofs
  SpecParity ChainProofs ParityProofs RelabelFacts JacobiFacts SpecObs ObsKin ObsProofs InterferenceFacts SpecAngular AngularFacts.
Import ListNotations.
Local Open Scope string_scope.
Local Open Scope Z_scope.
Local Open Scope list_scope.

Section Line.
  Variables (b : builder) (s : Z -> state) (dyn : chain -> defexpr) (ref : option Z) (cl uc : bool) (m : model) (i j k : Z).
  Hypothesis D : std_decay (b_decay b) s.
  Hypothesis Y : dynamics_of b dyn.
  Hypothesis P : b_prod_helicity b = false -> plain_resonances (b_decay b).
  Hypothesis F : formulate b ref cl uc = Ok m.
  Hypothesis Cy : cyclic i j k.
  Hypothesis One : one_subsystem (b_decay b) k.
  Hypothesis Ind : forall c, In c (d_chains (b_decay b)) ->
     ~ In (sigma_at i) (symbols_of (de_expr (dyn c))) /\ ~ In (sigma_at j) (symbols_of (de_expr (dyn c))).
  Variables (base : symbol -> C) (cpl : string -> list ival -> C) (lo hi : R).
  Hypothesis BT : between_thresholds base i j k.
  Hypothesis Rg : dalitz_range base i j k lo hi.

  (** A point on the line is a point with another scattering angle. *)
  Lemma amp_line x l : helicity_tuple s l ->
    amp_value (at_point (m_variables m) (dalitz_line base i j k x) cpl) m k l =
    amp_value (turned (Env base cpl) i j (acos (line_N base i j k x / line_root base i j k))) m k l.
  Proof.
    intros Hl. rewrite (amp_turned b s dyn ref cl uc m i j k D Y P F Cy _ _ l Hl).
    destruct (amplitude_formula b s D dyn _ _ _ _ Y P F l i j k Hl Cy (or_intror (one_in _ _ One)))
      as (_ & (th & T & G) & A). rewrite A. clear A.
    replace (Re (e_sym (at_point (m_variables m) (dalitz_line base i j k x) cpl) (theta_name i j)))
      with (acos (line_N base i j k x / line_root base i j k)).
    2:{ rewrite <- (line_theta base i j k Cy BT). unfold at_point. cbn [e_sym]. rewrite G, T. reflexivity. }
    unfold dpd_amplitude. apply Csum_ext. intros c Hc. apply filter_In in Hc. destruct Hc as [Hc _].
    apply Csum_ext. intros r _. destruct (Y c Hc) as [_ LS].
    rewrite (lineshape_eval (at_point (m_variables m) (dalitz_line base i j k x) cpl) (Env base cpl) (fun _ => 0) (fun _ => 0) _ LS).
    - destruct uc; reflexivity.
    - intros y Hy Iy; unfold at_point; cbn [e_sym].
      rewrite (proj2 (dget_None y (m_variables m)))
        by (intros Hin; apply Hy; apply (variables_real b s D _ _ _ _ F y Hin)).
      destruct (Ind c Hc) as [N1 N2]; unfold dalitz_line.
      destruct (eqb y (sigma_at j)) eqn:E1; [apply (proj1 (Prelude.eqb_eq _ _)) in E1; rewrite E1 in Iy; contradiction|].
      destruct (eqb y (sigma_at i)) eqn:E2; [apply (proj1 (Prelude.eqb_eq _ _)) in E2; rewrite E2 in Iy; contradiction|reflexivity].
  Qed.
  Lemma full_line x :
    full_value (at_point (m_variables m) (dalitz_line base i j k x) cpl) m =
    full_value (turned (Env base cpl) i j (acos (line_N base i j k x / line_root base i j k))) m.
  Proof.
    rewrite !(c92 b s ref cl uc m k D F One). f_equal. apply Rsum_ext. intros l Hl. apply tuples_In in Hl.
    rewrite amp_line by exact Hl. reflexivity.
  Qed.
  Lemma line_cos_range x : (lo <= x <= hi)%R -> (-1 <= line_N base i j k x / line_root base i j k <= 1)%R.
  Proof.
    intros Hx. rewrite (line_cos base i j k Cy BT lo hi x Rg). pose proof (line_lt base i j k Cy BT lo hi Rg) as L.
    replace (2 / (hi - lo) * x + - (lo + hi) / (hi - lo))%R with ((2 * x - lo - hi) / (hi - lo))%R by (field; lra).
    split.
    - apply (Rmult_le_reg_r (hi - lo)); [lra|]. unfold Rdiv. rewrite Rmult_assoc, Rinv_l by lra. lra.
    - apply (Rmult_le_reg_r (hi - lo)); [lra|]. unfold Rdiv. rewrite Rmult_assoc, Rinv_l by lra. lra.
  Qed.
  Lemma c102_line N : (forall c, In c (d_chains (b_decay b)) -> p_spin (ch_resonance c) <= Z.of_nat N) ->
    exists f, polynomial N f /\ forall x, (lo <= x <= hi)%R ->
      full_value (at_point (m_variables m) (dalitz_line base i j k x) cpl) m = RtoC (f x).
  Proof.
    intros HN.
    destruct (c102_angle b s dyn ref cl uc m i j k D Y P F Cy One N HN (Env base cpl)) as (f & Pf & Ef).
    exists (fun x => f (- (lo + hi) / (hi - lo) + 2 / (hi - lo) * x))%R. split; [apply (poly_affine N f), Pf|].
    intros x Hx. rewrite full_line, Ef. rewrite cos_acos by (apply line_cos_range; exact Hx). do 2 f_equal.
    rewrite (line_cos base i j k Cy BT lo hi x Rg). ring.
  Qed.
  (** Reflection of the line *)
  Lemma line_reflected x : (lo <= x <= hi)%R ->
    acos (line_N base i j k (lo + hi - x) / line_root base i j k) = (PI - acos (line_N base i j k x / line_root base i j k))%R.
  Proof.
    intros Hx. rewrite <- acos_opp. f_equal. rewrite !(line_cos base i j k Cy BT lo hi _ Rg).
    pose proof (line_lt base i j k Cy BT lo hi Rg) as L. field. lra.
  Qed.
End Line.

(** ** Forward and backward *)
Lemma pair_at4 k l n : In n [0; 1; 2; 3] -> In k [1; 2; 3] ->
  at4 (pair_reversed k l) n = if (n =? 0) || (n =? k) then at4 l n else - at4 l n.
Proof.
  intros Hn Hk. apply In_0123 in Hn. apply In_123 in Hk.
  destruct l as [[[a b] c] d]. destruct Hn as [->|[->|[->| ->]]], Hk as [->|[->| ->]]; reflexivity.
Qed.
Lemma pair_involutive k l : In k [1; 2; 3] -> pair_reversed k (pair_reversed k l) = l.
Proof.
  intros Hk. apply In_123 in Hk. destruct l as [[[a b] c] d].
  destruct Hk as [->|[->| ->]]; unfold pair_reversed; cbn [at4 Z.eqb Pos.eqb]; rewrite ?Z.opp_involutive; reflexivity.
Qed.
Lemma pair_tuple s k l : In k [1; 2; 3] -> helicity_tuple s (pair_reversed k l) <-> helicity_tuple s l.
Proof.
  intros Hk. apply In_123 in Hk. destruct l as [[[a b] c] d].
  destruct Hk as [->|[->| ->]]; unfold pair_reversed; cbn [at4 Z.eqb Pos.eqb helicity_tuple]; rewrite !helicities_opp; tauto.
Qed.
Lemma tuples_pair s k : In k [1; 2; 3] -> Permutation (tuples s) (map (pair_reversed k) (tuples s)).
Proof.
  intros Hk. apply NoDup_Permutation.
  - apply tuples_NoDup.
  - apply FinFun.Injective_map_NoDup; [|apply tuples_NoDup]. intros x y E.
    rewrite <- (pair_involutive k x Hk), E. apply pair_involutive, Hk.
  - intros x. rewrite in_map_iff. split.
    + intros I. exists (pair_reversed k x). split; [apply pair_involutive, Hk|]. apply tuples_In, pair_tuple, tuples_In; assumption.
    + intros (y & <- & I). apply tuples_In, pair_tuple, tuples_In; assumption.
Qed.
Lemma mirror_signs J r si sj lj : Z.even (sj - lj) = true -> Z.even (J - si - sj) = true -> Z.even (J - r) = true ->
  (parity_sign (sj - - lj) * parity_sign (J + r) * parity_sign (J - si - sj) =
   parity_sign (2 * sj) * parity_sign (r + si + sj) * parity_sign (sj - lj))%R.
Proof.
  intros E1 E2 E3. apply even_half in E1, E2, E3. destruct E1 as [a E1], E2 as [c E2], E3 as [d E3].
  replace (sj - - lj) with (2 * (sj - a)) by lia.
  replace (J + r) with (2 * (J - d)) by lia. rewrite E1, E2.
  replace (r + si + sj) with (2 * (J - c - d)) by lia.
  unfold parity_sign. rewrite !(Z.mul_comm 2), !Z.div_mul by lia.
  rewrite !Z.even_sub. destruct (Z.even sj), (Z.even a), (Z.even J), (Z.even d), (Z.even c); cbn; ring.
Qed.
Lemma fb_sign_sq s e i j k l : (forward_backward_sign s e i j k l * forward_backward_sign s e i j k l = 1)%R.
Proof.
  unfold forward_backward_sign. set (u := parity_sign _). set (v := parity_sign _).
  assert (U : (u * u = 1)%R) by apply ObsProofs.parity_sign_sq. assert (V : (v * v = 1)%R) by apply ObsProofs.parity_sign_sq.
  destruct e.
  - transitivity ((u * u) * (v * v))%R; [ring|]. rewrite U, V. ring.
  - transitivity ((u * u) * (v * v))%R; [ring|]. rewrite U, V. ring.
Qed.

Section Mirror.
  Variables (b : builder) (s : Z -> state) (dyn : chain -> defexpr) (ref : option Z) (cl uc : bool) (m : model) (i j k : Z) (e : bool).
  Hypothesis D : std_decay (b_decay b) s.
  Hypothesis Y : dynamics_of b dyn.
  Hypothesis P : b_prod_helicity b = false -> plain_resonances (b_decay b).
  Hypothesis LS : b_dec_helicity b = false.
  Hypothesis F : formulate b ref cl uc = Ok m.
  Hypothesis Cy : cyclic i j k.
  Hypothesis OP : forall c, In c (d_chains (b_decay b)) -> st_index (ch_spectator c) = k -> decay_wave c e.

  Lemma c103_amplitude ev th l : helicity_tuple s l ->
    amp_value (turned ev i j (PI - th)) m k (pair_reversed k l) =
    (RtoC (forward_backward_sign s e i j k l) * amp_value (turned ev i j th) m k l)%C.
  Proof.
    intros Hl. destruct (cyclic_in _ _ _ Cy) as (Hi & Hj & Hk).
    rewrite !(amp_turned b s dyn ref cl uc m i j k D Y P F Cy) by (try apply pair_tuple; assumption).
    assert (Ndist : (i =? 0) || (i =? k) = false /\ (j =? 0) || (j =? k) = false /\ (k =? 0) || (k =? k) = true).
    { destruct Cy as [X|[X|[X|[]]]]; injection X as <- <- <-; repeat split. }
    destruct Ndist as (Bi & Bj & Bk).
    assert (A0 : at4 (pair_reversed k l) 0 = at4 l 0) by reflexivity.
    assert (Ai : at4 (pair_reversed k l) i = - at4 l i) by (rewrite pair_at4, Bi by (simpl in *; tauto); reflexivity).
    assert (Aj : at4 (pair_reversed k l) j = - at4 l j) by (rewrite pair_at4, Bj by (simpl in *; tauto); reflexivity).
    assert (Ak : at4 (pair_reversed k l) k = at4 l k) by (rewrite pair_at4, Bk by (simpl in *; tauto); reflexivity).
    unfold dpd_amplitude. rewrite <- Csum_scal_l. apply Csum_ext. intros c Hc.
    destruct (subsystem_chains (b_decay b) s D k c Hc) as (Ic & Esp & _).
    assert (Ek : st_index (ch_spectator c) = k) by (apply filter_In in Hc; apply Z.eqb_eq; tauto).
    destruct (OP c Ic Ek) as (lsd & Ld & Ee).
    rewrite <- Csum_scal_l. apply Csum_ext. intros r Hr. rewrite A0, Ai, Aj, Ak.
    destruct (Z.eqb_spec (at4 l 0) (r - at4 l k)) as [H0|]; [|ring].
    replace (- at4 l i - - at4 l j) with (- (at4 l i - at4 l j)) by lia. rewrite wigner_d_pi_minus.
    assert (Er : Z.even (p_spin (ch_resonance c) - r) = true).
    { rewrite helicities_range, <- is_projection_In, is_projection_spec in Hr. tauto. }
    assert (Ej : Z.even (p_spin (s j) - at4 l j) = true).
    { apply (helicity_even s l j Hl). simpl in *; tauto. }
    rewrite LS.
    assert (FD : dec_factor false c (at4 (pair_reversed k l)) = (IZR (osign (Z.even (ls_L lsd))) * parity_sign (p_spin (ch_resonance c) - p_spin (s i) - p_spin (s j)) * dec_factor false c (at4 l))%R /\
       (dec_factor false c (at4 l) = 0%R \/ Z.even (p_spin (ch_resonance c) - p_spin (s i) - p_spin (s j)) = true)).
    { unfold dec_factor. rewrite Ld.
      destruct (std_products (b_decay b) s D k i j c Ic Esp Cy) as [E|E]; rewrite E.
      - rewrite (sd_index (b_decay b) s D i), (sd_index (b_decay b) s D j) by (simpl in *; tauto). rewrite Ai, Aj. apply ls_reversed.
      - rewrite (sd_index (b_decay b) s D i), (sd_index (b_decay b) s D j) by (simpl in *; tauto). rewrite Ai, Aj.
        replace (p_spin (ch_resonance c) - p_spin (s i) - p_spin (s j)) with (p_spin (ch_resonance c) - p_spin (s j) - p_spin (s i)) by lia.
        apply ls_reversed. }
    destruct FD as [FD [ZD|ED]].
    { rewrite FD, ZD, !Rmult_0_r. ring. }
    rewrite FD.
    pose proof (mirror_signs (p_spin (ch_resonance c)) r (p_spin (s i)) (p_spin (s j)) (at4 l j) Ej ED Er) as MS.
    assert (FS : forward_backward_sign s e i j k l = (IZR (osign e) * parity_sign (2 * p_spin (s j)) * parity_sign (r + p_spin (s i) + p_spin (s j)))%R).
    { unfold forward_backward_sign. replace (at4 l 0 + at4 l k) with r by lia. destruct e; reflexivity. }
    rewrite FS, Ee.
    assert (SC : forall li lj, (if uc then coefficient else coupling_product) ev (b_prod_helicity b) false c r (at4 l k) (- li) (- lj) =
      (if uc then coefficient else coupling_product) ev (b_prod_helicity b) false c r (at4 l k) li lj).
    { intros. destruct uc; reflexivity. }
    rewrite SC.
    set (w := wigner_d _ _ _ _). set (fp := prod_factor _ _ _ _). set (fd := dec_factor _ _ _). set (x := ceval _ _ _).
    set (sc := (if uc then coefficient else coupling_product) _ _ _ _ _ _ _ _).
    transitivity (RtoC (IZR (osign e) * parity_sign (p_spin (s k) - at4 l k) *
      (parity_sign (p_spin (s j) - - at4 l j) * parity_sign (p_spin (ch_resonance c) + r) *
       parity_sign (p_spin (ch_resonance c) - p_spin (s i) - p_spin (s j)))) * (x * RtoC w * sc * RtoC (fp * fd)))%C.
    { rewrite !RtoC_mult. ring. }
    rewrite MS. rewrite !RtoC_mult. ring.
  Qed.
  Lemma c103_symmetric : one_subsystem (b_decay b) k ->
    forall ev th, full_value (turned ev i j (PI - th)) m = full_value (turned ev i j th) m.
  Proof.
    intros One ev th. destruct (cyclic_in _ _ _ Cy) as (_ & _ & Hk).
    rewrite !(c92 b s ref cl uc m k D F One). f_equal.
    rewrite (Rsum_perm _ _ _ (tuples_pair s k Hk)), Rsum_map. apply Rsum_ext. intros l Hl. apply tuples_In in Hl.
    rewrite c103_amplitude by exact Hl. rewrite Cmod_mult, Rpow_mult_distr, Cmod_R.
    replace (Rabs (forward_backward_sign s e i j k l) ^ 2)%R with 1%R; [ring|].
    rewrite pow2_abs. cbn [pow]. rewrite Rmult_1_r, fb_sign_sq. reflexivity.
  Qed.
End Mirror.

(** Chains with even and odd waves do not interfere in the sum of forward and backward. *)
Lemma parallelogram (u v : C) : (Cmod (u + v)%C ^ 2 + Cmod (u - v)%C ^ 2 = 2 * (Cmod u ^ 2 + Cmod v ^ 2))%R.
Proof. rewrite !Cmod_sq. destruct u, v. unfold Cminus, Copp, Cplus, Re, Im. cbn [fst snd]. ring. Qed.
Lemma c103_interference b b1 b2 s dyn uc ref cl m ref1 cl1 m1 ref2 cl2 m2 i j k :
  std_decay (b_decay b) s -> std_decay (b_decay b1) s -> std_decay (b_decay b2) s ->
  dynamics_of b dyn -> dynamics_of b1 dyn -> dynamics_of b2 dyn ->
  (b_prod_helicity b = false -> plain_resonances (b_decay b)) ->
  b_prod_helicity b1 = b_prod_helicity b -> b_prod_helicity b2 = b_prod_helicity b ->
  b_dec_helicity b = false -> b_dec_helicity b1 = false -> b_dec_helicity b2 = false ->
  formulate b ref cl uc = Ok m -> formulate b1 ref1 cl1 uc = Ok m1 -> formulate b2 ref2 cl2 uc = Ok m2 ->
  Permutation (d_chains (b_decay b)) (d_chains (b_decay b1) ++ d_chains (b_decay b2)) ->
  cyclic i j k -> one_subsystem (b_decay b) k -> one_subsystem (b_decay b1) k -> one_subsystem (b_decay b2) k ->
  (forall c, In c (d_chains (b_decay b1)) -> decay_wave c true) ->
  (forall c, In c (d_chains (b_decay b2)) -> decay_wave c false) ->
  forall ev th,
    (full_value (turned ev i j th) m + full_value (turned ev i j (PI - th)) m =
     (full_value (turned ev i j th) m1 + full_value (turned ev i j (PI - th)) m1)
     + (full_value (turned ev i j th) m2 + full_value (turned ev i j (PI - th)) m2))%C.
Proof.
  intros D D1 D2 Y Y1 Y2 PR Ep1 Ep2 Ed Ed1 Ed2 F F1 F2 Pm Cy One One1 One2 O1 O2 ev th.
  destruct (cyclic_in _ _ _ Cy) as (_ & _ & Hk).
  assert (P1 : b_prod_helicity b1 = false -> plain_resonances (b_decay b1)).
  { intros E c Hc. apply PR; [congruence|]. apply (Permutation_in _ (Permutation_sym Pm)), in_or_app. left. exact Hc. }
  assert (P2 : b_prod_helicity b2 = false -> plain_resonances (b_decay b2)).
  { intros E c Hc. apply PR; [congruence|]. apply (Permutation_in _ (Permutation_sym Pm)), in_or_app. right. exact Hc. }
  rewrite (c103_symmetric b1 s dyn ref1 cl1 uc m1 i j k true D1 Y1 P1 Ed1 F1 Cy (fun c Hc _ => O1 c Hc) One1).
  rewrite (c103_symmetric b2 s dyn ref2 cl2 uc m2 i j k false D2 Y2 P2 Ed2 F2 Cy (fun c Hc _ => O2 c Hc) One2).
  rewrite !(c92 b s ref cl uc m k D F One), (c92 b1 s ref1 cl1 uc m1 k D1 F1 One1), (c92 b2 s ref2 cl2 uc m2 k D2 F2 One2).
  rewrite <- !RtoC_plus. f_equal.
  rewrite (Rsum_perm _ _ (fun l => Cmod (amp_value (turned ev i j (PI - th)) m k l) ^ 2)%R (tuples_pair s k Hk)), Rsum_map.
  rewrite <- !Rsum_plus. apply Rsum_ext. intros l Hl. apply tuples_In in Hl.
  pose proof (c83_additive b b1 b2 s dyn uc ref cl m ref1 cl1 m1 ref2 cl2 m2 D D1 D2 Y Y1 Y2 PR Ep1
    (eq_trans Ed1 (eq_sym Ed)) Ep2 (eq_trans Ed2 (eq_sym Ed)) F F1 F2 Pm) as Add.
  rewrite (Add (turned ev i j th) k l Hk Hl), (Add (turned ev i j (PI - th)) k (pair_reversed k l) Hk (proj2 (pair_tuple s k l Hk) Hl)).
  rewrite (c103_amplitude b1 s dyn ref1 cl1 uc m1 i j k true D1 Y1 P1 Ed1 F1 Cy (fun c Hc _ => O1 c Hc) ev th l Hl).
  rewrite (c103_amplitude b2 s dyn ref2 cl2 uc m2 i j k false D2 Y2 P2 Ed2 F2 Cy (fun c Hc _ => O2 c Hc) ev th l Hl).
  set (u := amp_value _ m1 _ _). set (v := amp_value _ m2 _ _).
  assert (S : forward_backward_sign s false i j k l = (- forward_backward_sign s true i j k l)%R).
  { unfold forward_backward_sign. ring. }
  rewrite S. set (sg := forward_backward_sign s true i j k l).
  replace (RtoC sg * u + RtoC (- sg) * v)%C with (RtoC sg * (u - v))%C by (rewrite RtoC_opp; ring).
  rewrite Cmod_mult, Rpow_mult_distr, Cmod_R, pow2_abs.
  replace (sg ^ 2)%R with 1%R by (cbn [pow]; rewrite Rmult_1_r; symmetry; apply fb_sign_sq).
  rewrite Rmult_1_l, parallelogram. ring.
Qed.
Lemma c103_line b s dyn ref cl uc m i j k e base cpl lo hi : std_decay (b_decay b) s -> dynamics_of b dyn ->
  (b_prod_helicity b = false -> plain_resonances (b_decay b)) -> b_dec_helicity b = false ->
  formulate b ref cl uc = Ok m -> cyclic i j k -> one_subsystem (b_decay b) k ->
  (forall c, In c (d_chains (b_decay b)) -> decay_wave c e) ->
  (forall c, In c (d_chains (b_decay b)) ->
     ~ In (sigma_at i) (symbols_of (de_expr (dyn c))) /\ ~ In (sigma_at j) (symbols_of (de_expr (dyn c)))) ->
  between_thresholds base i j k -> dalitz_range base i j k lo hi ->
  forall x, (lo <= x <= hi)%R ->
    full_value (at_point (m_variables m) (dalitz_line base i j k (lo + hi - x)) cpl) m =
    full_value (at_point (m_variables m) (dalitz_line base i j k x) cpl) m.
Proof.
  intros D Y P E F Cy One O Ind BT Rg x Hx.
  rewrite !(full_line b s dyn ref cl uc m i j k D Y P F Cy One Ind base cpl BT).
  rewrite (line_reflected i j k Cy base lo hi BT Rg x Hx).
  apply (c103_symmetric b s dyn ref cl uc m i j k e D Y P E F Cy (fun c Hc _ => O c Hc) One).
Qed.

(** ** Helicity selection rules *)
Section Selection.
  Variables (b : builder) (s : Z -> state) (dyn : chain -> defexpr) (ref : option Z) (cl uc : bool) (m : model) (i j k : Z).
  Hypothesis D : std_decay (b_decay b) s.
  Hypothesis Y : dynamics_of b dyn.
  Hypothesis P : b_prod_helicity b = false -> plain_resonances (b_decay b).
  Hypothesis F : formulate b ref cl uc = Ok m.
  Hypothesis Cy : cyclic i j k.

  Lemma amp_vanishes ev l : helicity_tuple s l ->
    (forall c, In c (d_chains (b_decay b)) -> st_index (ch_spectator c) = k ->
       wigner_d (p_spin (ch_resonance c)) (at4 l 0 + at4 l k) (at4 l i - at4 l j) (Re (e_sym ev (theta_name i j))) = 0%R) ->
    amp_value ev m k l = RtoC 0.
  Proof.
    intros Hl H. rewrite (amplitude_total b s dyn ref cl uc m D Y P F l i j k ev Hl Cy). unfold dpd_amplitude.
    apply Csum_zero. intros c Ic. apply filter_In in Ic. destruct Ic as [Ic Ek]. apply Z.eqb_eq in Ek.
    apply Csum_zero. intros r _. destruct (Z.eqb_spec (at4 l 0) (r - at4 l k)) as [E|]; [|reflexivity].
    pose proof (H c Ic Ek) as W. replace (at4 l 0 + at4 l k) with r in W by lia. rewrite W. ring.
  Qed.
  Lemma c104_spin ev l : helicity_tuple s l ->
    (forall c, In c (d_chains (b_decay b)) -> st_index (ch_spectator c) = k ->
       p_spin (ch_resonance c) < Z.abs (at4 l 0 + at4 l k) \/ p_spin (ch_resonance c) < Z.abs (at4 l i - at4 l j)) ->
    amp_value ev m k l = RtoC 0.
  Proof.
    intros Hl H. apply amp_vanishes; [exact Hl|]. intros c Ic Ek. destruct (H c Ic Ek) as [A|A].
    - apply wigner_d_out_l. destruct (is_projection _ _) eqn:E; [|reflexivity]. apply is_projection_spec in E. lia.
    - apply wigner_d_out_r. destruct (is_projection _ _) eqn:E; [|reflexivity]. apply is_projection_spec in E. lia.
  Qed.
  Lemma c104_forward ev l : helicity_tuple s l -> Re (e_sym ev (theta_name i j)) = 0%R ->
    at4 l 0 + at4 l k <> at4 l i - at4 l j -> amp_value ev m k l = RtoC 0.
  Proof.
    intros Hl E0 N. apply amp_vanishes; [exact Hl|]. intros c Ic Ek. rewrite E0, wigner_d_0.
    rewrite (proj2 (Z.eqb_neq _ _) N), ?andb_false_r. reflexivity.
  Qed.
  Lemma c104_backward ev l : helicity_tuple s l -> Re (e_sym ev (theta_name i j)) = PI ->
    at4 l 0 + at4 l k <> at4 l j - at4 l i -> amp_value ev m k l = RtoC 0.
  Proof.
    intros Hl E0 N. apply amp_vanishes; [exact Hl|]. intros c Ic Ek. rewrite E0.
    replace (at4 l i - at4 l j) with (- (at4 l j - at4 l i)) by lia. replace PI with (PI - 0)%R by ring.
    rewrite wigner_d_pi_minus, wigner_d_0, (proj2 (Z.eqb_neq _ _) N), ?andb_false_r. ring.
  Qed.
  (** The angles at the ends of a line of constant sigma_k *)
  Lemma line_ends_angles base cpl lo hi : In k (get_subsystem_ids (b_decay b)) ->
    between_thresholds base i j k -> dalitz_range base i j k lo hi ->
    Re (e_sym (at_point (m_variables m) (dalitz_line base i j k hi) cpl) (theta_name i j)) = 0%R /\
    Re (e_sym (at_point (m_variables m) (dalitz_line base i j k lo) cpl) (theta_name i j)) = PI.
  Proof.
    intros Hk BT Rg.
    assert (Hl : helicity_tuple s (- p_spin (s 0), - p_spin (s 1), - p_spin (s 2), - p_spin (s 3))).
    { assert (X : forall n, In n [0; 1; 2; 3] -> In (- p_spin (s n)) (helicities (p_spin (s n)))).
      { intros n Hn. rewrite helicities_range. apply spin_range2_In. pose proof (sd_spin _ _ D n Hn).
        split; [lia|]. apply Z.even_spec. exists (p_spin (s n)). lia. }
      unfold helicity_tuple. repeat split; apply X; simpl; auto. }
    destruct (amplitude_formula b s D dyn _ _ _ _ Y P F _ i j k Hl Cy (or_intror Hk)) as (_ & (th & T & G) & _).
    assert (V : forall x, Re (e_sym (at_point (m_variables m) (dalitz_line base i j k x) cpl) (theta_name i j)) =
      acos (2 / (hi - lo) * x + - (lo + hi) / (hi - lo))%R).
    { intros x. rewrite <- (line_cos base i j k Cy BT lo hi x Rg), <- (line_theta base i j k Cy BT).
      unfold at_point. cbn [e_sym]. rewrite G, T. reflexivity. }
    pose proof (line_lt base i j k Cy BT lo hi Rg) as L. rewrite !V. split.
    - replace (2 / (hi - lo) * hi + - (lo + hi) / (hi - lo))%R with 1%R by (field; lra). apply acos_1.
    - replace (2 / (hi - lo) * lo + - (lo + hi) / (hi - lo))%R with (-(1))%R by (field; lra). rewrite acos_opp, acos_1. ring.
  Qed.
  Lemma c104_ends base cpl lo hi l : In k (get_subsystem_ids (b_decay b)) ->
    between_thresholds base i j k -> dalitz_range base i j k lo hi -> helicity_tuple s l ->
    (at4 l 0 + at4 l k <> at4 l i - at4 l j ->
       amp_value (at_point (m_variables m) (dalitz_line base i j k hi) cpl) m k l = RtoC 0) /\
    (at4 l 0 + at4 l k <> at4 l j - at4 l i ->
       amp_value (at_point (m_variables m) (dalitz_line base i j k lo) cpl) m k l = RtoC 0).
  Proof.
    intros Hk BT Rg Hl. destruct (line_ends_angles base cpl lo hi Hk BT Rg) as [E1 E2]. split; intros N.
    - apply c104_forward; assumption.
    - apply c104_backward; assumption.
  Qed.
End Selection.
