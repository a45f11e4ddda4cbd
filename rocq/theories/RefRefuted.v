(** C28: for a parent with half-integer spin and chains in three subsystems, the intensity depends on the
    reference subsystem. *)
From Coq Require Import String ZArith QArith Qcanon Qreals List Bool Reals Lia Lra Permutation.
From Coquelicot Require Import Complex.
From Verif Require Import Prelude Spin Decay Expr Angles Sums Wigner CG CExpr SpecKin SpecDPD Builder SpecBuilder
  SpinFacts DecayFacts KinFacts AnglesFacts WignerFacts CGFacts CExprFacts BuilderFacts ModelFacts RefFacts.
From Verif Require AnglesProofs.
Import ListNotations.
Local Open Scope string_scope.
Local Open Scope Z_scope.
Local Open Scope list_scope.

Definition rx_p name spin := Particle name name spin (Some 1) (Qc_of_Z 1) (Qc_of_Z 0).
Definition rx_s (i : Z) : state :=
  match i with
  | 0 => State (rx_p "Lb" 1) 0
  | 1 => State (rx_p "p" 1) 1
  | 2 => State (rx_p "K" 0) 2
  | _ => State (rx_p "pi" 0) 3
  end.
Definition rx_leaf i := Leaf (PSt (rx_s i)).
Definition rx_A : chain :=
  Node (PSt (rx_s 0)) (Node (PPart (rx_p "A" 0)) (rx_leaf 2) (rx_leaf 3) None) (rx_leaf 1) None.
Definition rx_B : chain :=
  Node (PSt (rx_s 0)) (Node (PPart (rx_p "B" 1)) (rx_leaf 1) (rx_leaf 2) None) (rx_leaf 3) None.
Definition rx_C : chain :=
  Node (PSt (rx_s 0)) (Node (PPart (rx_p "C" 1)) (rx_leaf 3) (rx_leaf 1) None) (rx_leaf 2) None.
Definition rx_decay : decay :=
  Decay [(0, rx_s 0); (1, rx_s 1); (2, rx_s 2); (3, rx_s 3)] [rx_A; rx_B; rx_C].
Definition rx_b : builder := Builder rx_decay (mk_configurator rx_decay) true true false.
Lemma rx_mk : mk_builder rx_decay (MinBool true) false = Ok rx_b.
Proof. reflexivity. Qed.
Lemma rx_std : std_decay rx_decay rx_s.
Proof.
  constructor.
  - split; [repeat constructor|vm_compute; reflexivity].
  - apply Permutation_refl.
  - intros i H. apply In_0123 in H. destruct H as [->|[->|[->| ->]]]; reflexivity.
  - intros i H. apply In_0123 in H. destruct H as [->|[->|[->| ->]]]; vm_compute; discriminate.
Qed.
Lemma rx_dyn : dynamics_of rx_b (fun _ => de_unit).
Proof.
  intros c H. split; [|reflexivity]. exists default_builder. split; [|reflexivity].
  destruct H as [<-|[<-|[<-|[]]]]; vm_compute; reflexivity.
Qed.

Definition rx_base (x : symbol) : C := RtoC (AnglesProofs.ex_env x).
Definition rx_cpl (base : string) (idx : list ival) : C :=
  match idx with IStr "C" :: _ => RtoC 0 | _ => RtoC 1 end.
Lemma rx_kin : (fun x => Re (rx_base x)) = AnglesProofs.ex_env.
Proof. reflexivity. Qed.

(** ** The amplitudes are rotations *)
Lemma half_mm x : wigner_d 1 (-1) (-1) x = cos (x / 2).
Proof.
  unfold wigner_d, wd, wd_term, is_projection. simpl. rewrite !Rmult_1_l, sqrt_1. field.
Qed.
Lemma half_mp x : wigner_d 1 (-1) 1 x = sin (x / 2).
Proof.
  rewrite wigner_d_transpose, wigner_d_half_pm.
  replace (- x / 2)%R with (- (x / 2))%R by field. rewrite sin_neg. ring.
Qed.
Definition rx_amp (th : R) (k : Z) (l : Z * Z * Z * Z) : R :=
  match k with
  | 1 => wigner_d 1 (at4 l 0) (at4 l 1) PI
  | 3 => wigner_d 1 (at4 l 0) (at4 l 1) th
  | _ => 0
  end.
Lemma rx_tuples : tuples rx_s = [(-1, -1, 0, 0); (-1, 1, 0, 0); (1, -1, 0, 0); (1, 1, 0, 0)].
Proof. reflexivity. Qed.

Lemma de_unit_eval ev h : ceval ev h (de_expr de_unit) = RtoC 1.
Proof. cbn [de_expr de_unit]. unfold CNum. cbn [ceval]. rewrite Q2R_Z. reflexivity. Qed.
Lemma d_pi l0 l1 : In l0 [-1; 1] -> In l1 [-1; 1] ->
  wigner_d 1 l0 l1 PI = (if l0 =? l1 then 0 else IZR (- l0))%R.
Proof.
  intros [<-|[<-|[]]] [<-|[<-|[]]]; cbn [Z.eqb Pos.eqb];
  rewrite ?half_mm, ?half_mp, ?wigner_d_half_pm, ?wigner_d_half_pp, ?cos_PI2, ?sin_PI2; auto; simpl; lra.
Qed.
Lemma rx_amps r m : formulate rx_b (Some r) false false = Ok m ->
  let ev := at_point (m_variables m) rx_base rx_cpl in
  forall k l, In k [1; 2; 3] -> helicity_tuple rx_s l ->
  amp_value ev m k l = RtoC (rx_amp (rv AnglesProofs.ex_env (formulate_scattering_angle 1 2)) k l).
Proof.
  intros F ev k l Hk Hl. destruct (cyclic_ex k Hk) as (i & j & Cy).
  destruct (amplitude_formula rx_b rx_s rx_std (fun _ => de_unit) (Some r) false false m rx_dyn ltac:(discriminate) F
    l i j k Hl Cy) as (_ & (th & T & G) & A).
  { right. destruct Hk as [<-|[<-|[<-|[]]]]; vm_compute; auto. }
  rewrite A. clear A.
  assert (ET : e_sym ev (theta_name i j) = RtoC (rv AnglesProofs.ex_env (formulate_scattering_angle i j))).
  { unfold ev, at_point. cbn [e_sym]. rewrite G, T. reflexivity. }
  rewrite ET. clear ET G T th. apply tuples_In in Hl. rewrite rx_tuples in Hl.
  unfold dpd_amplitude. change (d_chains (b_decay rx_b)) with [rx_A; rx_B; rx_C].
  unfold coupling_product. cbn [b_prod_helicity b_dec_helicity rx_b coupling_index prod_factor dec_factor].
  change (e_idx ev) with rx_cpl.
  set (X := rv AnglesProofs.ex_env (formulate_scattering_angle i j)).
  cbn [Re RtoC fst].
  destruct Cy as [E|[E|[E|[]]]]; inversion E; subst i j k; clear E Hk.
  - (* k = 3 *)
    change (filter _ _) with [rx_B]. cbn [Csum]. change (helicities (p_spin (ch_resonance rx_B))) with [-1; 1].
    cbn [Csum]. rewrite ?de_unit_eval. unfold X.
    destruct Hl as [<-|[<-|[<-|[<-|[]]]]]; cbn -[Cplus Cmult RtoC wigner_d Rmult formulate_scattering_angle rv];
      change (parity_sign 0) with 1%R; rewrite ?Rmult_1_l, ?Cmult_1_l, ?Cmult_1_r, ?Cplus_0_l, ?Cplus_0_r; reflexivity.
  - (* k = 1 *)
    change (filter _ _) with [rx_A]. cbn [Csum]. change (helicities (p_spin (ch_resonance rx_A))) with [0].
    cbn [Csum]. rewrite ?de_unit_eval. unfold rx_amp.
    destruct Hl as [<-|[<-|[<-|[<-|[]]]]]; cbn -[Cplus Cmult RtoC wigner_d Rmult formulate_scattering_angle rv];
      change (parity_sign 0) with 1%R; try change (parity_sign 2) with (-1)%R;
      rewrite ?wigner_d_spin0, d_pi by (simpl; auto); cbn [Z.eqb Pos.eqb Z.opp];
      rewrite ?Rmult_1_l, ?Rmult_1_r, ?Cmult_1_l, ?Cmult_1_r, ?Cplus_0_l, ?Cplus_0_r; reflexivity.
  - (* k = 2 *)
    change (filter _ _) with [rx_C]. cbn [Csum]. change (helicities (p_spin (ch_resonance rx_C))) with [-1; 1].
    cbn [Csum rx_amp]. change (IStr (p_latex (ch_resonance rx_C))) with (IStr "C"). cbn [rx_cpl].
    rewrite !Cmult_0_l, !Cmult_0_r, !Cmult_0_l.
    destruct (_ =? _), (_ =? _); rewrite ?Cplus_0_l; auto.
Qed.

(** ** The intensity *)
Lemma rot3 l0 l1 x y z : In l0 [-1; 1] -> In l1 [-1; 1] ->
  (wigner_d 1 (-1) (-1) y * (wigner_d 1 l0 (-1) x * wigner_d 1 (-1) l1 z) +
   (wigner_d 1 (-1) 1 y * (wigner_d 1 l0 (-1) x * wigner_d 1 1 l1 z) +
   (wigner_d 1 1 (-1) y * (wigner_d 1 l0 1 x * wigner_d 1 (-1) l1 z) +
    wigner_d 1 1 1 y * (wigner_d 1 l0 1 x * wigner_d 1 1 l1 z))) = wigner_d 1 l0 l1 (x + y + z))%R.
Proof.
  assert (E : ((x + y + z) / 2 = (x / 2 + y / 2) + z / 2)%R) by field.
  intros [<-|[<-|[]]] [<-|[<-|[]]]; rewrite ?half_mm, ?half_mp, ?wigner_d_half_pm, ?wigner_d_half_pp, E,
    ?cos_plus, ?sin_plus, ?cos_plus, ?sin_plus; ring.
Qed.
Lemma rx_intensity th z :
  intensity_value rx_s [1; 2; 3] (fun k l => RtoC (rx_amp th k l)) z =
  (4 + 4 * cos (((z 0%Z 1%Z + PI + z 1%Z 1%Z) - (z 0%Z 3%Z + th + z 1%Z 3%Z)) / 2))%R.
Proof.
  unfold intensity_value. rewrite rx_tuples. unfold aligned_amplitude. rewrite rx_tuples.
  assert (AL : forall l, In l (tuples rx_s) -> 
    Csum [(-1, -1, 0, 0); (-1, 1, 0, 0); (1, -1, 0, 0); (1, 1, 0, 0)]
     (fun l' => Csum [1; 2; 3] (fun k => RtoC (rx_amp th k l') * RtoC (alignment rx_s (fun i => z i k) l l'))%C)
    = RtoC (wigner_d 1 (at4 l 0) (at4 l 1) (z 0%Z 1%Z + PI + z 1%Z 1%Z)
            + wigner_d 1 (at4 l 0) (at4 l 1) (z 0%Z 3%Z + th + z 1%Z 3%Z))).
  { intros l Hl. rewrite rx_tuples in Hl. 
    rewrite <- !rot3 by (destruct Hl as [<-|[<-|[<-|[<-|[]]]]]; simpl; auto).
    cbn [Csum rx_amp]. unfold alignment.
    change (p_spin (rx_s 0)) with 1. change (p_spin (rx_s 1)) with 1.
    change (p_spin (rx_s 2)) with 0. change (p_spin (rx_s 3)) with 0.
    assert (E2 : at4 l 2 = 0 /\ at4 l 3 = 0) by (destruct Hl as [<-|[<-|[<-|[<-|[]]]]]; simpl; auto).
    destruct E2 as [E2 E3]. rewrite E2, E3. cbn [at4]. rewrite !wigner_d_spin0.
    rewrite <- ?RtoC_mult, <- ?RtoC_plus. f_equal. ring. }
  cbn [Rsum]. rewrite !AL by (rewrite rx_tuples; simpl; auto).
  rewrite !Cmod_R, !pow2_abs. cbn [at4]. rewrite ?half_mm, ?half_mp, ?wigner_d_half_pm, ?wigner_d_half_pp.
  set (a := (z 0%Z 1%Z + PI + z 1%Z 1%Z)%R). set (c := (z 0%Z 3%Z + th + z 1%Z 3%Z)%R).
  replace ((a - c) / 2)%R with (a / 2 - c / 2)%R by field. rewrite cos_minus.
  pose proof (sin2_cos2 (a / 2)) as A. pose proof (sin2_cos2 (c / 2)) as B. unfold Rsqr in A, B. nra.
Qed.
Lemma rx_value r m : In r [1; 2; 3] -> formulate rx_b (Some r) false false = Ok m ->
  full_value (at_point (m_variables m) rx_base rx_cpl) m =
  RtoC (4 + 4 * cos (((rv AnglesProofs.ex_env (formulate_zeta_angle 0 1 r) + PI
                       + rv AnglesProofs.ex_env (formulate_zeta_angle 1 1 r))
     - (rv AnglesProofs.ex_env (formulate_zeta_angle 0 3 r) + rv AnglesProofs.ex_env (formulate_scattering_angle 1 2)
        + rv AnglesProofs.ex_env (formulate_zeta_angle 1 3 r))) / 2)).
Proof.
  intros Hr F. destruct (intensity_formula rx_b rx_s rx_std _ _ _ _ F) as (r' & ks & Er & Eks & V).
  cbn in Er. inversion Er; subst r'. vm_compute in Eks. inversion Eks; subst ks. rewrite V. clear V. f_equal.
  rewrite (intensity_amp_ext rx_s _ _ _ _ (rx_amps r m F)), rx_intensity.
  assert (ZA : forall i k, In i [0; 1] -> In k [1; 2; 3] ->
    Re (e_sym (at_point (m_variables m) rx_base rx_cpl) (zeta_symbol i k r))
      = rv AnglesProofs.ex_env (formulate_zeta_angle i k r)).
  { intros i k Hi Hk. apply (zeta_at_point rx_b rx_s rx_std (Some r) false false m r rx_base rx_cpl F eq_refl).
    - simpl in *; lia.
    - destruct Hk as [<-|[<-|[<-|[]]]]; vm_compute; auto.
    - destruct Hi as [<-|[<-|[]]]; vm_compute; discriminate. }
  rewrite !ZA by (simpl; auto). reflexivity.
Qed.

Lemma acos_strict x y : (-1 <= x <= 1)%R -> (-1 <= y <= 1)%R -> (x < y)%R -> (acos y < acos x)%R.
Proof.
  intros Hx Hy L. destruct (Rle_lt_dec (acos x) (acos y)) as [H|H]; auto. exfalso.
  pose proof (acos_bound x). pose proof (acos_bound y).
  pose proof (cos_decr_1 (acos x) (acos y)) as C. rewrite !cos_acos in C by auto. 
  assert (y <= x)%R by (apply C; lra). lra.
Qed.
Lemma acos_pos x : (0 < x)%R -> (acos x < PI / 2)%R.
Proof.
  intros H. destruct (Rle_lt_dec x 1) as [L|L].
  - rewrite <- acos_0. apply acos_strict; lra.
  - unfold acos. destruct (Rle_dec x (-1)); [lra|]. destruct (Rle_dec 1 x); [|lra]. pose proof PI_RGT_0. lra.
Qed.
Lemma acos_neg' x : (x < 0)%R -> (PI / 2 < acos x)%R.
Proof.
  intros H. destruct (Rle_lt_dec (-1) x) as [L|L].
  - rewrite <- acos_0. apply acos_strict; lra.
  - unfold acos. destruct (Rle_dec x (-1)); [|lra]. pose proof PI_RGT_0. lra.
Qed.
Lemma Rmult_neg_pos' a b : (a < 0)%R -> (0 < b)%R -> (a * b < 0)%R.
Proof. nra. Qed.
Lemma rx_theta : (PI / 2 < rv AnglesProofs.ex_env (formulate_scattering_angle 1 2))%R.
Proof.
  rewrite th_12. unfold th_. destruct AnglesProofs.ex_env_vals as (-> & -> & -> & -> & E1 & -> & ->).
  apply acos_neg'. 
  match goal with |- (?n / ?d < 0)%R => assert (0 < d)%R; [|assert (n < 0)%R] end.
  - apply Rmult_lt_0_compat; apply sqrt_lt_R0; unfold kallen; lra.
  - unfold n_theta. lra.
  - apply Rmult_neg_pos'; auto. apply Rinv_0_lt_compat; auto.
Qed.
Lemma rx_zeta : (0 < rv AnglesProofs.ex_env (formulate_zeta_angle 1 1 3) < PI / 2)%R.
Proof.
  rewrite z_113. unfold z0_. destruct AnglesProofs.ex_env_vals as (-> & -> & -> & E3 & -> & -> & ->).
  match goal with |- (0 < acos (?n / ?d) < _)%R => assert (0 < d)%R; [|assert (0 < n)%R; [|assert (n < d)%R]] end.
  - apply Rmult_lt_0_compat; apply sqrt_lt_R0; unfold kallen; lra.
  - unfold n_zeta0. lra.
  - rewrite <- sqrt_mult by (unfold kallen; lra). unfold n_zeta0, kallen.
    apply Rsqr_incrst_0; [|lra|apply sqrt_pos]. rewrite Rsqr_sqrt; unfold Rsqr; lra.
  - split; [|apply acos_pos; apply Rmult_lt_0_compat; auto; apply Rinv_0_lt_compat; auto].
    rewrite <- acos_1. 
    match goal with |- (_ < acos (?n / ?d))%R => assert (0 < n / d < 1)%R end.
    { split; [apply Rmult_lt_0_compat; auto; apply Rinv_0_lt_compat; auto|].
      apply (Rmult_lt_reg_r _ _ _ H). unfold Rdiv. rewrite Rmult_assoc, Rinv_l by lra. lra. }
    apply acos_strict; lra.
Qed.

Lemma c28 : exists b s dyn m1 m2 base cpl,
  std_decay (b_decay b) s /\ dynamics_of b dyn /\ mk_builder (b_decay b) (MinBool true) false = Ok b /\
  (forall k, In k [1; 2; 3] -> In k (get_subsystem_ids (b_decay b))) /\
  formulate b (Some 1) false false = Ok m1 /\ formulate b (Some 2) false false = Ok m2 /\
  physical (fun x => Re (base x)) /\ nonsingular (fun x => Re (base x)) /\
  full_value (at_point (m_variables m1) base cpl) m1 <> full_value (at_point (m_variables m2) base cpl) m2.
Proof.
  set (env := AnglesProofs.ex_env).
  assert (P : physical env) by (eexists _, _, _; exact AnglesProofs.ex_momenta).
  pose proof AnglesProofs.ex_nonsingular as N. fold env in N.
  destruct (formulate rx_b (Some 1) false false) as [m1|] eqn:F1; [|vm_compute in F1; discriminate].
  destruct (formulate rx_b (Some 2) false false) as [m2|] eqn:F2; [|vm_compute in F2; discriminate].
  exists rx_b, rx_s, (fun _ => de_unit), m1, m2, rx_base, rx_cpl.
  split; [exact rx_std|]. split; [exact rx_dyn|]. split; [exact rx_mk|]. split.
  { intros k [<-|[<-|[<-|[]]]]; vm_compute; auto. }
  repeat (split; [auto|]).
  rewrite (rx_value 1 m1), (rx_value 2 m2) by (simpl; auto). intros E. apply RtoC_inj in E. revert E.
  fold env. rewrite !(zeta_diag env) by lia.
  rewrite (zeta_antisym env 1 3 1) by lia.
  rewrite (zeta_antisym env 1 3 2) by lia.
  rewrite (zeta_antisym env 0 3 2) by lia.
  rewrite (zeta_cocycle env 1 1 2 3 P N) by lia.
  rewrite (zeta_antisym env 1 3 2) by lia.
  destruct P as (p1 & p2 & p3 & P).
  pose proof (hat_turn _ _ _ _ _ _ _ (physical_facts _ _ _ _ P) (nonsing_of _ N)) as T.
  rewrite <- hat_31, <- hat_12, <- hat_23 in T. rewrite <- !zeta_rot0 in T by lia.
  assert (H31 : (0 <= rv env (formulate_zeta_angle 0 3 1) <= PI)%R).
  { rewrite zeta_rot0 by lia. rewrite hat_31. apply acos_bound. }
  pose proof rx_theta as Th. pose proof rx_zeta as Ze. fold env in Th, Ze.
  assert (Th' : (rv env (formulate_scattering_angle 1 2) <= PI)%R) by (rewrite th_12; apply acos_bound).
  set (h31 := rv env (formulate_zeta_angle 0 3 1)) in *. set (h12 := rv env (formulate_zeta_angle 0 1 2)) in *.
  set (h23 := rv env (formulate_zeta_angle 0 2 3)) in *. set (ze := rv env (formulate_zeta_angle 1 1 3)) in *.
  set (th := rv env (formulate_scattering_angle 1 2)) in *. set (z23 := rv env (formulate_zeta_angle 1 2 3)) in *.
  set (phi := (h31 + th - ze)%R).
  replace ((0 + PI + 0 - (h31 + th + - ze)) / 2)%R with (PI / 2 - phi / 2)%R by (unfold phi; field).
  replace ((h12 + PI + (ze + - z23) - (- h23 + th + - z23)) / 2)%R with (PI / 2 - phi / 2 + PI)%R
    by (unfold phi; replace h12 with (2 * PI - h31 - h23)%R by lra; field).
  rewrite neg_cos, cos_shift. intros E.
  assert (0 < sin (phi / 2))%R; [|lra].
  apply sin_gt_0; unfold phi; lra.
Qed.
