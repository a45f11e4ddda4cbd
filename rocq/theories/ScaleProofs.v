(** Which couplings give the same amplitudes (C152) *)
From Coq Require Import String ZArith QArith Qcanon List Bool Reals Lia Lra Psatz Permutation Classical.
From Coquelicot Require Import Complex Hierarchy RInt.
From Verif Require Import Prelude Spin Decay Expr Angles Sums Wigner CG CExpr SpecKin SpecDPD Builder SpecBuilder
  SpinFacts DecayFacts AnglesFacts WignerFacts CExprFacts BuilderFacts ModelFacts OccFacts RefFacts LSBasis LSProofs BuilderProofs ChainProofs FormProofs HankelFacts SpecObs LegendreFacts ObsKin ObsProofs InterferenceFacts SpecReorder SpecEnvelope EnvelopeFacts SpecProjection ProjectionFacts SpecEffect EffectProofs SpecScale.
Import ListNotations.
Local Open Scope Z_scope.

Section Scale.
  Context (b : builder) (s : Z -> state) (dyn : chain -> defexpr) (ref : option Z) (cl uc : bool) (m : model).
  Context (D : std_decay (b_decay b) s) (Dyn : dynamics_of b dyn) (PR : b_prod_helicity b = false -> plain_resonances (b_decay b))
    (F : formulate b ref cl uc = Ok m).
  Let ph := b_prod_helicity b.
  Let dh := b_dec_helicity b.
  Let d := b_decay b.
  Notation scal ev := ((if uc then coefficient else coupling_product) ev ph dh).

  (** The products of couplings determine the amplitudes and the intensity. *)
  Lemma same_products sym cpl cpl' :
    (forall c r lk li lj, In c (d_chains d) -> scal (Env sym cpl') c r lk li lj = scal (Env sym cpl) c r lk li lj) ->
    (forall k l, In k [1; 2; 3] -> helicity_tuple s l -> amp_value (Env sym cpl') m k l = amp_value (Env sym cpl) m k l) /\
    full_value (Env sym cpl') m = full_value (Env sym cpl) m.
  Proof.
    intros E.
    assert (A : forall k l, In k [1; 2; 3] -> helicity_tuple s l -> amp_value (Env sym cpl') m k l = amp_value (Env sym cpl) m k l).
    { intros k l Ik Hl. destruct (cyclic_ex k Ik) as (i & j & Cy).
      rewrite !(amplitude_total b s dyn ref cl uc m D Dyn PR F l i j k _ Hl Cy). cbn [e_sym]. unfold dpd_amplitude.
      apply Csum_ext. intros c Hc. apply filter_In in Hc. destruct Hc as [I _].
      apply Csum_ext. intros r _. destruct (at4 l 0 =? r - at4 l k); [|reflexivity]. fold ph dh. rewrite E by exact I.
      f_equal. f_equal. f_equal. f_equal. destruct (Dyn c I) as [_ LS]. apply lineshape_eval; auto. }
    split; [exact A|].
    destruct (intensity_formula b s D _ _ _ _ F) as (rf & ks & Hr & _ & _).
    rewrite !(intensity_all b s dyn ref cl uc m rf D Dyn PR F Hr). f_equal. cbn [e_sym].
    apply intensity_amp_ext. exact A.
  Qed.

  Theorem rescale z cpl cpl' : uc = false -> (forall x, z x <> RtoC 0) -> rescaled ph dh z cpl cpl' -> forall sym,
    (forall k l, In k [1; 2; 3] -> helicity_tuple s l -> amp_value (Env sym cpl') m k l = amp_value (Env sym cpl) m k l) /\
    full_value (Env sym cpl') m = full_value (Env sym cpl) m.
  Proof.
    intros U N Rs sym. apply same_products. intros c r lk li lj I. rewrite U. unfold coupling_product. cbn [e_idx].
    destruct (Rs (p_latex (ch_resonance c)) (coupling_index ph (ch_incoming_ls c) r lk)) as [-> _].
    destruct (Rs (p_latex (ch_resonance c)) (coupling_index dh (ch_outgoing_ls c) li lj)) as [_ ->].
    field. apply N.
  Qed.

  (** Rescaled couplings exist. *)
  Definition apply_scale (z : string -> C) (cpl : string -> list ival -> C) (n : string) (ix : list ival) : C :=
    match ix with
    | IStr label :: _ =>
        if eqb n (production_name ph) then (z label * cpl n ix)%C
        else if eqb n (decay_name dh) then (cpl n ix / z label)%C else cpl n ix
    | _ => cpl n ix
    end.
  Lemma apply_scale_rescaled z cpl : rescaled ph dh z cpl (apply_scale z cpl).
  Proof.
    intros label v. unfold apply_scale. rewrite !(proj2 (Prelude.eqb_eq _ _) eq_refl). split; [reflexivity|].
    destruct (eqb (decay_name dh) (production_name ph)) eqn:E; [|reflexivity].
    apply (proj1 (Prelude.eqb_eq _ _)) in E. exfalso. exact (EffectProofs.names_differ ph dh (eq_sym E)).
  Qed.
  Theorem convention cpl (v : string -> list ival) : uc = false ->
    (forall c, In c (d_chains d) -> cpl (production_name ph) (IStr (p_latex (ch_resonance c)) :: v (p_latex (ch_resonance c))) <> RtoC 0) ->
    exists cpl',
      (forall c, In c (d_chains d) -> cpl' (production_name ph) (IStr (p_latex (ch_resonance c)) :: v (p_latex (ch_resonance c))) = RtoC 1) /\
      forall sym,
        (forall k l, In k [1; 2; 3] -> helicity_tuple s l -> amp_value (Env sym cpl') m k l = amp_value (Env sym cpl) m k l) /\
        full_value (Env sym cpl') m = full_value (Env sym cpl) m.
  Proof.
    intros U N.
    set (z := fun label => if memb label (map (fun c => p_latex (ch_resonance c)) (d_chains d))
      then (/ cpl (production_name ph) (IStr label :: v label))%C else RtoC 1).
    assert (Z : forall c, In c (d_chains d) -> z (p_latex (ch_resonance c))
      = (/ cpl (production_name ph) (IStr (p_latex (ch_resonance c)) :: v (p_latex (ch_resonance c))))%C).
    { intros c I. unfold z. rewrite (proj2 (memb_In _ _)); [reflexivity|]. apply in_map_iff. exists c. split; [reflexivity|exact I]. }
    assert (Zn : forall x, z x <> RtoC 0).
    { intros x. destruct (memb x (map (fun c => p_latex (ch_resonance c)) (d_chains d))) eqn:M.
      - apply memb_In in M. apply in_map_iff in M. destruct M as (c & <- & I). rewrite Z by exact I.
        intros E. apply (N c I). set (q := cpl _ _) in *. clearbody q. clear - E.
        destruct (classic (q = RtoC 0)) as [|Q]; [assumption|]. exfalso.
        assert (X : (q * / q)%C = RtoC 1) by (field; exact Q). rewrite E in X. rewrite Cmult_0_r in X. apply RtoC_inj in X. lra.
      - unfold z. rewrite M. intros E. apply RtoC_inj in E. lra. }
    exists (apply_scale z cpl). split.
    - intros c I. destruct (apply_scale_rescaled z cpl (p_latex (ch_resonance c)) (v (p_latex (ch_resonance c)))) as [-> _].
      rewrite Z by exact I. field. exact (N c I).
    - exact (rescale z cpl _ U Zn (apply_scale_rescaled z cpl)).
  Qed.
End Scale.

(** ** The amplitudes on a line determine the products of couplings. *)
Lemma Csum_pick (l : list Z) r0 a c (T : Z -> C) : NoDup l -> r0 = a + c ->
  Csum l (fun r => if a =? r - c then T r else RtoC 0) = if memb r0 l then T r0 else RtoC 0.
Proof.
  intros ND E. destruct (memb r0 l) eqn:M.
  - apply memb_In in M. rewrite (Csum_only _ r0).
    + replace (a =? r0 - c) with true by (symmetry; apply Z.eqb_eq; lia). reflexivity.
    + intros r _ N. destruct (Z.eqb_spec a (r - c)); [exfalso; apply N; lia|reflexivity].
    + exact ND.
    + exact M.
  - apply Csum_zero. intros r Hr. destruct (Z.eqb_spec a (r - c)) as [Q|]; [|reflexivity]. exfalso.
    assert (r = r0) as -> by lia. apply (proj2 (memb_In _ _)) in Hr. congruence.
Qed.
Lemma Rsum_all_zero {A} (l : list A) (f : A -> R) : (forall y, In y l -> (0 <= f y)%R) -> Rsum l f = 0%R -> forall y, In y l -> f y = 0%R.
Proof. intros P Z y I. pose proof (Rsum_term_le l f y P I) as L. pose proof (P y I). lra. Qed.
Lemma Csum_map {A B} (l : list A) (g : A -> B) (f : B -> C) : Csum (map g l) f = Csum l (fun x => f (g x)).
Proof. induction l as [|x l IH]; cbn [map Csum]; [reflexivity|]. rewrite IH. reflexivity. Qed.

(** Sums of d functions of different spins that vanish on a line have vanishing coefficients. *)
Lemma waves_zero {A} base i j k lo hi (cs : list A) (spin : A -> Z) (W : A -> C) M M' : cyclic i j k -> between_thresholds base i j k ->
  dalitz_range base i j k lo hi -> NoDup (map spin cs) ->
  (forall c, In c cs -> is_projection (spin c) M && is_projection (spin c) M' = false -> W c = RtoC 0) ->
  (forall x, (lo <= x <= hi)%R ->
     Csum cs (fun c => RtoC (wigner_d (spin c) M M' (acos (line_N base i j k x / line_root base i j k))) * W c)%C = RtoC 0) ->
  forall c, In c cs -> W c = RtoC 0.
Proof.
  intros Cy BT Rg ND G Van c0 I0.
  set (w := fun J : Z => Csum cs (fun c => if Z.eq_dec (spin c) J then W c else RtoC 0)).
  assert (NDc : NoDup cs) by exact (NoDup_map_inv _ _ ND).
  assert (Ew : forall c, In c cs -> w (spin c) = W c).
  { intros c I. unfold w. rewrite (Csum_only _ c).
    - destruct (Z.eq_dec (spin c) (spin c)); [reflexivity|contradiction].
    - intros c' I' N. destruct (Z.eq_dec (spin c') (spin c)) as [E|]; [|reflexivity]. exfalso. apply N.
      clear - ND I I' E. induction cs as [|y ys IH]; [destruct I|]. cbn [map] in ND. inversion ND as [|? ? Ny ND']; subst.
      destruct I as [->|I], I' as [->|I'].
      + reflexivity.
      + exfalso. apply Ny. rewrite <- E. apply in_map. exact I'.
      + exfalso. apply Ny. rewrite E. apply in_map. exact I.
      + exact (IH ND' I I').
    - exact NDc.
    - exact I. }
  assert (W' : forall J, is_projection J M && is_projection J M' = false -> w J = RtoC 0).
  { intros J P. unfold w. apply Csum_zero. intros c I. destruct (Z.eq_dec (spin c) J) as [<-|]; [|reflexivity]. exact (G c I P). }
  pose proof (line_integral base i j k Cy BT lo hi _ _ Rg (wave_integral (map spin cs) w M M' ND W')) as Int. cbn beta in Int.
  assert (L : (lo < hi)%R) by exact (line_lt base i j k Cy BT lo hi Rg).
  assert (I1 : is_RInt (fun _ : R => 0%R) lo hi ((hi - lo) / 2 * (2 * Rsum (map spin cs) (fun J => / IZR (J + 1) * Cmod (w J) ^ 2)))%R).
  { eapply is_RInt_ext; [|exact Int]. intros x Hx. rewrite Rmin_left, Rmax_right in Hx by lra.
    cbv beta. rewrite Csum_map.
    rewrite (Csum_ext cs _ (fun c => RtoC (wigner_d (spin c) M M' (acos (line_N base i j k x / line_root base i j k))) * W c)%C)
      by (intros c Hc; rewrite (Ew c Hc); reflexivity).
    rewrite Van by lra. rewrite Cmod_0. match goal with |- @eq _ ?l ?r => change (@eq R l r) end. ring. }
  assert (Iz : ((hi - lo) / 2 * (2 * Rsum (map spin cs) (fun J => / IZR (J + 1) * Cmod (w J) ^ 2)) = 0)%R).
  { pose proof (is_RInt_unique (V := R_CompleteNormedModule) _ _ _ _ I1) as U1.
    pose proof (is_RInt_unique (V := R_CompleteNormedModule) _ _ _ _ (is_RInt_const (V := R_CompleteNormedModule) lo hi 0%R)) as U2.
    rewrite U1 in U2. rewrite U2. unfold scal; cbn; unfold mult; cbn. ring. }
  assert (Rz : Rsum (map spin cs) (fun J => / IZR (J + 1) * Cmod (w J) ^ 2)%R = 0%R).
  { apply Rmult_integral in Iz. destruct Iz as [Iz|Iz]; lra. }
  assert (Pj : forall J, is_projection J M && is_projection J M' = true -> (0 < / IZR (J + 1))%R).
  { intros J P. apply andb_true_iff in P. destruct P as [P _]. apply is_projection_spec in P. apply Rinv_0_lt_compat, IZR_lt. lia. }
  assert (Pos : forall J, In J (map spin cs) -> (0 <= / IZR (J + 1) * Cmod (w J) ^ 2)%R).
  { intros J _. destruct (is_projection J M && is_projection J M') eqn:P.
    - pose proof (Pj J P). apply Rmult_le_pos; [lra|apply pow2_ge_0].
    - rewrite (W' J P), Cmod_0. lra. }
  pose proof (Rsum_all_zero _ _ Pos Rz (spin c0) (in_map spin cs c0 I0)) as E. cbn beta in E.
  destruct (is_projection (spin c0) M && is_projection (spin c0) M') eqn:P; [|exact (G c0 I0 P)].
  pose proof (Pj _ P) as Pp. rewrite (Ew c0 I0) in E. apply Cmod_eq_0.
  apply Rmult_integral in E. destruct E as [E|E]; [lra|]. pose proof (Cmod_ge_0 (W c0)). nra.
Qed.

Section Observable.
  Context (b : builder) (s : Z -> state) (dyn : chain -> defexpr) (ref : option Z) (cl uc : bool) (m : model).
  Context (D : std_decay (b_decay b) s) (Dyn : dynamics_of b dyn) (PR : b_prod_helicity b = false -> plain_resonances (b_decay b))
    (F : formulate b ref cl uc = Ok m).
  Let ph := b_prod_helicity b.
  Let dh := b_dec_helicity b.
  Let d := b_decay b.
  Notation scal ev := ((if uc then coefficient else coupling_product) ev ph dh).
  Context (base : symbol -> C) (i j k : Z) (lo hi : R) (Cy : cyclic i j k) (BT : between_thresholds base i j k) (Rg : dalitz_range base i j k lo hi).
  Context (ND : NoDup (map (fun c => p_spin (ch_resonance c)) (chains_in d k))).
  Context (NS : forall c, In c (chains_in d k) ->
    ~ In (sigma_at i) (symbols_of (de_expr (dyn c))) /\ ~ In (sigma_at j) (symbols_of (de_expr (dyn c)))).

  Lemma line_shape c x cpl cpl' : In c (chains_in d k) ->
    ceval (at_point (m_variables m) (dalitz_line base i j k x) cpl) (fun _ => 0) (de_expr (dyn c))
    = ceval (Env base cpl') (fun _ => 0) (de_expr (dyn c)).
  Proof.
    intros I. destruct (NS c I) as [N1 N2]. apply filter_In in I. destruct I as [Ic _].
    destruct (Dyn c Ic) as [_ LS]. apply lineshape_eval; auto. intros y Hy Iy. cbn [e_sym at_point].
    rewrite (proj2 (dget_None y (m_variables m))) by (intros Hin; apply Hy; apply (variables_real b s D _ _ _ _ F y Hin)).
    unfold dalitz_line.
    destruct (eqb y (sigma_at j)) eqn:E1; [apply (proj1 (Prelude.eqb_eq _ _)) in E1; rewrite E1 in Iy; contradiction|].
    destruct (eqb y (sigma_at i)) eqn:E2; [apply (proj1 (Prelude.eqb_eq _ _)) in E2; rewrite E2 in Iy; contradiction|reflexivity].
  Qed.

  (** The part of the amplitude of a chain on the line that does not depend on the angle *)
  Definition strength_on (cpl : string -> list ival -> C) (l : Z * Z * Z * Z) (c : chain) : C :=
    if memb (at4 l 0 + at4 l k)%Z (helicities (p_spin (ch_resonance c))) then
      (RtoC (parity_sign (p_spin (s k) - at4 l k)%Z * parity_sign (p_spin (s j) - at4 l j)%Z)
       * ceval (Env base cpl) (fun _ => 0) (de_expr (dyn c))
       * scal (Env base cpl) c (at4 l 0 + at4 l k)%Z (at4 l k) (at4 l i) (at4 l j)
       * RtoC (prod_factor ph c (at4 l 0 + at4 l k)%Z (at4 l k) * dec_factor dh c (at4 l)))%C
    else RtoC 0.
  Lemma line_amplitude cpl l x : chains_in d k <> [] -> helicity_tuple s l ->
    amp_value (at_point (m_variables m) (dalitz_line base i j k x) cpl) m k l
    = Csum (chains_in d k) (fun c =>
        RtoC (wigner_d (p_spin (ch_resonance c)) (at4 l 0 + at4 l k)%Z (at4 l i - at4 l j)%Z (acos (line_N base i j k x / line_root base i j k)))
        * strength_on cpl l c)%C.
  Proof.
    intros NE Hl. rewrite (amplitude_total b s dyn ref cl uc m D Dyn PR F l i j k _ Hl Cy). fold ph dh d. unfold dpd_amplitude.
    fold (chains_in d k).
    assert (T : Re (e_sym (at_point (m_variables m) (dalitz_line base i j k x) cpl) (theta_name i j)) = acos (line_N base i j k x / line_root base i j k)).
    { destruct (chains_in d k) as [|c cs] eqn:E; [contradiction|].
      assert (Ic : In c (chains_in d k)) by (rewrite E; left; reflexivity). apply filter_In in Ic. destruct Ic as [Ic Hk]. apply Z.eqb_eq in Hk.
      destruct (amplitude_formula b s D dyn _ _ _ _ Dyn PR F l i j k Hl Cy (or_intror (proj2 (get_subsystem_ids_In _ _) (ex_intro _ c (conj Ic Hk)))))
          as (_ & (th & T & G) & _).
      rewrite <- (line_theta base i j k Cy BT). cbn [e_sym at_point]. rewrite G, T. reflexivity. }
    rewrite T. apply Csum_ext. intros c Ic. rewrite (line_shape c x cpl cpl Ic).
    rewrite (Csum_pick _ (at4 l 0 + at4 l k)%Z) by (try apply helicities_NoDup; reflexivity).
    unfold strength_on. destruct (memb _ _); [|ring].
    replace (scal (at_point (m_variables m) (dalitz_line base i j k x) cpl) c (at4 l 0 + at4 l k)%Z (at4 l k) (at4 l i) (at4 l j))
      with (scal (Env base cpl) c (at4 l 0 + at4 l k)%Z (at4 l k) (at4 l i) (at4 l j)) by (destruct uc; reflexivity).
    ring.
  Qed.

  Theorem products_observable cpl cpl' l : helicity_tuple s l ->
    (forall x, (lo <= x <= hi)%R -> amp_value (at_point (m_variables m) (dalitz_line base i j k x) cpl) m k l
       = amp_value (at_point (m_variables m) (dalitz_line base i j k x) cpl') m k l) ->
    forall c, In c (chains_in d k) -> ceval (Env base cpl) (fun _ => 0) (de_expr (dyn c)) <> RtoC 0 ->
    In (at4 l 0 + at4 l k)%Z (helicities (p_spin (ch_resonance c))) -> In (at4 l i - at4 l j)%Z (helicities (p_spin (ch_resonance c))) ->
    prod_factor ph c (at4 l 0 + at4 l k)%Z (at4 l k) <> 0%R -> dec_factor dh c (at4 l) <> 0%R ->
    scal (Env base cpl') c (at4 l 0 + at4 l k)%Z (at4 l k) (at4 l i) (at4 l j)
    = scal (Env base cpl) c (at4 l 0 + at4 l k)%Z (at4 l k) (at4 l i) (at4 l j).
  Proof.
    intros Hl A c Ic X Hr Hd Np Nd.
    assert (NE : chains_in d k <> []) by (intros E; rewrite E in Ic; destruct Ic).
    set (M := at4 l 0 + at4 l k) in *. set (M' := at4 l i - at4 l j) in *.
    set (W := fun c => if memb M' (helicities (p_spin (ch_resonance c))) then (strength_on cpl l c - strength_on cpl' l c)%C else RtoC 0).
    assert (E : W c = RtoC 0).
    { apply (waves_zero base i j k lo hi (chains_in d k) (fun c => p_spin (ch_resonance c)) W M M' Cy BT Rg ND); [| |exact Ic].
      - intros c' _ P. rewrite !is_projection_hel in P. apply andb_false_iff in P. unfold W, strength_on. fold M.
        destruct P as [P|P]; rewrite P; [destruct (memb M' _); ring|reflexivity].
      - intros x Hx. pose proof (A x Hx) as Q. rewrite !line_amplitude in Q by assumption. fold M M' in Q.
        assert (Q' : (Csum (chains_in d k) (fun c => RtoC (wigner_d (p_spin (ch_resonance c)) M M' (acos (line_N base i j k x / line_root base i j k))) * W c)
          = Csum (chains_in d k) (fun c => RtoC 1 * (RtoC (wigner_d (p_spin (ch_resonance c)) M M' (acos (line_N base i j k x / line_root base i j k))) * strength_on cpl l c)
              + (- RtoC 1) * (RtoC (wigner_d (p_spin (ch_resonance c)) M M' (acos (line_N base i j k x / line_root base i j k))) * strength_on cpl' l c)))%C).
        { apply Csum_ext. intros c' _. unfold W. destruct (memb M' _) eqn:P; [ring|].
          rewrite wigner_d_out_r; [ring|]. rewrite is_projection_hel. exact P. }
        rewrite Q', Csum_linear, Q. ring. }
    unfold W, strength_on in E. fold M in E. rewrite (proj2 (memb_In _ _) Hr), (proj2 (memb_In _ _) Hd) in E.
    assert (XE : ceval (Env base cpl') (fun _ => 0) (de_expr (dyn c)) = ceval (Env base cpl) (fun _ => 0) (de_expr (dyn c))).
    { rewrite <- (line_shape c lo cpl cpl Ic). symmetry. apply line_shape. exact Ic. }
    rewrite XE in E. clear XE.
    assert (PS : forall z, parity_sign z <> 0%R) by (intros z; unfold parity_sign; destruct (Z.even _); lra).
    assert (P0 : forall x : R, x <> 0%R -> RtoC x <> RtoC 0) by (intros y Hy E0; apply Hy, RtoC_inj, E0).
    assert (N1 : RtoC (parity_sign (p_spin (s k) - at4 l k)%Z * parity_sign (p_spin (s j) - at4 l j)%Z) <> RtoC 0)
      by (apply P0, Rmult_integral_contrapositive_currified; apply PS).
    assert (N2 : RtoC (prod_factor ph c M (at4 l k) * dec_factor dh c (at4 l)) <> RtoC 0)
      by (apply P0, Rmult_integral_contrapositive_currified; assumption).
    revert E N1 N2 X. generalize (RtoC (parity_sign (p_spin (s k) - at4 l k)%Z * parity_sign (p_spin (s j) - at4 l j)%Z)).
    generalize (RtoC (prod_factor ph c M (at4 l k) * dec_factor dh c (at4 l))).
    generalize (ceval (Env base cpl) (fun _ => 0) (de_expr (dyn c))).
    generalize (scal (Env base cpl) c M (at4 l k) (at4 l i) (at4 l j)), (scal (Env base cpl') c M (at4 l k) (at4 l i) (at4 l j)).
    intros u v x q p E Np' Nq Nx. apply NNPP. intros NQ.
    assert (Z : (p * x * q * (u - v))%C = RtoC 0) by (rewrite <- E; ring).
    revert Z. repeat apply Cmult_neq_0; try assumption. intros Z. apply NQ. replace v with (u - (u - v))%C by ring. rewrite Z. ring.
  Qed.
End Observable.

(** ** In the helicity basis the couplings are determined up to one factor for each resonance. *)
Lemma mixed_tuple s l l' i j k : cyclic i j k -> helicity_tuple s l -> helicity_tuple s l' ->
  exists q, helicity_tuple s q /\ at4 q 0 = at4 l 0 /\ at4 q k = at4 l k /\ at4 q i = at4 l' i /\ at4 q j = at4 l' j.
Proof.
  destruct l as [[[a0 a1] a2] a3], l' as [[[b0 b1] b2] b3]. intros Cy (A0 & A1 & A2 & A3) (B0 & B1 & B2 & B3).
  destruct Cy as [E|[E|[E|[]]]]; injection E as <- <- <-.
  - exists (a0, b1, b2, a3). unfold helicity_tuple. cbn [at4]. tauto.
  - exists (a0, a1, b2, b3). unfold helicity_tuple. cbn [at4]. tauto.
  - exists (a0, b1, a2, b3). unfold helicity_tuple. cbn [at4]. tauto.
Qed.
Theorem scale_unique b s dyn ref cl m : std_decay (b_decay b) s -> dynamics_of b dyn -> formulate b ref cl false = Ok m ->
  b_prod_helicity b = true -> b_dec_helicity b = true ->
  forall base i j k lo hi, cyclic i j k -> between_thresholds base i j k -> dalitz_range base i j k lo hi ->
  NoDup (map (fun c => p_spin (ch_resonance c)) (chains_in (b_decay b) k)) ->
  (forall c, In c (chains_in (b_decay b) k) ->
    ~ In (sigma_at i) (symbols_of (de_expr (dyn c))) /\ ~ In (sigma_at j) (symbols_of (de_expr (dyn c)))) ->
  forall cpl cpl',
  (forall l x, helicity_tuple s l -> (lo <= x <= hi)%R -> amp_value (at_point (m_variables m) (dalitz_line base i j k x) cpl) m k l
     = amp_value (at_point (m_variables m) (dalitz_line base i j k x) cpl') m k l) ->
  forall c, In c (chains_in (b_decay b) k) -> ceval (Env base cpl) (fun _ => 0) (de_expr (dyn c)) <> RtoC 0 ->
  let J := p_spin (ch_resonance c) in let label := IStr (p_latex (ch_resonance c)) in
  (forall r lk, cpl (production_name true) [label; IHel r; IHel lk] <> RtoC 0) ->
  (forall li lj, cpl (decay_name true) [label; IHel li; IHel lj] <> RtoC 0) ->
  (exists l, helicity_tuple s l /\ In (at4 l 0 + at4 l k) (helicities J) /\ In (at4 l i - at4 l j) (helicities J)) ->
  exists z, z <> RtoC 0 /\ forall l, helicity_tuple s l ->
    (In (at4 l 0 + at4 l k) (helicities J) ->
       cpl' (production_name true) [label; IHel (at4 l 0 + at4 l k); IHel (at4 l k)]
       = (z * cpl (production_name true) [label; IHel (at4 l 0 + at4 l k)%Z; IHel (at4 l k)])%C) /\
    (In (at4 l i - at4 l j) (helicities J) ->
       cpl' (decay_name true) [label; IHel (at4 l i); IHel (at4 l j)]
       = (cpl (decay_name true) [label; IHel (at4 l i); IHel (at4 l j)] / z)%C).
Proof.
  intros D Dyn F Hp Hd base i j k lo hi Cy BT Rg ND NS cpl cpl' A c Ic X J label Np Nd (l0 & T0 & R0 & D0).
  assert (PR : b_prod_helicity b = false -> plain_resonances (b_decay b)) by (intros E; congruence).
  set (P := fun q : (string -> list ival -> C) => fun l => q (production_name true) [label; IHel (at4 l 0 + at4 l k); IHel (at4 l k)]).
  set (H := fun q : (string -> list ival -> C) => fun l => q (decay_name true) [label; IHel (at4 l i); IHel (at4 l j)]).
  assert (E : forall l l', helicity_tuple s l -> helicity_tuple s l' -> In (at4 l 0 + at4 l k) (helicities J) -> In (at4 l' i - at4 l' j) (helicities J) ->
    (P cpl' l * H cpl' l' = P cpl l * H cpl l')%C).
  { intros l l' T T' Rr Dd. destruct (mixed_tuple s l l' i j k Cy T T') as (q & Tq & E0 & Ek & Ei & Ej).
    pose proof (products_observable b s dyn ref cl false m D Dyn PR F base i j k lo hi Cy BT Rg ND NS cpl cpl' q Tq
      (fun x Hx => A q x Tq Hx) c Ic X) as O.
    rewrite Hp, Hd, E0, Ek, Ei, Ej in O. specialize (O Rr Dd). unfold prod_factor, dec_factor in O.
    assert (N1 : 1%R <> 0%R) by lra. specialize (O N1 N1). unfold coupling_product, coupling_index in O. cbn [e_idx] in O.
    unfold P, H. exact O. }
  assert (NP : forall l, P cpl l <> RtoC 0) by (intros l; apply Np).
  assert (NH : forall l, H cpl l <> RtoC 0) by (intros l; apply Nd).
  assert (NP' : P cpl' l0 <> RtoC 0).
  { intros Q. pose proof (E l0 l0 T0 T0 R0 D0) as Q'. rewrite Q, Cmult_0_l in Q'. symmetry in Q'. revert Q'. apply Cmult_neq_0; [apply NP|apply NH]. }
  assert (NH' : H cpl' l0 <> RtoC 0).
  { intros Q. pose proof (E l0 l0 T0 T0 R0 D0) as Q'. rewrite Q, Cmult_0_r in Q'. symmetry in Q'. revert Q'. apply Cmult_neq_0; [apply NP|apply NH]. }
  assert (DivN : forall u v : C, u <> RtoC 0 -> v <> RtoC 0 -> (u / v)%C <> RtoC 0).
  { intros u v U V Q. apply U. replace u with (u / v * v)%C by (field; exact V). rewrite Q. ring. }
  exists (P cpl' l0 / P cpl l0)%C. split; [apply DivN; [exact NP'|apply NP]|].
  intros l T. split.
  - intros Rr. change (P cpl' l = (P cpl' l0 / P cpl l0 * P cpl l)%C).
    pose proof (E l l0 T T0 Rr D0) as E1. pose proof (E l0 l0 T0 T0 R0 D0) as E2.
    assert (X1 : P cpl' l = (P cpl l * H cpl l0 / H cpl' l0)%C) by (rewrite <- E1; field; exact NH').
    assert (X2 : H cpl l0 = (P cpl' l0 * H cpl' l0 / P cpl l0)%C) by (rewrite E2; field; apply NP).
    rewrite X1, X2. field. split; [apply NP|exact NH'].
  - intros Dd. change (H cpl' l = (H cpl l / (P cpl' l0 / P cpl l0))%C).
    pose proof (E l0 l T0 T R0 Dd) as E1.
    assert (X1 : H cpl' l = (P cpl l0 * H cpl l / P cpl' l0)%C) by (rewrite <- E1; field; exact NP').
    rewrite X1. field. split; first [apply NP|exact NP'].
Qed.

(** ** In the LS basis all couplings of different waves are determined. *)
Lemma partial_wave_diff chains g g' X lam i j k J :
  partial_wave false false chains (fun c _ => (g c - g' c)%C) X lam i j k J
  = (partial_wave false false chains (fun c _ => g c) X lam i j k J - partial_wave false false chains (fun c _ => g' c) X lam i j k J)%C.
Proof.
  unfold partial_wave.
  rewrite (Csum_ext _ _ (fun c => RtoC 1 * Csum (helicities J) (fun r =>
      if ((lam 0 =? r - lam k) && memb (lam i - lam j) (helicities J))%Z then
        (X c * g c * RtoC (prod_factor false c r (lam k) * dec_factor false c lam))%C else RtoC 0)
    + (- RtoC 1) * Csum (helicities J) (fun r =>
      if ((lam 0 =? r - lam k) && memb (lam i - lam j) (helicities J))%Z then
        (X c * g' c * RtoC (prod_factor false c r (lam k) * dec_factor false c lam))%C else RtoC 0))%C).
  - rewrite Csum_linear. ring.
  - intros c _. rewrite <- Csum_linear. apply Csum_ext. intros r _. destruct (_ && _); ring.
Qed.
Lemma Rsum_pos_zero_waves {A} (l : list A) (spin : A -> Z) (f : A -> R) : (forall y, In y l -> 0 <= spin y) ->
  Rsum l (fun y => / IZR (spin y + 1) * f y ^ 2)%R = 0%R -> forall y, In y l -> f y = 0%R.
Proof.
  intros P Z0 y I.
  assert (Pos : forall y, In y l -> (0 < / IZR (spin y + 1))%R).
  { intros q Hq. apply Rinv_0_lt_compat, IZR_lt. pose proof (P q Hq). lia. }
  assert (E : (/ IZR (spin y + 1) * f y ^ 2)%R = 0%R).
  { apply (Rsum_all_zero l (fun y => / IZR (spin y + 1) * f y ^ 2)%R); [|exact Z0|exact I].
    intros q Hq. apply Rmult_le_pos; [left; apply Pos; exact Hq|apply pow2_ge_0]. }
  apply Rmult_integral in E. destruct E as [E|E]; [pose proof (Pos y I); lra|].
  cbn [pow] in E. rewrite Rmult_1_r in E. apply Rmult_integral in E. destruct E; assumption.
Qed.
Theorem ls_determined b s dyn ref cl uc m : std_decay (b_decay b) s -> dynamics_of b dyn -> plain_resonances (b_decay b) ->
  formulate b ref cl uc = Ok m -> b_prod_helicity b = false -> b_dec_helicity b = false ->
  forall base i j k lo hi, cyclic i j k -> between_thresholds base i j k -> dalitz_range base i j k lo hi ->
  one_subsystem (b_decay b) k -> (forall c, In c (d_chains (b_decay b)) -> allowed_chain c) -> NoDup (map wave_of (d_chains (b_decay b))) ->
  (forall c, In c (d_chains (b_decay b)) ->
    ~ In (sigma_at i) (symbols_of (de_expr (dyn c))) /\ ~ In (sigma_at j) (symbols_of (de_expr (dyn c)))) ->
  forall cpl cpl',
  (forall l x, helicity_tuple s l -> (lo <= x <= hi)%R -> amp_value (at_point (m_variables m) (dalitz_line base i j k x) cpl) m k l
     = amp_value (at_point (m_variables m) (dalitz_line base i j k x) cpl') m k l) ->
  forall c, In c (d_chains (b_decay b)) -> ceval (Env base cpl) (fun _ => 0) (de_expr (dyn c)) <> RtoC 0 ->
  forall r lk li lj, (if uc then coefficient else coupling_product) (Env base cpl') false false c r lk li lj
    = (if uc then coefficient else coupling_product) (Env base cpl) false false c r lk li lj.
Proof.
  intros D Dyn PR F Hp Hd base i j k lo hi Cy BT Rg One Al ND NS cpl cpl' A c0 I0 X0.
  set (g := fun (q : string -> list ival -> C) c => (if uc then coefficient else coupling_product) (Env base q) false false c 0 0 0 0).
  assert (Eg : forall q c r lk li lj, (if uc then coefficient else coupling_product) (Env base q) false false c r lk li lj = g q c)
    by (intros; unfold g; destruct uc; reflexivity).
  set (X := fun c => ceval (Env base cpl) (fun _ => 0) (de_expr (dyn c))).
  assert (NS' : forall c, In c (chains_in (b_decay b) k) ->
    ~ In (sigma_at i) (symbols_of (de_expr (dyn c))) /\ ~ In (sigma_at j) (symbols_of (de_expr (dyn c))))
    by (intros c Hc; apply filter_In in Hc; apply NS; apply Hc).
  assert (In_k : forall c, In c (d_chains (b_decay b)) -> In c (chains_in (b_decay b) k)).
  { intros c Hc. apply filter_In. split; [exact Hc|]. apply Z.eqb_eq. apply One. exact Hc. }
  assert (Amp : forall q l x, helicity_tuple s l -> amp_value (at_point (m_variables m) (dalitz_line base i j k x) q) m k l
    = (RtoC (parity_sign (p_spin (s k) - at4 l k)%Z * parity_sign (p_spin (s j) - at4 l j)%Z)
       * Csum (resonance_spins (b_decay b)) (fun J => RtoC (wigner_d J (at4 l 0 + at4 l k)%Z (at4 l i - at4 l j)%Z (acos (line_N base i j k x / line_root base i j k)))
           * partial_wave false false (d_chains (b_decay b)) (fun c _ => g q c) X (at4 l) i j k J))%C).
  { intros q l x Hl. rewrite (amplitude_total b s dyn ref cl uc m D Dyn (fun _ => PR) F l i j k _ Hl Cy). rewrite Hp, Hd.
    assert (T : Re (e_sym (at_point (m_variables m) (dalitz_line base i j k x) q) (theta_name i j)) = acos (line_N base i j k x / line_root base i j k)).
    { destruct (amplitude_formula b s D dyn _ _ _ _ Dyn (fun _ => PR) F l i j k Hl Cy (or_intror (proj2 (get_subsystem_ids_In _ _) (ex_intro _ c0 (conj I0 (proj2 One c0 I0))))))
          as (_ & (th & T & G) & _).
      rewrite <- (line_theta base i j k Cy BT). cbn [e_sym at_point]. rewrite G, T. reflexivity. }
    rewrite T.
    rewrite (amplitude_waves false false s (d_chains (b_decay b)) _ _ _ (at4 l) i j k (resonance_spins (b_decay b))).
    - f_equal. apply Csum_ext. intros J _. f_equal. unfold partial_wave. apply Csum_ext. intros c Hc. apply filter_In in Hc. destruct Hc as [Hc _].
      apply Csum_ext. intros r _. destruct (_ && _); [|reflexivity]. unfold X.
      rewrite (line_shape b s dyn ref cl uc m D Dyn F base i j k NS' c x q cpl (In_k c Hc)).
      f_equal. f_equal. unfold g. destruct uc; reflexivity.
    - apply NoDup_nodup.
    - intros c Hc. split; [apply One; exact Hc|]. apply nodup_In. apply in_map_iff. exists c. split; [reflexivity|exact Hc]. }
  assert (W0 : forall l J, helicity_tuple s l -> In J (resonance_spins (b_decay b)) ->
    partial_wave false false (d_chains (b_decay b)) (fun c _ => (g cpl c - g cpl' c)%C) X (at4 l) i j k J = RtoC 0).
  { intros l J Hl HJ.
    set (M := at4 l 0 + at4 l k). set (M' := at4 l i - at4 l j).
    apply (waves_zero base i j k lo hi (resonance_spins (b_decay b)) (fun J => J)
      (fun J => partial_wave false false (d_chains (b_decay b)) (fun c _ => (g cpl c - g cpl' c)%C) X (at4 l) i j k J) M M' Cy BT Rg); [| | |exact HJ].
    - rewrite map_id. apply NoDup_nodup.
    - intros J' _ P. rewrite !is_projection_hel in P. unfold partial_wave. apply Csum_zero. intros c _. apply Csum_zero. intros r Hr.
      destruct (Z.eqb_spec (at4 l 0) (r - at4 l k)) as [E|]; [|reflexivity]. fold M'.
      destruct (memb M' (helicities J')) eqn:E'; [|reflexivity]. exfalso.
      assert (r = M) as -> by (unfold M; lia). rewrite (proj2 (memb_In _ _) Hr) in P. cbn [andb] in P. congruence.
    - intros x Hx. pose proof (A l x Hl Hx) as Q. rewrite !Amp in Q by exact Hl. fold M M' in Q.
      set (ps := RtoC (parity_sign (p_spin (s k) - at4 l k)%Z * parity_sign (p_spin (s j) - at4 l j)%Z)) in Q.
      assert (Nps : ps <> RtoC 0).
      { assert (PS : forall z, parity_sign z <> 0%R) by (intros z; unfold parity_sign; destruct (Z.even _); lra).
        intros E. apply RtoC_inj in E. revert E. apply Rmult_integral_contrapositive_currified; apply PS. }
      assert (Q2 : forall u v : C, (ps * u = ps * v)%C -> u = v).
      { intros u v E. replace u with (ps * u / ps)%C by (field; exact Nps). rewrite E. field. exact Nps. }
      apply Q2 in Q. clear Q2.
      rewrite (Csum_ext _ _ (fun J => RtoC 1 * (RtoC (wigner_d J M M' (acos (line_N base i j k x / line_root base i j k)))
           * partial_wave false false (d_chains (b_decay b)) (fun c _ => g cpl c) X (at4 l) i j k J)
         + (- RtoC 1) * (RtoC (wigner_d J M M' (acos (line_N base i j k x / line_root base i j k)))
           * partial_wave false false (d_chains (b_decay b)) (fun c _ => g cpl' c) X (at4 l) i j k J))%C).
      + rewrite Csum_linear, Q. ring.
      + intros J' _. rewrite partial_wave_diff. ring. }
  pose proof (wave_sum b s D i j k Cy One Al (fun c => (g cpl c - g cpl' c)%C) X) as WS.
  rewrite (Sums.Rsum_zero (tuples s)) in WS.
  2:{ intros l Hl. apply Sums.Rsum_zero. intros J HJ. rewrite W0; [rewrite Cmod_0; ring|apply tuples_In; exact Hl|exact HJ]. }
  symmetry in WS.
  pose proof (eq_trans (eq_sym (different_waves (d_chains (b_decay b))
    (fun q cs => (/ IZR (wave_spin q + 1) * Cmod (Csum cs (fun c => RtoC (cyclic_sign c) * (X c * (g cpl c - g cpl' c)))%C) ^ 2)%R) ND)) WS) as WS'.
  clear WS. rename WS' into WS. cbv beta in WS.
  assert (Pos : forall c, In c (d_chains (b_decay b)) -> 0 <= wave_spin (wave_of c)).
  { intros c Hc. destruct (Al c Hc) as (_ & (ls & _ & (_ & H1))). unfold adds_to in H1. unfold wave_of, wave_spin. cbn [fst]. lia. }
  pose proof (Rsum_pos_zero_waves _ (fun c => wave_spin (wave_of c)) _ Pos WS c0 I0) as Z0. cbn beta in Z0.
  apply Cmod_eq_0 in Z0. cbn [Csum] in Z0.
  intros r lk li lj. rewrite !Eg. apply NNPP. intros N.
  assert (Z1 : (RtoC (cyclic_sign c0) * (X c0 * (g cpl c0 - g cpl' c0)))%C = RtoC 0) by (rewrite <- Z0; ring).
  revert Z1. apply Cmult_neq_0; [|apply Cmult_neq_0; [exact X0|]].
  - intros E. apply RtoC_inj in E. pose proof (cyclic_sign_abs c0) as Ab. rewrite E, Rabs_R0 in Ab. lra.
  - intros E. apply N. replace (g cpl' c0) with (g cpl c0 - (g cpl c0 - g cpl' c0))%C by ring. rewrite E. ring.
Qed.

(** ** Examples: B -> K p pbar with a scalar and a vector that decay to p pbar *)
From Verif Require Import BuilderExamples RelabelExamples RelabelShapeExamples ObsExamples EffectExamples LineshapeFacts.
Local Open Scope string_scope.
Local Open Scope Z_scope.
Local Open Scope list_scope.
Lemma pp_scale_example : exists m lo hi, std_decay pp_decay pp_s /\ dynamics_of pp_b (fun _ => de_unit) /\
  formulate pp_b None false false = Ok m /\ cyclic 2 3 1 /\ between_thresholds (rb_base (id_env 72 24)) 2 3 1 /\
  dalitz_range (rb_base (id_env 72 24)) 2 3 1 lo hi /\ NoDup (map (fun c => p_spin (ch_resonance c)) (chains_in pp_decay 1)) /\
  length (chains_in pp_decay 1) = 2%nat /\
  (forall c, In c (chains_in pp_decay 1) -> forall cpl, ceval (Env (rb_base (id_env 72 24)) cpl) (fun _ => 0) (de_expr de_unit) <> RtoC 0 /\
     exists l, helicity_tuple pp_s l /\ In (at4 l 0 + at4 l 1) (helicities (p_spin (ch_resonance c))) /\
       In (at4 l 2 - at4 l 3) (helicities (p_spin (ch_resonance c)))) /\
  rescaled true true (fun _ => RtoC 2) (fun n _ => if eqb n (production_name true) then RtoC 1 else RtoC 4)
    (fun n _ => RtoC 2).
Proof.
  destruct pp_formulate as (m & F). destruct (c94_range (rb_base (id_env 72 24)) 2 3 1 (or_intror (or_introl eq_refl)) ob_between) as (lo & hi & _ & Rg).
  exists m, lo, hi. split; [exact pp_std|]. split; [exact pp_dyn|]. split; [exact F|]. split; [right; left; reflexivity|].
  split; [exact ob_between|]. split; [exact Rg|]. split; [|split; [reflexivity|split]].
  - vm_compute. repeat constructor; cbn; intuition discriminate.
  - intros c Ic cpl. split.
    + cbn [de_unit de_expr]. rewrite CNum_value. intros E. apply RtoC_inj in E. lra.
    + exists (0, 0, 1, 1). destruct Ic as [<-|[<-|[]]]; vm_compute; tauto.
  - intros label v. split.
    + rewrite (proj2 (Prelude.eqb_eq _ _) eq_refl). rewrite <- RtoC_mult. f_equal. ring.
    + replace (eqb (decay_name true) (production_name true)) with false by reflexivity. rewrite <- RtoC_div by lra. f_equal. field.
Qed.
