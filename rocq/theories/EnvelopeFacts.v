(** Upper bounds on the intensity (C137) *)
From Coq Require Import String ZArith QArith Qcanon List Bool Reals Lia Lra Psatz Permutation.
From Coquelicot Require Import Complex.
From Verif Require Import Prelude Spin Decay Expr Angles Sums Wigner CG CExpr SpecKin SpecDPD Builder
  SpinFacts DecayFacts AnglesFacts WignerFacts CExprFacts BuilderFacts ModelFacts RefFacts LSBasis LSProofs ChainProofs FormProofs HankelFacts SpecObs LegendreFacts ObsProofs SpecEnvelope.
Import ListNotations.
Local Open Scope R_scope.

(** ** The triangle inequality *)
Definition norm {A} (l : list A) (f : A -> C) : R := sqrt (Rsum l (fun x => Cmod (f x) ^ 2)).
Lemma norm_sq_nonneg {A} (l : list A) (f : A -> C) : 0 <= Rsum l (fun x => Cmod (f x) ^ 2).
Proof. apply Rsum_nonneg. intros. apply pow2_ge_0. Qed.
Lemma norm_nonneg {A} (l : list A) (f : A -> C) : 0 <= norm l f.
Proof. apply sqrt_pos. Qed.
Lemma norm_sq {A} (l : list A) (f : A -> C) : norm l f ^ 2 = Rsum l (fun x => Cmod (f x) ^ 2).
Proof. unfold norm. simpl. rewrite Rmult_1_r. apply sqrt_sqrt. apply (norm_sq_nonneg l f). Qed.
Lemma norm_ext {A} (l : list A) (f g : A -> C) : (forall x, In x l -> f x = g x) -> norm l f = norm l g.
Proof. intros H. unfold norm. f_equal. apply Rsum_ext. intros x I. rewrite H by exact I. reflexivity. Qed.
Lemma Re_le_Cmod (z : C) : Re z <= Cmod z.
Proof.
  destruct z as [a b]. unfold Re, Cmod. cbn [fst snd]. destruct (Rle_dec 0 a) as [P|N].
  - rewrite <- (sqrt_square a) at 1 by exact P. apply sqrt_le_1_alt. pose proof (pow2_ge_0 b). nra.
  - apply Rle_trans with 0; [lra|apply sqrt_pos].
Qed.
Lemma norm_plus {A} (l : list A) (f g : A -> C) : norm l (fun x => f x + g x)%C <= norm l f + norm l g.
Proof.
  apply Rsqr_incr_0_var; [|apply Rplus_le_le_0_compat; apply norm_nonneg].
  rewrite !Rsqr_pow2, norm_sq.
  rewrite (Rsum_ext l _ (fun x => Cmod (RtoC 1 * f x + RtoC 1 * g x)%C ^ 2)) by (intros x _; do 2 f_equal; ring).
  rewrite Cmod_sum_combined. replace (Cmod (RtoC 1)) with 1 by (rewrite Cmod_R, Rabs_R1; reflexivity).
  rewrite <- !norm_sq. set (z := Csum l _).
  assert (E : Re (RtoC 1 * Cconj (RtoC 1) * z)%C = Re z) by (destruct z; unfold Re, Cmult, Cconj, RtoC; cbn [fst snd]; ring).
  rewrite E. pose proof (Csum_cauchy l f g) as K. fold z in K. rewrite <- !norm_sq in K.
  assert (B : Cmod z <= norm l f * norm l g).
  { apply Rsqr_incr_0_var; [rewrite !Rsqr_pow2; nra|apply Rmult_le_pos; apply norm_nonneg]. }
  pose proof (Re_le_Cmod z). nra.
Qed.
Lemma norm_sum {A B} (l : list A) (cs : list B) (f : B -> A -> C) :
  norm l (fun x => Csum cs (fun c => f c x)) <= Rsum cs (fun c => norm l (f c)).
Proof.
  induction cs as [|c cs IH]; cbn [Csum Rsum].
  - unfold norm. rewrite Rsum_zero; [rewrite sqrt_0; lra|]. intros x _. rewrite Cmod_0. ring.
  - eapply Rle_trans; [apply (norm_plus l (f c) (fun x => Csum cs (fun c => f c x)))|]. lra.
Qed.

(** ** Alignment *)
Theorem aligned_bound {B} s ks zeta (A : Z -> Z * Z * Z * Z -> C) (cs : list B) (g : B -> Z) (a : B -> Z * Z * Z * Z -> C) :
  NoDup ks -> (forall c, In c cs -> In (g c) ks) ->
  (forall k l, In k ks -> helicity_tuple s l -> A k l = Csum (filter (fun c => g c =? k)%Z cs) (fun c => a c l)) ->
  intensity_value s ks A zeta <= Rsum cs (fun c => norm (tuples s) (a c)) ^ 2.
Proof.
  intros ND Gk HA. unfold intensity_value. rewrite <- norm_sq. apply pow_incr. split; [apply norm_nonneg|].
  rewrite (norm_ext (tuples s) _ (fun l => Csum cs (fun c => Csum (tuples s) (fun l' =>
    RtoC (rot s (fun i => zeta i (g c)) l l') * a c l')%C))).
  - eapply Rle_trans; [apply (norm_sum (tuples s) cs (fun c l => Csum (tuples s) (fun l' => RtoC (rot s (fun i => zeta i (g c)) l l') * a c l')%C))|].
    apply Rsum_le. intros c _. apply Req_le. unfold norm. f_equal.
    apply (orthogonal_complex (tuples s) (rot s (fun i => zeta i (g c))) (a c) eq_dec (tuples_NoDup s) (rot_orthogonal s _)).
  - intros l _. unfold aligned_amplitude. rewrite (Csum_swap cs (tuples s)). apply Csum_ext. intros l' Hl'.
    apply tuples_In in Hl'.
    transitivity (Csum ks (fun k => Csum cs (fun c => if (g c =? k)%Z then (RtoC (rot s (fun i => zeta i (g c)) l l') * a c l')%C else RtoC 0))).
    + apply Csum_ext. intros k Hk. rewrite HA by assumption. rewrite Csum_filter, <- Csum_scal_r. apply Csum_ext. intros c _.
      destruct (Z.eqb_spec (g c) k) as [<-|N]; [unfold rot; ring|ring].
    + rewrite Csum_swap. apply Csum_ext. intros c Hc. rewrite (Csum_single ks (g c)).
      * rewrite Z.eqb_refl. reflexivity.
      * exact ND.
      * apply Gk. exact Hc.
      * intros k _ N. destruct (Z.eqb_spec (g c) k); [congruence|reflexivity].
Qed.

(** ** One chain *)
Lemma wigner_d_bound j m m' x : wigner_d j m m' x ^ 2 <= 1.
Proof.
  destruct (in_dec Z.eq_dec m (spin_range2 j)) as [I|N].
  - pose proof (wigner_d_orthogonal_l j m' m' x) as O. rewrite Z.eqb_refl in O.
    assert (B : wigner_d j m m' x * wigner_d j m m' x <= Rsum (spin_range2 j) (fun k => wigner_d j k m' x * wigner_d j k m' x)).
    { clear O. induction (spin_range2 j) as [|a l IH]; [destruct I|]. cbn [Rsum]. 
      assert (P : 0 <= Rsum l (fun k => wigner_d j k m' x * wigner_d j k m' x)) by (apply Rsum_nonneg; intros; nra).
      destruct I as [->|I]; [lra|]. specialize (IH I). nra. }
    rewrite O in B. destruct (is_projection j m'); cbn [andb] in B; nra.
  - pose proof (wigner_d_orthogonal_r j m m x) as O. rewrite Z.eqb_refl in O.
    assert (E : is_projection j m = false).
    { destruct (is_projection j m) eqn:E; [|reflexivity]. apply is_projection_In in E. contradiction. }
    assert (W : wigner_d j m m' x = 0); [|rewrite W; lra].
    replace x with (0 + x) by ring. rewrite <- wigner_d_group. apply Rsum_zero. intros k _. rewrite wigner_d_0, E. cbn [andb]. ring.
Qed.
Lemma one_of (rs : list Z) (p : Z -> bool) (f : Z -> C) : NoDup rs -> (forall x y, p x = true -> p y = true -> x = y) ->
  Cmod (Csum rs (fun r => if p r then f r else RtoC 0)) ^ 2 = Rsum rs (fun r => if p r then Cmod (f r) ^ 2 else 0).
Proof.
  intros ND P. induction rs as [|r rs IH]; cbn [Csum Rsum]; [rewrite Cmod_0; ring|].
  inversion ND as [|? ? Nr ND']; subst. destruct (p r) eqn:E.
  - rewrite Csum_zero, Rsum_zero; [rewrite Cplus_0_r; ring| |].
    + intros x I. destruct (p x) eqn:F; [|reflexivity]. rewrite (P r x E F) in Nr. contradiction.
    + intros x I. destruct (p x) eqn:F; [|reflexivity]. rewrite (P r x E F) in Nr. contradiction.
  - rewrite Cplus_0_l, IH by exact ND'. ring.
Qed.
Lemma at_most_one (ls : list Z) (p : Z -> bool) v : NoDup ls -> (forall x y, p x = true -> p y = true -> x = y) -> 0 <= v ->
  Rsum ls (fun l => if p l then v else 0) <= v.
Proof.
  intros ND P V. induction ls as [|l ls IH]; cbn [Rsum]; [exact V|].
  inversion ND as [|? ? Nl ND']; subst. destruct (p l) eqn:E.
  - rewrite Rsum_zero; [lra|]. intros x I. destruct (p x) eqn:F; [|reflexivity]. rewrite (P l x E F) in Nl. contradiction.
  - specialize (IH ND'). lra.
Qed.
Definition with_parent (l : Z * Z * Z * Z) (z : Z) : Z * Z * Z * Z := match l with (_, l1, l2, l3) => (z, l1, l2, l3) end.
Lemma tuples_final s f : Rsum (tuples s) f = Rsum (final_tuples s) (fun l => Rsum (helicities (p_spin (s 0%Z))) (fun z => f (with_parent l z))).
Proof.
  rewrite Rsum_swap. unfold tuples, final_tuples. rewrite Rsum_flat_map. apply Rsum_ext. intros l0 _.
  rewrite !Rsum_flat_map. apply Rsum_ext. intros l1 _. rewrite !Rsum_flat_map. apply Rsum_ext. intros l2 _.
  rewrite !Rsum_map. reflexivity.
Qed.
Lemma helicities_NoDup j : NoDup (helicities j).
Proof. rewrite helicities_range. apply spin_range2_NoDup. Qed.
Lemma chain_bound s (W : Z -> Z * Z * Z * Z -> C) (rs : list Z) k : NoDup rs -> In k [1; 2; 3]%Z ->
  (forall r l z, W r (with_parent l z) = W r l) ->
  norm (tuples s) (fun l => Csum rs (fun r => if (at4 l 0 =? r - at4 l k)%Z then W r l else RtoC 0)) ^ 2
  <= Rsum rs (fun r => Rsum (final_tuples s) (fun l => Cmod (W r l) ^ 2)).
Proof.
  intros ND Hk HW. rewrite norm_sq.
  rewrite (Rsum_ext (tuples s) _ (fun l => Rsum rs (fun r => if (at4 l 0 =? r - at4 l k)%Z then Cmod (W r l) ^ 2 else 0))).
  2:{ intros l _. apply (one_of rs (fun r => (at4 l 0 =? r - at4 l k)%Z)); [exact ND|]. intros x y. rewrite !Z.eqb_eq. lia. }
  rewrite Rsum_swap. apply Rsum_le. intros r _. rewrite tuples_final. apply Rsum_le. intros l _.
  rewrite (Rsum_ext _ _ (fun z => if (z =? r - at4 l k)%Z then Cmod (W r l) ^ 2 else 0)).
  - apply (at_most_one _ (fun z => (z =? r - at4 l k)%Z)); [apply helicities_NoDup| |apply pow2_ge_0].
    intros x y. rewrite !Z.eqb_eq. lia.
  - intros z _. rewrite HW. destruct l as [[[l0 l1] l2] l3]. cbn [with_parent].
    destruct Hk as [<-|[<-|[<-|[]]]]; reflexivity.
Qed.

Lemma next_cyclic k : In k [1; 2; 3]%Z -> cyclic (next_label k) (next_label (next_label k)) k.
Proof. intros [<-|[<-|[<-|[]]]]; unfold cyclic; cbn; tauto. Qed.
Lemma next_labels i j k : cyclic i j k -> next_label k = i /\ next_label (next_label k) = j.
Proof. intros [C|[C|[C|[]]]]; inversion C; split; reflexivity. Qed.

Section Envelope.
  Context (b : builder) (s : Z -> state) (D : std_decay (b_decay b) s) (dyn : chain -> defexpr) (ref : option Z) (cl uc : bool) (m : model)
    (Y : dynamics_of b dyn) (P : b_prod_helicity b = false -> plain_resonances (b_decay b)) (F : formulate b ref cl uc = Ok m).
  Let ph := b_prod_helicity b.
  Let dh := b_dec_helicity b.
  Let scal ev := (if uc then coefficient else coupling_product) ev ph dh.
  Let X ev c := ceval ev (fun _ => 0%Z) (de_expr (dyn c)).
  (** the contribution of a chain to the amplitude of its subsystem *)
  Let k_ c := st_index (ch_spectator c).
  Let i_ c := next_label (k_ c).
  Let j_ c := next_label (i_ c).
  Let a ev c (l : Z * Z * Z * Z) : C := Csum (helicities (p_spin (ch_resonance c))) (fun r => if (at4 l 0 =? r - at4 l (k_ c))%Z then
    (RtoC (parity_sign (p_spin (s (k_ c)) - at4 l (k_ c)) * parity_sign (p_spin (s (j_ c)) - at4 l (j_ c)))
     * X ev c * RtoC (wigner_d (p_spin (ch_resonance c)) r (at4 l (i_ c) - at4 l (j_ c)) (Re (e_sym ev (theta_name (i_ c) (j_ c)))))
     * scal ev c r (at4 l (k_ c)) (at4 l (i_ c)) (at4 l (j_ c))
     * RtoC (prod_factor ph c r (at4 l (k_ c)) * dec_factor dh c (at4 l)))%C else RtoC 0).
  Lemma spectator_label c : In c (d_chains (b_decay b)) -> In (k_ c) [1; 2; 3]%Z /\ ch_spectator c = s (k_ c) /\ cyclic (i_ c) (j_ c) (k_ c).
  Proof.
    intros I. destruct (subsystem_chains _ _ D (k_ c) c) as (_ & E & K); [apply filter_In; split; [exact I|apply Z.eqb_refl]|].
    split; [exact K|]. split; [exact E|]. apply next_cyclic. exact K.
  Qed.
  Lemma dec_factor_parent c l z : In c (d_chains (b_decay b)) -> dec_factor dh c (at4 (with_parent l z)) = dec_factor dh c (at4 l).
  Proof.
    intros I. destruct (spectator_label c I) as (K & E & Cy). unfold dec_factor. destruct dh; [reflexivity|].
    destruct (ch_outgoing_ls c) as [ls|]; [|reflexivity].
    assert (A : forall q, In q [1; 2; 3]%Z -> at4 (with_parent l z) q = at4 l q).
    { intros q Hq. destruct l as [[[l0 l1] l2] l3]. destruct Hq as [<-|[<-|[<-|[]]]]; reflexivity. }
    destruct (cyclic_in _ _ _ Cy) as (Ii & Ij & _).
    assert (IX : forall q, In q [1; 2; 3]%Z -> st_index (s q) = q).
    { intros q Hq. apply (sd_index _ _ D). right. exact Hq. }
    destruct (std_products _ _ D (k_ c) (i_ c) (j_ c) c I E Cy) as [->| ->]; rewrite !IX, !A by assumption; reflexivity.
  Qed.
  Lemma parity_sign_abs z : Rabs (parity_sign z) = 1.
  Proof. unfold parity_sign. destruct (Z.even _); [apply Rabs_R1|]. unfold Rabs. destruct (Rcase_abs (-1)); lra. Qed.
  Lemma own_bound ev c : In c (d_chains (b_decay b)) -> norm (tuples s) (a ev c) <= chain_size ph dh s (scal ev) (X ev) c.
  Proof.
    intros I. destruct (spectator_label c I) as (K & E & Cy).
    assert (PB : Rsum (helicities (p_spin (ch_resonance c))) (fun r => Rsum (final_tuples s) (fun l =>
      Cmod (helicity_coupling ph dh (scal ev) c r l) ^ 2)) >= 0).
    { apply Rle_ge, Rsum_nonneg. intros r _. apply Rsum_nonneg. intros. apply pow2_ge_0. }
    assert (N0 : 0 <= chain_size ph dh s (scal ev) (X ev) c) by (apply Rmult_le_pos; [apply Cmod_ge_0|apply sqrt_pos]).
    apply Rsqr_incr_0_var; [|exact N0]. rewrite !Rsqr_pow2. unfold a.
    eapply Rle_trans.
    - apply (chain_bound s (fun r l => (RtoC (parity_sign (p_spin (s (k_ c)) - at4 l (k_ c)) * parity_sign (p_spin (s (j_ c)) - at4 l (j_ c)))
         * X ev c * RtoC (wigner_d (p_spin (ch_resonance c)) r (at4 l (i_ c) - at4 l (j_ c)) (Re (e_sym ev (theta_name (i_ c) (j_ c)))))
         * scal ev c r (at4 l (k_ c)) (at4 l (i_ c)) (at4 l (j_ c))
         * RtoC (prod_factor ph c r (at4 l (k_ c)) * dec_factor dh c (at4 l)))%C) (helicities (p_spin (ch_resonance c))) (k_ c)
         (helicities_NoDup _) K).
      intros r l z. rewrite dec_factor_parent by exact I.
      destruct (cyclic_in _ _ _ Cy) as (Ii & Ij & _).
      assert (A : forall q, In q [1; 2; 3]%Z -> at4 (with_parent l z) q = at4 l q).
      { intros q Hq. destruct l as [[[l0 l1] l2] l3]. destruct Hq as [<-|[<-|[<-|[]]]]; reflexivity. }
      rewrite !A by assumption. reflexivity.
    - unfold chain_size. rewrite Rpow_mult_distr.
      replace (sqrt _ ^ 2) with (Rsum (helicities (p_spin (ch_resonance c))) (fun r => Rsum (final_tuples s) (fun l =>
        Cmod (helicity_coupling ph dh (scal ev) c r l) ^ 2))) by (rewrite <- Rsqr_pow2, Rsqr_sqrt; [reflexivity|lra]).
      rewrite <- Rsum_scal_l. apply Rsum_le. intros r _. rewrite <- Rsum_scal_l. apply Rsum_le. intros l _.
      unfold helicity_coupling. fold (k_ c). fold (i_ c). fold (j_ c).
      rewrite !Cmod_mult, !Cmod_R, Rabs_mult, !parity_sign_abs.
      pose proof (wigner_d_bound (p_spin (ch_resonance c)) r (at4 l (i_ c) - at4 l (j_ c)) (Re (e_sym ev (theta_name (i_ c) (j_ c))))) as B.
      rewrite <- pow2_abs in B. set (w := Rabs (wigner_d _ _ _ _)) in *. set (x := Cmod (X ev c)). set (y := Cmod (scal _ _ _ _ _ _)).
      set (z := Rabs (prod_factor _ _ _ _ * _)). clearbody w x y z.
      replace ((1 * 1 * x * w * y * z) ^ 2) with ((x * y * z) ^ 2 * w ^ 2) by ring.
      replace (x ^ 2 * (y * z) ^ 2) with ((x * y * z) ^ 2 * 1) by ring.
      apply Rmult_le_compat_l; [apply pow2_ge_0|exact B].
  Qed.
  Theorem c137_envelope ev : Re (full_value ev m) <= Rsum (d_chains (b_decay b)) (chain_size ph dh s (scal ev) (X ev)) ^ 2.
  Proof.
    destruct (intensity_formula b s D ref cl uc m F) as (r & ks & _ & Hks & V). rewrite V. unfold Re, RtoC. cbn [fst].
    assert (Kin : forall k, In k ks <-> In k (get_subsystem_ids (b_decay b))) by (intros k; apply (ids_123 b ks k); exact Hks).
    eapply Rle_trans.
    - apply (aligned_bound s ks _ (amp_value ev m) (d_chains (b_decay b)) k_ (a ev)).
      + eapply Permutation_NoDup; [|unfold get_subsystem_ids; apply to_set_NoDup]. apply sorted_perm. exact Hks.
      + intros c I. apply Kin. apply get_subsystem_ids_In. exists c. auto.
      + intros k l Hk Hl. assert (Cy : exists i j, cyclic i j k).
        { apply Kin in Hk. apply (ids_range b s D) in Hk. destruct Hk as [<-|[<-|[<-|[]]]]; eexists; eexists; apply next_cyclic; simpl; tauto. }
        destruct Cy as (i & j & Cy). rewrite (amplitude_total b s dyn ref cl uc m D Y P F l i j k ev Hl Cy).
        unfold dpd_amplitude. apply Csum_ext. intros c Ic. apply filter_In in Ic. destruct Ic as [I Ek]. apply Z.eqb_eq in Ek.
        unfold a. fold (k_ c) in Ek. 
        assert (Ei : i_ c = i /\ j_ c = j).
        { unfold j_, i_. rewrite Ek. apply next_labels. exact Cy. }
        destruct Ei as [-> ->]. rewrite Ek. reflexivity.
    - apply pow_incr. split; [apply Rsum_nonneg; intros; apply norm_nonneg|]. apply Rsum_le. intros c I. apply own_bound. exact I.
  Qed.
End Envelope.

(** ** LS couplings *)
Lemma vertex_norm J j1 j2 c : (0 <= J)%Z -> (0 <= j1)%Z -> (0 <= j2)%Z ->
  Rsum (helicities j1) (fun l1 => Rsum (helicities j2) (fun l2 => ls_factor J c j1 l1 j2 l2 ^ 2)) <= 1.
Proof.
  intros HJ H1 H2.
  destruct (CG.triangle j1 j2 (ls_S c)) eqn:T1; [destruct (CG.triangle (2 * ls_L c) (ls_S c) J) eqn:T2|].
  - pose proof (ls_orthonormal J j1 j2 c c HJ H1 H2 (conj T1 T2) (conj T1 T2)) as O.
    destruct (eq_dec c c) as [_|N]; [|destruct (N eq_refl)].
    rewrite (Rsum_ext _ _ (fun l1 => Rsum (helicities j2) (fun l2 => ls_factor J c j1 l1 j2 l2 * ls_factor J c j1 l1 j2 l2))); [lra|].
    intros l1 _. apply Rsum_ext. intros l2 _. ring.
  - rewrite Rsum_zero; [lra|]. intros l1 _. apply Rsum_zero. intros l2 _. unfold ls_factor.
    rewrite (cg_out (2 * ls_L c)); [ring|]. unfold cg_couples. rewrite T2. apply andb_false_r.
  - rewrite Rsum_zero; [lra|]. intros l1 _. apply Rsum_zero. intros l2 _. unfold ls_factor.
    rewrite (cg_out j1); [ring|]. unfold cg_couples. rewrite T1. apply andb_false_r.
Qed.
Lemma final_factors s i j k (f : Z -> R) (g : Z -> Z -> R) : cyclic i j k ->
  Rsum (final_tuples s) (fun l => f (at4 l k) * g (at4 l i) (at4 l j))
  = Rsum (helicities (p_spin (s k))) f * Rsum (helicities (p_spin (s i))) (fun a => Rsum (helicities (p_spin (s j))) (g a)).
Proof.
  intros Cy. unfold final_tuples. rewrite Rsum_flat_map.
  set (h1 := helicities (p_spin (s 1%Z))). set (h2 := helicities (p_spin (s 2%Z))). set (h3 := helicities (p_spin (s 3%Z))).
  rewrite (Rsum_ext h1 _ (fun l1 => Rsum h2 (fun l2 => Rsum h3 (fun l3 => f (at4 (0, l1, l2, l3)%Z k) * g (at4 (0, l1, l2, l3)%Z i) (at4 (0, l1, l2, l3)%Z j))))).
  2:{ intros l1 _. rewrite Rsum_flat_map. apply Rsum_ext. intros l2 _. rewrite Rsum_map. reflexivity. }
  destruct Cy as [C|[C|[C|[]]]]; inversion C; subst i j k; cbn [at4]; fold h1 h2 h3.
  - rewrite <- Rsum_scal_l. apply Rsum_ext. intros l1 _. rewrite <- Rsum_scal_l. apply Rsum_ext. intros l2 _. apply Rsum_scal_r.
  - rewrite <- Rsum_scal_r. apply Rsum_ext. intros l1 _. rewrite <- Rsum_scal_l. apply Rsum_ext. intros l2 _. rewrite <- Rsum_scal_l. reflexivity.
  - rewrite Rsum_swap, <- Rsum_scal_r. apply Rsum_ext. intros l2 _. rewrite Rsum_swap, <- Rsum_scal_l. apply Rsum_ext. intros l3 _.
    rewrite Rsum_scal_l. reflexivity.
Qed.

Section LS.
  Context (b : builder) (s : Z -> state) (D : std_decay (b_decay b) s).
  Lemma ls_size c (scal : chain -> Z -> Z -> Z -> Z -> C) X v : In c (d_chains (b_decay b)) ->
    (forall r lk li lj, scal c r lk li lj = v) -> chain_size false false s scal X c <= Cmod (X c) * Cmod v.
  Proof.
    intros I Sc. destruct (spectator_label b s D c I) as (K & E & Cy).
    unfold chain_size, helicity_coupling. set (k := st_index (ch_spectator c)) in *. set (i := next_label k) in *. set (j := next_label i) in *.
    set (jR := p_spin (ch_resonance c)).
    assert (IX : forall q, In q [1; 2; 3]%Z -> st_index (s q) = q) by (intros q Hq; apply (sd_index _ _ D); right; exact Hq).
    assert (SP : forall q, In q [1; 2; 3]%Z -> (0 <= p_spin (s q))%Z) by (intros q Hq; apply (sd_spin _ _ D); right; exact Hq).
    destruct (cyclic_in _ _ _ Cy) as (Ii & Ij & _).
    apply Rmult_le_compat_l; [apply Cmod_ge_0|]. rewrite <- (sqrt_square (Cmod v)) by apply Cmod_ge_0. apply sqrt_le_1_alt.
    (* the two factors *)
    assert (PF : 0 <= Rsum (helicities jR) (fun r => Rsum (helicities (p_spin (s k))) (fun lk => prod_factor false c r lk ^ 2)) <= 1).
    { split; [apply Rsum_nonneg; intros; apply Rsum_nonneg; intros; apply pow2_ge_0|].
      unfold prod_factor. rewrite (std_parent _ _ D c I), E. fold jR.
      destruct (ch_incoming_ls c) as [ls|]; [|rewrite Rsum_zero; [lra|intros; apply Rsum_zero; intros; ring]].
      destruct (Z_lt_le_dec jR 0) as [L|G].
      { unfold helicities at 1. replace (Z.to_nat (jR + 1)) with 0%nat by lia. cbn. lra. }
      destruct (resonance_first c).
      - apply vertex_norm; [apply (sd_spin _ _ D); simpl; auto|exact G|apply SP; exact K].
      - rewrite Rsum_swap. apply vertex_norm; [apply (sd_spin _ _ D); simpl; auto|apply SP; exact K|exact G]. }
    assert (DF : (0 <= jR)%Z -> exists h, (forall l, dec_factor false c (at4 l) = h (at4 l i) (at4 l j)) /\
      Rsum (helicities (p_spin (s i))) (fun a => Rsum (helicities (p_spin (s j))) (fun a' => h a a' ^ 2)) <= 1).
    { intros G. unfold dec_factor. destruct (ch_outgoing_ls c) as [ls|].
      2:{ exists (fun _ _ => 0). split; [reflexivity|]. rewrite Rsum_zero; [lra|intros; apply Rsum_zero; intros; ring]. }
      destruct (std_products _ _ D k i j c I E Cy) as [->| ->]; rewrite !IX by assumption; fold jR.
      - exists (fun a a' => ls_factor jR ls (p_spin (s i)) a (p_spin (s j)) a'). split; [reflexivity|].
        apply vertex_norm; auto.
      - exists (fun a a' => ls_factor jR ls (p_spin (s j)) a' (p_spin (s i)) a). split; [reflexivity|].
        rewrite Rsum_swap. apply vertex_norm; auto. }
    destruct (Z_lt_le_dec jR 0) as [L|G].
    { unfold helicities. replace (Z.to_nat (jR + 1)) with 0%nat by lia. cbn. pose proof (Cmod_ge_0 v). nra. }
    destruct (DF G) as (h & Hh & HN).
    rewrite (Rsum_ext _ _ (fun r => (Cmod v * Cmod v) * (Rsum (helicities (p_spin (s k))) (fun lk => prod_factor false c r lk ^ 2)
      * Rsum (helicities (p_spin (s i))) (fun a => Rsum (helicities (p_spin (s j))) (fun a' => h a a' ^ 2))))).
    - rewrite Rsum_scal_l, Rsum_scal_r. set (p := Rsum (helicities jR) _) in *.
      set (q := Rsum (helicities (p_spin (s i))) _) in *.
      assert (Q : 0 <= q) by (apply Rsum_nonneg; intros; apply Rsum_nonneg; intros; apply pow2_ge_0).
      rewrite <- (Rmult_1_r (Cmod v * Cmod v)) at 2. apply Rmult_le_compat_l; [pose proof (Cmod_ge_0 v); nra|].
      clearbody p q. nra.
    - intros r _. rewrite <- (final_factors s i j k (fun lk => prod_factor false c r lk ^ 2) (fun a a' => h a a' ^ 2) Cy), <- Rsum_scal_l.
      apply Rsum_ext. intros l _. rewrite Sc, Cmod_mult, Cmod_R, Rabs_mult, Hh.
      rewrite !Rpow_mult_distr, !pow2_abs. ring.
  Qed.
  Theorem c137_LS dyn ref cl uc m ev : dynamics_of b dyn -> plain_resonances (b_decay b) -> formulate b ref cl uc = Ok m ->
    b_prod_helicity b = false -> b_dec_helicity b = false ->
    Re (full_value ev m) <= Rsum (d_chains (b_decay b)) (fun c => Cmod (ceval ev (fun _ => 0%Z) (de_expr (dyn c)))
      * Cmod ((if uc then coefficient else coupling_product) ev false false c 0%Z 0%Z 0%Z 0%Z)) ^ 2.
  Proof.
    intros Y P F Hp Hd. eapply Rle_trans; [apply (c137_envelope b s D dyn ref cl uc m Y (fun _ => P) F ev)|].
    rewrite Hp, Hd. apply pow_incr. split.
    - apply Rsum_nonneg. intros c _. apply Rmult_le_pos; [apply Cmod_ge_0|apply sqrt_pos].
    - apply Rsum_le. intros c I. apply (ls_size c _ (fun c => ceval ev (fun _ => 0%Z) (de_expr (dyn c)))); [exact I|].
      intros r lk li lj. destruct uc; reflexivity.
  Qed.
End LS.

(** ** The bound is attained *)
Lemma legendre_1 n : legendre n 1 = 1.
Proof.
  pose proof (wigner_d_legendre n 0) as E. rewrite cos_0, wigner_d_0 in E. rewrite <- E. clear E.
  replace (is_projection (2 * Z.of_nat n) 0) with true; [reflexivity|]. symmetry. apply WignerFacts.is_projection_spec.
  rewrite Z.sub_0_r, Z.even_mul. split; [lia|reflexivity].
Qed.
Lemma tri a b c : (Z.abs (a - b) <= c)%Z -> (c <= a + b)%Z -> Z.even (a + b - c) = true -> CG.triangle a b c = true.
Proof. intros A B E. unfold CG.triangle. rewrite E, (proj2 (Z.leb_le _ _) A), (proj2 (Z.leb_le _ _) B). reflexivity. Qed.
Lemma production_unit n : ls_factor 0 (LS (Z.of_nat n) (2 * Z.of_nat n)) (2 * Z.of_nat n) 0 0 0 ^ 2 = 1
  /\ ls_factor 0 (LS (Z.of_nat n) (2 * Z.of_nat n)) 0 0 (2 * Z.of_nat n) 0 ^ 2 = 1.
Proof.
  assert (T : CG.triangle (2 * Z.of_nat n) (2 * Z.of_nat n) 0 = true).
  { apply tri; rewrite ?Z.even_sub, ?Z.even_add, ?Z.even_mul; (lia || reflexivity). }
  assert (Z0 : helicities 0 = [0%Z]) by reflexivity.
  assert (I0 : In 0%Z (helicities (2 * Z.of_nat n))).
  { rewrite helicities_range. apply is_projection_In, WignerFacts.is_projection_spec. rewrite Z.sub_0_r, Z.even_mul. split; [lia|reflexivity]. }
  split.
  - pose proof (ls_orthonormal 0 (2 * Z.of_nat n) 0 (LS (Z.of_nat n) (2 * Z.of_nat n)) (LS (Z.of_nat n) (2 * Z.of_nat n))) as O.
    destruct (eq_dec _ _) as [_|N]; [|destruct (N eq_refl)]. rewrite <- O; clear O; try lia.
    + rewrite (Rsum_single _ 0%Z); [rewrite Z0; cbn [Rsum]; ring|apply helicities_NoDup|exact I0|].
      intros x _ N. rewrite Z0. cbn [Rsum]. rewrite ls_factor_out by lia. ring.
    + split; cbn [ls_L ls_S]; [apply tri|exact T]; rewrite ?Z.even_sub, ?Z.even_add, ?Z.even_mul; (lia || reflexivity).
    + split; cbn [ls_L ls_S]; [apply tri|exact T]; rewrite ?Z.even_sub, ?Z.even_add, ?Z.even_mul; (lia || reflexivity).
  - pose proof (ls_orthonormal 0 0 (2 * Z.of_nat n) (LS (Z.of_nat n) (2 * Z.of_nat n)) (LS (Z.of_nat n) (2 * Z.of_nat n))) as O.
    destruct (eq_dec _ _) as [_|N]; [|destruct (N eq_refl)]. rewrite <- O; clear O; try lia.
    + rewrite Z0. cbn [Rsum]. rewrite (Rsum_single _ 0%Z); [ring|apply helicities_NoDup|exact I0|].
      intros x _ N. rewrite ls_factor_out by lia. ring.
    + split; cbn [ls_L ls_S]; [apply tri|exact T]; rewrite ?Z.even_sub, ?Z.even_add, ?Z.even_mul; (lia || reflexivity).
    + split; cbn [ls_L ls_S]; [apply tri|exact T]; rewrite ?Z.even_sub, ?Z.even_add, ?Z.even_mul; (lia || reflexivity).
Qed.
Lemma decay_unit n : ls_factor (2 * Z.of_nat n) (LS (Z.of_nat n) 0) 0 0 0 0 ^ 2 = 1.
Proof.
  pose proof (ls_orthonormal (2 * Z.of_nat n) 0 0 (LS (Z.of_nat n) 0) (LS (Z.of_nat n) 0)) as O.
  destruct (eq_dec _ _) as [_|N]; [|destruct (N eq_refl)].
  assert (Ph : physical_ls (2 * Z.of_nat n) 0 0 (LS (Z.of_nat n) 0)).
  { split; cbn [ls_L ls_S]; apply tri; rewrite ?Z.even_sub, ?Z.even_add, ?Z.even_mul; (lia || reflexivity). }
  rewrite <- O by (lia || exact Ph). change (helicities 0) with [0%Z]. cbn [Rsum]. ring.
Qed.
Theorem c137_attained b s dyn ref cl uc m c n ev : std_decay (b_decay b) s -> dynamics_of b dyn -> plain_resonances (b_decay b) ->
  formulate b ref cl uc = Ok m -> b_prod_helicity b = false -> b_dec_helicity b = false ->
  spinless s -> d_chains (b_decay b) = [c] -> p_spin (ch_resonance c) = (2 * Z.of_nat n)%Z ->
  ch_incoming_ls c = Some (LS (Z.of_nat n) (2 * Z.of_nat n)) -> ch_outgoing_ls c = Some (LS (Z.of_nat n) 0) ->
  Re (e_sym ev (chain_angle c)) = 0 ->
  Re (full_value ev m) = (Cmod (ceval ev (fun _ => 0%Z) (de_expr (dyn c)))
    * Cmod ((if uc then coefficient else coupling_product) ev false false c 0%Z 0%Z 0%Z 0%Z)) ^ 2.
Proof.
  intros D Y P F Hp Hd Sp Ec Js Li Lo Th.
  assert (I : In c (d_chains (b_decay b))) by (rewrite Ec; left; reflexivity).
  rewrite (c93 b s dyn ref cl uc m D Y (fun _ => P) F Sp).
  2:{ intros c' I'. rewrite Ec in I'. destruct I' as [<-|[]]. exists n. exact Js. }
  rewrite Ec, Hp, Hd. unfold Re at 1, RtoC at 1. cbn [fst Csum]. rewrite Cplus_0_r, Th, cos_0, legendre_1, !Cmod_mult, !Cmod_R, Rabs_R1.
  destruct (spectator_label b s D c I) as (K & E & Cy).
  assert (S0 : forall q, In q [1; 2; 3]%Z -> p_spin (s q) = 0%Z) by (intros q Hq; apply Sp; right; exact Hq).
  assert (U : prod_factor false c 0 0 ^ 2 = 1).
  { unfold prod_factor. rewrite Li, (std_parent _ _ D c I), E, Js, (S0 _ K), (Sp 0%Z) by (simpl; auto).
    destruct (resonance_first c); apply production_unit. }
  assert (U' : dec_factor false c (fun _ => 0%Z) ^ 2 = 1).
  { unfold dec_factor. rewrite Lo, Js. destruct (cyclic_in _ _ _ Cy) as (Ii & Ij & _).
    destruct (std_products _ _ D _ _ _ c I E Cy) as [->| ->]; rewrite !S0 by assumption; apply decay_unit. }
  rewrite Rabs_mult. rewrite <- pow2_abs in U, U'.
  set (p := Rabs (prod_factor _ _ _ _)) in *. set (q := Rabs (dec_factor _ _ _)) in *.
  set (X := Cmod (ceval _ _ _)). set (z := Cmod _). clearbody p q X z.
  transitivity ((X * z) ^ 2 * (p ^ 2 * q ^ 2)); [ring|]. rewrite U, U'. ring.
Qed.
