(** Interference between any number of contributions *)
From Coq Require Import String ZArith QArith Qcanon Qreals List Bool Reals Lia Lra Permutation Sorted.
From Coquelicot Require Import Complex.
From Verif Require Import Prelude Spin Decay Expr Angles Sums Wigner CG CExpr SpecKin SpecDPD Builder
  SpinFacts DecayFacts AnglesFacts WignerFacts CExprFacts BuilderFacts ModelFacts RefFacts ChainProofs
  SpecForm FormProofs SpecParity InterferenceFacts SpecFractions.
Import ListNotations.
Local Open Scope string_scope.
Local Open Scope Z_scope.
Local Open Scope list_scope.

(** ** Sums of squares *)
Lemma Csum_conj {A} (l : list A) f : Cconj (Csum l f) = Csum l (fun x => Cconj (f x)).
Proof.
  induction l as [|a l IH]; cbn [Csum]; [apply injective_projections; cbn; ring|]. rewrite <- IH.
  unfold Cconj. apply injective_projections; cbn; ring.
Qed.
Lemma Cconj_mult (x y : C) : (Cconj (x * y) = Cconj x * Cconj y)%C.
Proof. destruct x, y. apply injective_projections; cbn; ring. Qed.
Lemma Cconj_conj (x : C) : Cconj (Cconj x) = x.
Proof. destruct x. apply injective_projections; cbn; ring. Qed.
Lemma Cmod_conj (x : C) : RtoC (Cmod x ^ 2) = (x * Cconj x)%C.
Proof. rewrite Cmod_sq. destruct x. apply injective_projections; cbn; ring. Qed.

(** Gram matrix of vectors [v x] with components in [ls] *)
Section Gram.
  Context {A L : Type}.
  Variables (ls : list L) (v : A -> L -> C).
  Definition gram (x y : A) : C := Csum ls (fun l => v x l * Cconj (v y l))%C.
  Lemma gram_interference : interference (fun x => RtoC (Rsum ls (fun l => Cmod (v x l) ^ 2)%R)) gram.
  Proof.
    split.
    - intros x. unfold gram. rewrite <- Csum_RtoC. apply Csum_ext. intros l _. symmetry. apply Cmod_conj.
    - intros x y. unfold gram. rewrite Csum_conj. apply Csum_ext. intros l _. rewrite Cconj_mult, Cconj_conj. ring.
    - intros x y. cbn [Re fst RtoC]. apply Csum_cauchy.
  Qed.
  Lemma gram_sum (xs : list (C * A)) (w : L -> C) : (forall l, In l ls -> w l = Csum xs (fun x => fst x * v (snd x) l)%C) ->
    RtoC (Rsum ls (fun l => Cmod (w l) ^ 2)%R) = Csum xs (fun x => Csum xs (fun y => fst x * Cconj (fst y) * gram (snd x) (snd y))%C).
  Proof.
    intros E. rewrite <- Csum_RtoC.
    transitivity (Csum ls (fun l => Csum xs (fun x => Csum xs (fun y =>
      (fst x * v (snd x) l) * Cconj (fst y * v (snd y) l))%C))).
    { apply Csum_ext. intros l Hl. rewrite Cmod_conj, (E l Hl), Csum_conj, <- Csum_scal_r. apply Csum_ext. intros x _.
      rewrite <- Csum_scal_l. reflexivity. }
    rewrite Csum_swap. apply Csum_ext. intros x _. rewrite Csum_swap. apply Csum_ext. intros y _. unfold gram.
    rewrite <- Csum_scal_l. apply Csum_ext. intros l _. rewrite Cconj_mult. ring.
  Qed.
End Gram.

(** A Hermitian double sum in terms of pairs *)
Lemma Csum_pairs {A} (l : list A) value G : interference value G ->
  Csum l (fun x => Csum l (fun y => G x y)) = (Csum l value + Csum (pairs l) (fun xy => RtoC (2 * Re (G (fst xy) (snd xy)))))%C.
Proof.
  intros H. induction l as [|a l IH]; cbn [Csum pairs]; [ring|].
  rewrite Csum_app, Csum_map. cbn [fst snd].
  rewrite Csum_plus, IH, (if_diagonal _ _ H).
  assert (E : (Csum l (fun y => G a y) + Csum l (fun x => G x a))%C = Csum l (fun y => RtoC (2 * Re (G a y)))).
  { rewrite <- Csum_plus. apply Csum_ext. intros y _. rewrite (if_hermitian _ _ H a y). destruct (G a y).
    apply injective_projections; cbn; ring. }
  rewrite <- E. ring.
Qed.
Lemma pairs_bound {A} (l : list A) value G : interference value G -> (forall x, (0 <= Re (value x))%R) ->
  (Re (Csum l (fun x => Csum l (fun y => G x y))) <= INR (length l) * Re (Csum l value))%R.
Proof.
  intros H Pos.
  assert (Rs : forall (f : A -> C) l', Re (Csum l' f) = Rsum l' (fun x => Re (f x))).
  { intros f. induction l' as [|a l' IH]; cbn [Csum Rsum]; [reflexivity|]. rewrite <- IH. reflexivity. }
  assert (B : forall x y, (Re (G x y) <= (Re (value x) + Re (value y)) / 2)%R).
  { intros x y. pose proof (if_bound _ _ H x y) as Bd. pose proof (Pos x). pose proof (Pos y).
    assert (Q : (Re (G x y) ^ 2 <= Re (value x) * Re (value y))%R).
    { eapply Rle_trans; [|exact Bd]. rewrite Cmod_sq. unfold Re. nra. }
    destruct (Rle_dec (Re (G x y)) ((Re (value x) + Re (value y)) / 2)) as [|N]; [assumption|].
    exfalso. apply Rnot_le_lt in N. set (u := Re (value x)) in *. set (w := Re (value y)) in *. set (g := Re (G x y)) in *.
    assert ((u + w) / 2 * ((u + w) / 2) < g * g)%R by (apply Rmult_le_0_lt_compat; lra).
    pose proof (Rle_0_sqr (u - w)) as Sq. unfold Rsqr in Sq. nra. }
  assert (Mono : forall (f g : A -> R) l', (forall x, (f x <= g x)%R) -> (Rsum l' f <= Rsum l' g)%R).
  { intros f g l' L. induction l' as [|a l' IH]; cbn [Rsum]; [lra|]. pose proof (L a). lra. }
  assert (Cst : forall (c : R) (l' : list A), Rsum l' (fun _ => c) = (INR (length l') * c)%R).
  { intros c. induction l' as [|a l' IH]; cbn [Rsum length]; [change (INR 0) with 0%R; ring|]. rewrite IH, S_INR. ring. }
  rewrite !Rs. set (V := Rsum l (fun x => Re (value x))).
  apply Rle_trans with (Rsum l (fun x => (INR (length l) * (Re (value x) / 2) + V / 2)%R)).
  - apply Mono. intros x. rewrite Rs.
    apply Rle_trans with (Rsum l (fun y => (Re (value x) / 2 + (1 / 2) * Re (value y))%R)).
    + apply Mono. intros y. pose proof (B x y). lra.
    + rewrite Rsum_plus, Cst, Rsum_scal_l. fold V. lra.
  - rewrite Rsum_plus, Cst.
    replace (Rsum l (fun x => (INR (length l) * (Re (value x) / 2))%R)) with (INR (length l) / 2 * V)%R.
    + lra.
    + unfold V. rewrite <- Rsum_scal_l. apply Rsum_ext. intros x _. field.
Qed.

(** ** Superpositions of couplings *)
Lemma dpd_superposed {A} ph dh s chains (xs : list (C * A)) (sc : A -> chain -> Z -> C) X theta lam i j k :
  dpd_amplitude ph dh s chains (fun c r => Csum xs (fun x => fst x * sc (snd x) c r)%C) X theta lam i j k
  = Csum xs (fun x => fst x * dpd_amplitude ph dh s chains (sc (snd x)) X theta lam i j k)%C.
Proof.
  induction xs as [|x xs IH]; cbn [Csum].
  - unfold dpd_amplitude. apply Csum_zero. intros c _. apply Csum_zero. intros r _. destruct (_ =? _); ring.
  - rewrite <- IH. unfold dpd_amplitude. rewrite <- Csum_scal_l, <- Csum_plus. apply Csum_ext. intros c _.
    rewrite <- Csum_scal_l, <- Csum_plus. apply Csum_ext. intros r _. destruct (_ =? _); ring.
Qed.
Lemma aligned_list {A} s ks zeta (xs : list (C * A)) (a : Z -> Z * Z * Z * Z -> C) (f : A -> Z -> Z * Z * Z * Z -> C) l :
  (forall k l', In k ks -> helicity_tuple s l' -> a k l' = Csum xs (fun x => fst x * f (snd x) k l')%C) ->
  aligned_amplitude s ks a zeta l = Csum xs (fun x => fst x * aligned_amplitude s ks (f (snd x)) zeta l)%C.
Proof.
  intros E. transitivity (aligned_amplitude s ks (fun k l' => Csum xs (fun x => fst x * f (snd x) k l')%C) zeta l).
  { unfold aligned_amplitude. apply Csum_ext. intros l' Hl'. apply tuples_In in Hl'. apply Csum_ext. intros k Hk. rewrite E by auto. reflexivity. }
  clear E. unfold aligned_amplitude. induction xs as [|x xs IH]; cbn [Csum].
  - apply Csum_zero. intros l' _. apply Csum_zero. intros k _. ring.
  - rewrite <- IH, <- Csum_scal_l, <- Csum_plus. apply Csum_ext. intros l' _.
    rewrite <- Csum_scal_l, <- Csum_plus. apply Csum_ext. intros k _. ring.
Qed.
Section Superposition.
  Variables (b : builder) (s : Z -> state) (dyn : chain -> defexpr) (ref : option Z) (cl uc : bool) (m : model).
  Hypothesis D : std_decay (b_decay b) s.
  Hypothesis Y : dynamics_of b dyn.
  Hypothesis P : b_prod_helicity b = false -> plain_resonances (b_decay b).
  Hypothesis F : formulate b ref cl uc = Ok m.
  Variables (names : string -> Prop).
  Hypothesis N : one_factor b uc names.

  Lemma scalar_superposed base xs cpl c r lk li lj : superposed names xs cpl ->
    (let f cpl := (if uc then coefficient else coupling_product) (Env base cpl) (b_prod_helicity b) (b_dec_helicity b) c r lk li lj in
     f cpl = Csum xs (fun x => fst x * f (snd x)))%C.
  Proof.
    intros Co. cbv zeta. unfold one_factor in N. destruct uc.
    - unfold coefficient. cbn [e_idx]. apply (Co _ _). apply N.
    - unfold coupling_product. cbn [e_idx]. pose proof (names_differ (b_prod_helicity b) (b_dec_helicity b)) as Df.
      destruct N as [Np|Nd].
      + match goal with |- (cpl ?p ?i1 * cpl ?q ?i2)%C = _ =>
          destruct (Co p i1) as [E _]; destruct (Co q i2) as [_ E2] end.
        rewrite E by (apply Np; reflexivity). rewrite <- Csum_scal_r. apply Csum_ext. intros x Hx.
        rewrite (E2 ltac:(rewrite Np; congruence) x Hx). ring.
      + match goal with |- (cpl ?p ?i1 * cpl ?q ?i2)%C = _ =>
          destruct (Co p i1) as [_ E2]; destruct (Co q i2) as [E _] end.
        rewrite E by (apply Nd; reflexivity). rewrite <- Csum_scal_l. apply Csum_ext. intros x Hx.
        rewrite (E2 ltac:(rewrite Nd; congruence) x Hx). ring.
  Qed.
  Lemma amp_superposed base xs cpl k l : superposed names xs cpl -> In k [1; 2; 3] -> helicity_tuple s l ->
    amp_value (Env base cpl) m k l = Csum xs (fun x => fst x * amp_value (Env base (snd x)) m k l)%C.
  Proof.
    intros Co Hk Hl. destruct (cyclic_ex k Hk) as (i & j & Cy).
    rewrite (amplitude_total b s dyn ref cl uc m D Y P F l i j k _ Hl Cy).
    transitivity (dpd_amplitude (b_prod_helicity b) (b_dec_helicity b) s (d_chains (b_decay b))
      (fun c r => Csum xs (fun x => fst x * (if uc then coefficient else coupling_product) (Env base (snd x))
         (b_prod_helicity b) (b_dec_helicity b) c r (at4 l k) (at4 l i) (at4 l j))%C)
      (fun c => ceval (Env base cpl) (fun _ => 0) (de_expr (dyn c))) (Re (base (theta_name i j))) (at4 l) i j k).
    { unfold dpd_amplitude. apply Csum_ext. intros c _. apply Csum_ext. intros r _. cbn [e_sym].
      rewrite (scalar_superposed base xs cpl c r _ _ _ Co). reflexivity. }
    rewrite (dpd_superposed _ _ s (d_chains (b_decay b)) xs (fun x c r => (if uc then coefficient else coupling_product) (Env base x)
         (b_prod_helicity b) (b_dec_helicity b) c r (at4 l k) (at4 l i) (at4 l j))).
    apply Csum_ext. intros x _. f_equal. rewrite (amplitude_total b s dyn ref cl uc m D Y P F l i j k _ Hl Cy).
    unfold dpd_amplitude. apply Csum_ext. intros c Ic. apply filter_In in Ic. destruct Ic as [Ic _]. apply Csum_ext. intros r _.
    rewrite (lineshape_eval (Env base (snd x)) (Env base cpl) (fun _ => 0) (fun _ => 0) _ (proj2 (Y c Ic))) by auto.
    reflexivity.
  Qed.
  Lemma aligned_superposed base xs cpl ks zeta l : superposed names xs cpl -> (forall k, In k ks -> In k [1; 2; 3]) ->
    aligned_amplitude s ks (amp_value (Env base cpl) m) zeta l
    = Csum xs (fun x => fst x * aligned_amplitude s ks (amp_value (Env base (snd x)) m) zeta l)%C.
  Proof.
    intros Co Hks. apply (aligned_list s ks zeta xs _ (fun c => amp_value (Env base c) m) l). intros k l' Hk Hl'. apply amp_superposed; auto.
  Qed.
  Lemma c122_couplings base : exists G, interference (fun c => full_value (Env base c) m) G /\
    forall xs cpl, superposed names xs cpl ->
      full_value (Env base cpl) m = Csum xs (fun x => Csum xs (fun y => fst x * Cconj (fst y) * G (snd x) (snd y))%C).
  Proof.
    destruct (intensity_formula b s D ref cl uc m F) as (r & ks & E & S & V).
    assert (Hks : forall k, In k ks -> In k [1; 2; 3]).
    { intros k Hk. apply (ids_range b s D). apply (ids_123 _ _ _ S). exact Hk. }
    set (z := fun i k => Re (base (zeta_symbol i k r))).
    set (A := fun cpl => aligned_amplitude s ks (amp_value (Env base cpl) m) z).
    assert (V' : forall c, full_value (Env base c) m = RtoC (Rsum (tuples s) (fun l => Cmod (A c l) ^ 2)%R)) by (intros c; apply V).
    exists (gram (tuples s) A). split.
    - destruct (gram_interference (tuples s) A) as [I1 I2 I3]. split; [intros x; rewrite V'; apply I1|exact I2|].
      intros x y. rewrite !V'. apply I3.
    - intros xs cpl Co. rewrite V'. apply gram_sum. intros l _. unfold A. apply aligned_superposed; auto.
  Qed.
End Superposition.

(** ** Parts of a model *)
Lemma in_part (ps : list part) (p : part) b : Permutation (d_chains (b_decay b)) (flat_map (fun p => d_chains (b_decay (pt_builder p))) ps) ->
  In p ps -> incl (d_chains (b_decay (pt_builder p))) (d_chains (b_decay b)).
Proof.
  intros Pm Hp c Hc. apply (Permutation_in _ (Permutation_sym Pm)), in_flat_map. exists p. auto.
Qed.
Section Parts.
  Variables (b : builder) (s : Z -> state) (dyn : chain -> defexpr) (ref : option Z) (cl uc : bool) (m : model) (r : Z) (ps : list part).
  Hypothesis D : std_decay (b_decay b) s.
  Hypothesis Y : dynamics_of b dyn.
  Hypothesis P : b_prod_helicity b = false -> plain_resonances (b_decay b).
  Hypothesis F : formulate b ref cl uc = Ok m.
  Hypothesis R : resolve_reference (b_decay b) ref = Ok r.
  Hypothesis Pm : Permutation (d_chains (b_decay b)) (flat_map (fun p => d_chains (b_decay (pt_builder p))) ps).
  Hypothesis Ps : forall p, In p ps -> is_part b s dyn uc r p.

  Lemma amp_parts ev k l : In k [1; 2; 3] -> helicity_tuple s l ->
    amp_value ev m k l = Csum ps (fun p => amp_value ev (pt_model p) k l).
  Proof.
    intros Hk Hl. destruct (cyclic_ex k Hk) as (i & j & Cy).
    rewrite (amplitude_total b s dyn ref cl uc m D Y P F l i j k ev Hl Cy). unfold dpd_amplitude.
    rewrite Csum_filter, (Csum_perm _ _ _ Pm), Csum_flat_map. apply Csum_ext. intros p Hp.
    destruct (Ps p Hp) as [D1 Y1 E1 E2 F1 _].
    rewrite (amplitude_total (pt_builder p) s dyn _ _ uc (pt_model p) D1 Y1 (sub_plain b (pt_builder p) P E1 (in_part ps p b Pm Hp)) F1 l i j k ev Hl Cy).
    unfold dpd_amplitude. rewrite Csum_filter, E1, E2. reflexivity.
  Qed.
  Lemma c122_parts ev : exists G : part -> part -> C,
    (forall p, In p ps -> G p p = full_value ev (pt_model p)) /\
    (forall p q, G q p = Cconj (G p q)) /\
    (forall p q, In p ps -> In q ps ->
       (Cmod (G p q) ^ 2 <= Re (full_value ev (pt_model p)) * Re (full_value ev (pt_model q)))%R) /\
    full_value ev m = (Csum ps (fun p => full_value ev (pt_model p)) + Csum (pairs ps) (fun pq => RtoC (2 * Re (G (fst pq) (snd pq)))))%C /\
    (Re (full_value ev m) <= INR (length ps) * Rsum ps (fun p => Re (full_value ev (pt_model p))))%R.
  Proof.
    set (z := fun i k => Re (e_sym ev (zeta_symbol i k r))).
    set (A := fun p => aligned_amplitude s [1; 2; 3] (amp_value ev (pt_model p)) z).
    assert (V : forall p, In p ps -> full_value ev (pt_model p) = RtoC (Rsum (tuples s) (fun l => Cmod (A p l) ^ 2)%R)).
    { intros p Hp. destruct (Ps p Hp) as [D1 Y1 E1 E2 F1 R1].
      exact (intensity_all (pt_builder p) s dyn _ _ uc (pt_model p) r D1 Y1 (sub_plain b (pt_builder p) P E1 (in_part ps p b Pm Hp)) F1 R1 ev). }
    pose proof (gram_interference (tuples s) A) as H. set (v := fun p => RtoC (Rsum (tuples s) (fun l => (Cmod (A p l) ^ 2)%R))) in H.
    assert (T : full_value ev m = Csum ps (fun p => Csum ps (fun q => gram (tuples s) A p q))).
    { rewrite (intensity_all b s dyn ref cl uc m r D Y P F R ev).
      transitivity (Csum (map (fun p => (RtoC 1, p)) ps) (fun x => Csum (map (fun p => (RtoC 1, p)) ps)
        (fun y => fst x * Cconj (fst y) * gram (tuples s) A (snd x) (snd y))%C)).
      - unfold intensity_value. fold z. apply gram_sum. intros l _. unfold A.
        rewrite (aligned_list s [1; 2; 3] z (map (fun p => (RtoC 1, p)) ps) (amp_value ev m) (fun p => amp_value ev (pt_model p)) l).
        + reflexivity.
        + intros k l' Hk Hl'. rewrite Csum_map. cbn [fst snd]. rewrite (amp_parts ev k l' Hk Hl'). apply Csum_ext. intros p _. ring.
      - rewrite Csum_map. apply Csum_ext. intros p _. rewrite Csum_map. apply Csum_ext. intros q _. cbn [fst snd].
        destruct (gram (tuples s) A p q). apply injective_projections; cbn; ring. }
    exists (gram (tuples s) A). split; [|split; [exact (if_hermitian _ _ H)|split; [|split]]].
    - intros p Hp. rewrite (V p Hp). apply (if_diagonal _ _ H).
    - intros p q Hp Hq. rewrite (V p Hp), (V q Hq). apply (if_bound _ _ H).
    - rewrite T, (Csum_pairs ps v _ H). f_equal. apply Csum_ext. intros p Hp. symmetry. apply V. exact Hp.
    - rewrite T. eapply Rle_trans; [apply (pairs_bound ps v _ H)|].
      + intros p. unfold v. cbn [Re fst RtoC]. apply Rsum_nonneg. intros l _. apply pow2_ge_0.
      + apply Req_le. f_equal. clear T. unfold v. rewrite Csum_RtoC. cbn [Re fst RtoC]. apply Rsum_ext. intros p Hp. rewrite (V p Hp). reflexivity.
  Qed.
End Parts.
