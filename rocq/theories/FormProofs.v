(** The intensity is a Hermitian form of the couplings. *)
From Coq Require Import String ZArith QArith Qcanon Qreals List Bool Reals Lia Lra Psatz Permutation Sorted.
From Coquelicot Require Import Complex.
From Verif Require Import Prelude Spin Decay Expr Angles Sums Wigner CG CExpr SpecKin SpecDPD Builder
  SpinFacts DecayFacts AnglesFacts WignerFacts CExprFacts BuilderFacts ModelFacts RefFacts ChainProofs SpecBuilder SpecForm.
Import ListNotations.
Local Open Scope string_scope.
Local Open Scope Z_scope.
Local Open Scope list_scope.

Lemma Csum_linear {A} (l : list A) (a b : C) f g :
  Csum l (fun x => a * f x + b * g x)%C = (a * Csum l f + b * Csum l g)%C.
Proof. induction l as [|x l IH]; cbn [Csum]; [ring|]. rewrite IH. ring. Qed.

(** Cauchy-Schwarz *)
Lemma Rsum_cauchy {A} (l : list A) (f g : A -> R) :
  (Rsum l (fun x => f x * g x) ^ 2 <= Rsum l (fun x => f x ^ 2) * Rsum l (fun x => g x ^ 2))%R.
Proof.
  induction l as [|x l IH]; cbn [Rsum]; [lra|].
  set (S := Rsum l (fun x => f x * g x)%R) in *. set (X := Rsum l (fun x => f x ^ 2)%R) in *. set (Y := Rsum l (fun x => g x ^ 2)%R) in *.
  assert (PX : (0 <= X)%R) by (apply Rsum_nonneg; intros; apply pow2_ge_0).
  assert (PY : (0 <= Y)%R) by (apply Rsum_nonneg; intros; apply pow2_ge_0).
  assert (K : (2 * S * f x * g x <= X * g x ^ 2 + Y * f x ^ 2)%R).
  { apply Rsqr_incr_0_var.
    - unfold Rsqr. assert (K1 : (S ^ 2 * (f x * g x) ^ 2 <= X * Y * (f x * g x) ^ 2)%R).
      { apply Rmult_le_compat_r; [apply pow2_ge_0|exact IH]. }
      pose proof (pow2_ge_0 (X * g x ^ 2 - Y * f x ^ 2)). nra.
    - pose proof (pow2_ge_0 (f x)). pose proof (pow2_ge_0 (g x)). nra. }
  nra.
Qed.
Lemma Csum_cauchy {A} (l : list A) (u v : A -> C) :
  (Cmod (Csum l (fun x => u x * Cconj (v x))%C) ^ 2 <= Rsum l (fun x => Cmod (u x) ^ 2) * Rsum l (fun x => Cmod (v x) ^ 2))%R.
Proof.
  eapply Rle_trans; [|apply (Rsum_cauchy l (fun x => Cmod (u x)) (fun x => Cmod (v x)))].
  apply pow_incr. split; [apply Cmod_ge_0|].
  induction l as [|x l IH]; cbn [Csum Rsum]; [rewrite Cmod_0; lra|].
  eapply Rle_trans; [apply Cmod_triangle|]. rewrite Cmod_mult. apply Rplus_le_compat; [|exact IH].
  apply Req_le. f_equal. unfold Cmod, Cconj. cbn [fst snd]. f_equal. ring.
Qed.
Lemma Cmod_combined (a b u v : C) :
  (Cmod (a * u + b * v)%C ^ 2 =
   Cmod a ^ 2 * Cmod u ^ 2 + Cmod b ^ 2 * Cmod v ^ 2 + 2 * Re (a * Cconj b * (u * Cconj v))%C)%R.
Proof.
  rewrite !Cmod_sq. destruct a, b, u, v. unfold Cconj, Cmult, Cplus, Re, Im. cbn [fst snd]. ring.
Qed.
Lemma Cmod_sum_combined {A} (l : list A) (a b : C) (u v : A -> C) :
  Rsum l (fun x => Cmod (a * u x + b * v x)%C ^ 2)%R =
  (Cmod a ^ 2 * Rsum l (fun x => Cmod (u x) ^ 2) + Cmod b ^ 2 * Rsum l (fun x => Cmod (v x) ^ 2)
   + 2 * Re (a * Cconj b * Csum l (fun x => u x * Cconj (v x)))%C)%R.
Proof.
  induction l as [|x l IH]; cbn [Csum Rsum].
  - destruct a, b. unfold Cconj, Cmult, Re, RtoC. cbn [fst snd]. ring.
  - rewrite IH, Cmod_combined. set (S := Csum l _). set (w := (u x * Cconj (v x))%C). clearbody S w.
    set (c := (a * Cconj b)%C). clearbody c. destruct c, S, w. unfold Cmult, Cplus, Re. cbn [fst snd]. ring.
Qed.

(** The bases of the couplings *)
Lemma names_differ ph dh : production_name ph <> decay_name dh.
Proof. destruct ph, dh; cbn; discriminate. Qed.

Section Form.
  Variables (b : builder) (s : Z -> state) (dyn : chain -> defexpr) (ref : option Z) (cl uc : bool) (m : model).
  Hypothesis D : std_decay (b_decay b) s.
  Hypothesis Y : dynamics_of b dyn.
  Hypothesis P : b_prod_helicity b = false -> plain_resonances (b_decay b).
  Hypothesis F : formulate b ref cl uc = Ok m.
  Variables (names : string -> Prop).
  Hypothesis N : one_factor b uc names.

  Lemma scalar_linear base x y cpl1 cpl2 cpl c r lk li lj : combined names x y cpl1 cpl2 cpl ->
    (let f cpl := (if uc then coefficient else coupling_product) (Env base cpl) (b_prod_helicity b) (b_dec_helicity b) c r lk li lj in
     f cpl = x * f cpl1 + y * f cpl2)%C.
  Proof.
    intros Co. cbv zeta. unfold one_factor in N. destruct uc.
    - unfold coefficient. cbn [e_idx]. apply (Co _ _). apply N.
    - unfold coupling_product. cbn [e_idx]. pose proof (names_differ (b_prod_helicity b) (b_dec_helicity b)) as Df.
      destruct N as [Np|Nd].
      + match goal with |- (cpl ?p ?i1 * cpl ?q ?i2)%C = _ =>
          destruct (Co p i1) as [E _]; destruct (Co q i2) as [_ E2] end.
        rewrite E by (apply Np; reflexivity). destruct E2 as [E2 E3]; [rewrite Np; congruence|]. rewrite E2, E3. ring.
      + match goal with |- (cpl ?p ?i1 * cpl ?q ?i2)%C = _ =>
          destruct (Co p i1) as [_ E2]; destruct (Co q i2) as [E _] end.
        rewrite E by (apply Nd; reflexivity). destruct E2 as [E2 E3]; [rewrite Nd; congruence|]. rewrite E2, E3. ring.
  Qed.

  Lemma amp_linear base x y cpl1 cpl2 cpl k l : combined names x y cpl1 cpl2 cpl -> In k [1; 2; 3] -> helicity_tuple s l ->
    amp_value (Env base cpl) m k l =
    (x * amp_value (Env base cpl1) m k l + y * amp_value (Env base cpl2) m k l)%C.
  Proof.
    intros Co Hk Hl. destruct (cyclic_ex k Hk) as (i & j & Cy).
    rewrite !(amplitude_total b s dyn ref cl uc m D Y P F l i j k _ Hl Cy). unfold dpd_amplitude.
    rewrite <- Csum_linear. apply Csum_ext. intros c Ic. apply filter_In in Ic. destruct Ic as [Ic _].
    rewrite <- Csum_linear. apply Csum_ext. intros r _. cbn [e_sym].
    destruct (_ =? _); [|ring].
    rewrite (scalar_linear base x y cpl1 cpl2 cpl c r _ _ _ Co).
    rewrite (lineshape_eval (Env base cpl1) (Env base cpl) (fun _ => 0) (fun _ => 0) _ (proj2 (Y c Ic))) by auto.
    rewrite (lineshape_eval (Env base cpl2) (Env base cpl) (fun _ => 0) (fun _ => 0) _ (proj2 (Y c Ic))) by auto.
    ring.
  Qed.
  Lemma aligned_linear base x y cpl1 cpl2 cpl ks zeta l : combined names x y cpl1 cpl2 cpl ->
    (forall k, In k ks -> In k [1; 2; 3]) ->
    aligned_amplitude s ks (amp_value (Env base cpl) m) zeta l =
    (x * aligned_amplitude s ks (amp_value (Env base cpl1) m) zeta l
     + y * aligned_amplitude s ks (amp_value (Env base cpl2) m) zeta l)%C.
  Proof.
    intros Co Hks. unfold aligned_amplitude. rewrite <- Csum_linear. apply Csum_ext. intros l' Hl'.
    apply tuples_In in Hl'. rewrite <- Csum_linear. apply Csum_ext. intros k Hk.
    rewrite (amp_linear base x y cpl1 cpl2 cpl k l' Co (Hks k Hk) Hl'). ring.
  Qed.

  Lemma c95_interference base cpl1 cpl2 : exists H : C,
    (Cmod H ^ 2 <= Re (full_value (Env base cpl1) m) * Re (full_value (Env base cpl2) m))%R /\
    forall x y cpl, combined names x y cpl1 cpl2 cpl ->
      full_value (Env base cpl) m =
      RtoC (Cmod x ^ 2 * Re (full_value (Env base cpl1) m) + Cmod y ^ 2 * Re (full_value (Env base cpl2) m)
            + 2 * Re (x * Cconj y * H)%C)%R.
  Proof.
    destruct (intensity_formula b s D ref cl uc m F) as (r & ks & E & S & V).
    assert (Hks : forall k, In k ks -> In k [1; 2; 3]).
    { intros k Hk. apply (ids_range b s D). apply (ids_123 _ _ _ S). exact Hk. }
    set (z := fun i k => Re (base (zeta_symbol i k r))).
    set (A := fun cpl => aligned_amplitude s ks (amp_value (Env base cpl) m) z).
    exists (Csum (tuples s) (fun l => A cpl1 l * Cconj (A cpl2 l))%C).
    rewrite !V. cbn [Re fst RtoC]. unfold intensity_value. cbn [e_sym]. fold z.
    split; [apply Csum_cauchy|]. intros x y cpl Co. rewrite V. f_equal. unfold intensity_value. cbn [e_sym]. fold z.
    rewrite <- Cmod_sum_combined. apply Rsum_ext. intros l _. do 2 f_equal.
    exact (aligned_linear base x y cpl1 cpl2 cpl ks z l Co Hks).
  Qed.

  Lemma c95_scale base z cpl cpl' : combined names z (RtoC 0) cpl cpl cpl' ->
    full_value (Env base cpl') m = (RtoC (Cmod z ^ 2) * full_value (Env base cpl) m)%C.
  Proof.
    intros Co. destruct (c95_interference base cpl cpl) as (H & _ & X). rewrite (X _ _ _ Co).
    destruct (intensity_formula b s D ref cl uc m F) as (r & ks & _ & _ & V). rewrite V. cbn [Re fst RtoC].
    rewrite <- RtoC_mult. f_equal. rewrite Cmod_0. destruct z, H. unfold Cconj, Cmult, Re, RtoC. cbn [fst snd]. ring.
  Qed.
  Lemma c95_parallelogram base cpl1 cpl2 cplp cplm :
    combined names (RtoC 1) (RtoC 1) cpl1 cpl2 cplp -> combined names (RtoC 1) (- RtoC 1)%C cpl1 cpl2 cplm ->
    (full_value (Env base cplp) m + full_value (Env base cplm) m =
     RtoC 2 * full_value (Env base cpl1) m + RtoC 2 * full_value (Env base cpl2) m)%C.
  Proof.
    intros Cp Cm. destruct (c95_interference base cpl1 cpl2) as (H & _ & X). rewrite (X _ _ _ Cp), (X _ _ _ Cm).
    destruct (intensity_formula b s D ref cl uc m F) as (r & ks & _ & _ & V). rewrite !V. cbn [Re fst RtoC].
    rewrite <- !RtoC_mult, <- !RtoC_plus. f_equal. rewrite Cmod_opp, Cmod_1. destruct H.
    unfold Cconj, Cmult, Copp, Re, RtoC. cbn [fst snd]. ring.
  Qed.
End Form.
