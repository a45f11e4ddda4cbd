(** Upper bounds on the intensity of serialised models (C137) *)
From Coq Require Import String ZArith QArith Qcanon List Bool Reals Lia Lra Psatz Permutation Sorted.
From Coquelicot Require Import Complex.
From Verif Require Import Prelude Spin Decay Expr Angles Sums Wigner CG CExpr SpecKin SpecDPD Builder
  SpinFacts DecayFacts AnglesFacts WignerFacts CExprFacts BuilderFacts ModelFacts RefFacts LSBasis LSProofs ChainProofs FormProofs HankelFacts
  SerFormat SerDynamics SpecSerial SerAmpFacts SerModel SerProofs SpecEnvelope EnvelopeFacts.
From Verif Require SerAmplitude SerDecay.
Import ListNotations.
Local Open Scope R_scope.

Lemma delta_norm {A} (L : list A) (p : A -> bool) : NoDup L -> (forall x y, p x = true -> p y = true -> x = y) ->
  norm L (fun x => if p x then RtoC 1 else RtoC 0) <= 1.
Proof.
  intros ND P. unfold norm. apply Rle_trans with (sqrt 1); [apply sqrt_le_1_alt|rewrite sqrt_1; lra].
  rewrite (Rsum_ext L _ (fun x => if p x then 1 else 0)).
  2:{ intros x _. destruct (p x); rewrite Cmod_R, ?Rabs_R1, ?Rabs_R0; ring. }
  induction L as [|a L IH]; cbn [Rsum]; [lra|]. inversion ND as [|? ? Na ND']; subst. destruct (p a) eqn:E.
  - rewrite Rsum_zero; [lra|]. intros x I. destruct (p x) eqn:F; [|reflexivity]. rewrite (P a x E F) in Na. contradiction.
  - specialize (IH ND'). lra.
Qed.
Lemma norm_scale {A} (L : list A) (z : C) f : norm L (fun x => z * f x)%C = Cmod z * norm L f.
Proof.
  unfold norm. rewrite (Rsum_ext L _ (fun x => Cmod z ^ 2 * Cmod (f x) ^ 2)) by (intros x _; rewrite Cmod_mult; ring).
  rewrite Rsum_scal_l, sqrt_mult_alt by apply pow2_ge_0. f_equal. rewrite <- Rsqr_pow2. apply sqrt_Rsqr, Cmod_ge_0.
Qed.
Lemma flip_norm {A} (L : list A) (p q : A -> bool) f : NoDup L -> (forall x y, p x = true -> p y = true -> x = y) ->
  (forall x y, q x = true -> q y = true -> x = y) ->
  Rsum L (fun x => ((if p x then 1 else 0) + IZR f * (if q x then 1 else 0)) ^ 2) <= (1 + Rabs (IZR f)) ^ 2.
Proof.
  intros ND P Q.
  rewrite (Rsum_ext L _ (fun x => Cmod ((if p x then RtoC 1 else RtoC 0) + RtoC (IZR f) * (if q x then RtoC 1 else RtoC 0))%C ^ 2)).
  2:{ intros x _. rewrite <- (pow2_abs (_ + _)), <- Cmod_R. do 2 f_equal.
      destruct (p x), (q x); rewrite RtoC_plus, RtoC_mult; reflexivity. }
  rewrite <- norm_sq. apply pow_incr. split; [apply norm_nonneg|].
  eapply Rle_trans; [apply (norm_plus L (fun x => if p x then RtoC 1 else RtoC 0) (fun x => RtoC (IZR f) * (if q x then RtoC 1 else RtoC 0))%C)|].
  rewrite (norm_scale L (RtoC (IZR f)) (fun x => if q x then RtoC 1 else RtoC 0)), Cmod_R.
  pose proof (delta_norm L p ND P). pose proof (delta_norm L q ND Q). pose proof (Rabs_pos (IZR f)).
  pose proof (norm_nonneg L (fun x => if q x then RtoC 1 else RtoC 0)). nra.
Qed.
Lemma coupling_second js f r b0 : NoDup js -> Rsum js (fun b => coupling_of f r b r b0 ^ 2) <= (1 + Rabs (IZR f)) ^ 2.
Proof.
  intros ND. apply (flip_norm js (fun b => (r =? r) && (b =? b0))%bool%Z (fun b => (r =? - r) && (b =? - b0))%bool%Z f ND);
    intros x y; rewrite !andb_true_iff, !Z.eqb_eq; lia.
Qed.
Lemma coupling_both is js f a0 b0 : NoDup is -> NoDup js ->
  Rsum is (fun a => Rsum js (fun b => coupling_of f a b a0 b0 ^ 2)) <= (1 + Rabs (IZR f)) ^ 2.
Proof.
  intros N1 N2. pose proof (Rsum_list_prod is js (fun q => coupling_of f (fst q) (snd q) a0 b0 ^ 2)) as E. cbn [fst snd] in E. rewrite <- E. clear E.
  apply (flip_norm (list_prod is js) (fun q => (fst q =? a0) && (snd q =? b0))%bool%Z (fun q => (fst q =? - a0) && (snd q =? - b0))%bool%Z f).
  - clear - N1 N2. induction N1 as [|a is Na N1 IH]; cbn [list_prod]; [constructor|]. 
    apply NoDup_app2; [| |].
    3:{ intros [u v] I I'. apply in_map_iff in I. destruct I as (z & E & _). inversion E; subst. apply in_prod_iff in I'. tauto. }
    2:{ exact IH. }
    apply FinFun.Injective_map_NoDup; [intros u v; congruence|exact N2].
  - intros [x1 x2] [y1 y2]. cbn [fst snd]. rewrite !andb_true_iff, !Z.eqb_eq. intros [-> ->] [-> ->]. reflexivity.
  - intros [x1 x2] [y1 y2]. cbn [fst snd]. rewrite !andb_true_iff, !Z.eqb_eq. intros [-> ->] [-> ->]. reflexivity.
Qed.

Lemma final_factors_perm s i j k (f : Z -> R) (g : Z -> Z -> R) : Permutation [i; j; k] [1; 2; 3]%Z ->
  Rsum (final_tuples s) (fun l => f (at4 l k) * g (at4 l i) (at4 l j))
  = Rsum (helicities (p_spin (s k))) f * Rsum (helicities (p_spin (s i))) (fun a => Rsum (helicities (p_spin (s j))) (g a)).
Proof.
  intros Pm. assert (Cy : cyclic i j k \/ cyclic j i k).
  { apply SerDecay.perm_123 in Pm. unfold cyclic. destruct Pm as [E|[E|[E|[E|[E|[E|[]]]]]]]; inversion E; simpl; tauto. }
  destruct Cy as [Cy|Cy]; [apply final_factors; exact Cy|].
  rewrite (final_factors s j i k f (fun a a' => g a' a) Cy). f_equal. apply Rsum_swap.
Qed.

Section Serial.
  Context (m : model_def) (d : distribution) (s : Z -> state) (r : Z)
    (tl : string -> string) (additional : option (dict string prop_builder))
    (x : chain_def -> content) (w : chain_def -> symbol) (dyn : chain_def -> defexpr)
    (H : helicity_definition m d s r tl additional x w dyn) (cl : bool) (M : model)
    (F : SerAmplitude.formulate m cl tl additional = Ok M).
  Let size := serial_size x w dyn.
  Lemma serial_chain_bound ev c : (0 <= p_spin (s 0%Z))%Z -> Permutation [ct_i (x c); ct_j (x c); ct_k (x c)] [1; 2; 3]%Z ->
    norm (tuples s) (fun l => chain_contribution x w dyn ev l c) <= sqrt (IZR (p_spin (s 0%Z) + 1)) * size ev c.
  Proof.
    intros J0 Pm. set (J := p_spin (s 0%Z)) in *.
    assert (JP : 0 <= IZR (J + 1)) by (apply IZR_le; lia).
    assert (F0 : 0 <= 1 + Rabs (IZR (ct_fp (x c)))) by (pose proof (Rabs_pos (IZR (ct_fp (x c)))); lra).
    assert (F1 : 0 <= 1 + Rabs (IZR (ct_fd (x c)))) by (pose proof (Rabs_pos (IZR (ct_fd (x c)))); lra).
    assert (SZ : 0 <= size ev c).
    { unfold size, serial_size. repeat apply Rmult_le_pos; try apply Cmod_ge_0; assumption. }
    apply Rsqr_incr_0_var; [|apply Rmult_le_pos; [apply sqrt_pos|exact SZ]].
    rewrite Rsqr_mult, Rsqr_sqrt by exact JP. rewrite !Rsqr_pow2, norm_sq, tuples_final.
    set (a := Cmod (e_sym ev (w c)) * Cmod (ceval ev (fun _ => 0%Z) (de_expr (dyn c)))).
    apply Rle_trans with (Rsum (final_tuples s) (fun l => IZR (J + 1) * a ^ 2 *
      (coupling_of (ct_fp (x c)) (ct_r (x c)) (at4 l (ct_k (x c))) (ct_r (x c)) (ct_lk (x c)) ^ 2
       * coupling_of (ct_fd (x c)) (at4 l (ct_i (x c))) (at4 l (ct_j (x c))) (ct_li (x c)) (ct_lj (x c)) ^ 2))).
    - apply Rsum_le. intros l _.
      apply Rle_trans with (Rsum (helicities J) (fun _ =>
        a ^ 2 * (coupling_of (ct_fp (x c)) (ct_r (x c)) (at4 l (ct_k (x c))) (ct_r (x c)) (ct_lk (x c)) ^ 2
       * coupling_of (ct_fd (x c)) (at4 l (ct_i (x c))) (at4 l (ct_j (x c))) (ct_li (x c)) (ct_lj (x c)) ^ 2))).
      + apply Rsum_le. intros z _. unfold chain_contribution, serial_term.
        assert (A : forall q, In q [1; 2; 3]%Z -> at4 (with_parent l z) q = at4 l q).
        { intros q Hq. destruct l as [[[l0 l1] l2] l3]. destruct Hq as [<-|[<-|[<-|[]]]]; reflexivity. }
        rewrite !A by (eapply Permutation_in; [exact Pm|simpl; auto]).
        rewrite !Cmod_mult, !Cmod_R.
        pose proof (wigner_d_bound (ct_spin (x c)) (ct_r (x c)) (ct_li (x c) - ct_lj (x c)) (Re (e_sym ev (theta_name (ct_i (x c)) (ct_j (x c)))))) as B.
        rewrite <- pow2_abs in B. rewrite <- (pow2_abs (coupling_of (ct_fp _) _ _ _ _)), <- (pow2_abs (coupling_of (ct_fd _) _ _ _ _)).
        unfold a. set (W := Rabs (wigner_d _ _ _ _)) in *. set (c1 := Rabs (coupling_of (ct_fp _) _ _ _ _)). set (c2 := Rabs (coupling_of (ct_fd _) _ _ _ _)).
        set (a1 := Cmod (e_sym ev (w c))). set (a2 := Cmod (ceval _ _ _)). clearbody W c1 c2 a1 a2.
        replace ((a1 * c1 * c2 * W * a2) ^ 2) with ((a1 * c1 * c2 * a2) ^ 2 * W ^ 2) by ring.
        replace ((a1 * a2) ^ 2 * (c1 ^ 2 * c2 ^ 2)) with ((a1 * c1 * c2 * a2) ^ 2 * 1) by ring.
        apply Rmult_le_compat_l; [apply pow2_ge_0|exact B].
      + apply Req_le. clear - J0. set (v := a ^ 2 * _). rewrite Rmult_assoc. fold v. clearbody v.
        unfold helicities. rewrite Rsum_map. 
        assert (K : forall n o, Rsum (seq o n) (fun _ => v) = INR n * v).
        { induction n as [|n IH]; intros o; cbn [seq Rsum]; [change (INR 0) with 0; ring|]. rewrite IH, S_INR. ring. }
        rewrite K, INR_IZR_INZ, Z2Nat.id by lia. reflexivity.
    - rewrite Rsum_scal_l, (final_factors_perm s (ct_i (x c)) (ct_j (x c)) (ct_k (x c))
        (fun b => coupling_of (ct_fp (x c)) (ct_r (x c)) b (ct_r (x c)) (ct_lk (x c)) ^ 2)
        (fun b b' => coupling_of (ct_fd (x c)) b b' (ct_li (x c)) (ct_lj (x c)) ^ 2) Pm).
      pose proof (coupling_second (helicities (p_spin (s (ct_k (x c))))) (ct_fp (x c)) (ct_r (x c)) (ct_lk (x c)) (helicities_NoDup _)) as B1.
      pose proof (coupling_both (helicities (p_spin (s (ct_i (x c))))) (helicities (p_spin (s (ct_j (x c))))) (ct_fd (x c)) (ct_li (x c)) (ct_lj (x c))
        (helicities_NoDup _) (helicities_NoDup _)) as B2.
      unfold size, serial_size. fold a. set (p := Rsum _ _) in B1 |- *. set (q := Rsum _ (fun a => Rsum _ _)) in B2 |- *.
      assert (P0 : 0 <= p) by (apply Rsum_nonneg; intros; apply pow2_ge_0).
      assert (Q0 : 0 <= q) by (apply Rsum_nonneg; intros; apply Rsum_nonneg; intros; apply pow2_ge_0).
      set (u1 := 1 + Rabs (IZR (ct_fp (x c)))) in *. set (u2 := 1 + Rabs (IZR (ct_fd (x c)))) in *.
      replace (IZR (J + 1) * (a * u1 * u2) ^ 2) with (IZR (J + 1) * a ^ 2 * (u1 ^ 2 * u2 ^ 2)) by ring.
      apply Rmult_le_compat_l; [apply Rmult_le_pos; [exact JP|apply pow2_ge_0]|].
      apply Rmult_le_compat; assumption.
  Qed.
  Theorem c137_serial ev : Re (full_value ev M) <= IZR (p_spin (s 0%Z) + 1) * Rsum (di_chains d) (size ev) ^ 2.
  Proof.
    destruct (serial_intensity_value m d s r tl additional x w dyn H cl M F) as (ks & ND & _ & Hks & V).
    rewrite V. unfold Re, RtoC. cbn [fst].
    assert (J0 : (0 <= p_spin (s 0%Z))%Z).
    { destruct (ds_initial _ _ _ _ _ (hd_states _ _ _ _ _ _ _ _ _ H)) as (_ & j & Hj & _ & E). rewrite E. exact Hj. }
    assert (JP : 0 <= IZR (p_spin (s 0%Z) + 1)) by (apply IZR_le; lia).
    eapply Rle_trans.
    - apply (aligned_bound s ks _ (amp_value ev M) (di_chains d) (fun c => ct_k (x c)) (fun c l => chain_contribution x w dyn ev l c) ND).
      + intros c I. apply Hks. exists c. auto.
      + intros k l Hk Hl. apply Hks in Hk. destruct Hk as (c & I & <-).
        rewrite (serial_amplitude_value m d s r tl additional x w dyn H cl M F ev (ct_k (x c)) l Hl); [reflexivity|].
        apply (hd_k m d s r tl additional x w dyn H). exact I.
    - rewrite <- (Rsqr_sqrt (IZR (p_spin (s 0%Z) + 1))) by exact JP. rewrite Rsqr_pow2, <- Rpow_mult_distr, <- Rsum_scal_l.
      apply pow_incr. split; [apply Rsum_nonneg; intros; apply norm_nonneg|].
      apply Rsum_le. intros c I. apply serial_chain_bound; [exact J0|].
      apply (hd_perm m d s r tl additional x w dyn H c I).
  Qed.
End Serial.
