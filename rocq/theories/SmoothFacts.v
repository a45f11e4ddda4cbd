(** Derivatives of the functions that occur in amplitude models (proofs for C139) *)
From Coq Require Import String ZArith QArith Qcanon Qreals List Bool Reals Lia Lra Psatz.
From Coquelicot Require Import Coquelicot.
From Verif Require Import Prelude Expr Sums Wigner CG CExpr SpecKin SpecFinite SpecContinuity ContinuityFacts SpecSmooth.
Import ListNotations.
Local Open Scope R_scope.

(** Angles whose arccos and roots are taken away from the ends of their ranges *)
Fixpoint smooth_valued (env : symbol -> R) (e : rexpr) : Prop :=
  match e with
  | RNum _ | RVar _ => True
  | RAdd a b | RSub a b | RMul a b => smooth_valued env a /\ smooth_valued env b
  | RDiv a b => smooth_valued env a /\ smooth_valued env b /\ reval env b <> 0
  | ROpp a | RSq a => smooth_valued env a
  | RSqrt a => smooth_valued env a /\ 0 < reval env a
  | RAcos a => smooth_valued env a /\ -1 < reval env a < 1
  | RKallen a b c => smooth_valued env a /\ smooth_valued env b /\ smooth_valued env c
  end.

Section At.
  Variable t0 : R.
  Notation rd := (rsmooth_at t0).
  Notation cd := (smooth_at t0).

  (** ** Real functions *)
  Lemma rd_const c : rd (fun _ => c : R).
  Proof. apply @ex_derive_const. Qed.
  Lemma rd_plus (f g : R -> R) : rd f -> rd g -> rd (fun t => f t + g t).
  Proof. exact (ex_derive_plus f g t0). Qed.
  Lemma rd_minus (f g : R -> R) : rd f -> rd g -> rd (fun t => f t - g t).
  Proof. exact (ex_derive_minus f g t0). Qed.
  Lemma rd_opp (f : R -> R) : rd f -> rd (fun t => - f t).
  Proof. exact (ex_derive_opp f t0). Qed.
  Lemma rd_mult (f g : R -> R) : rd f -> rd g -> rd (fun t => f t * g t).
  Proof. exact (ex_derive_mult f g t0). Qed.
  Lemma rd_inv (f : R -> R) : f t0 <> 0 -> rd f -> rd (fun t => / f t).
  Proof. intros N A. exact (ex_derive_inv f t0 A N). Qed.
  Lemma rd_div (f g : R -> R) : g t0 <> 0 -> rd f -> rd g -> rd (fun t => f t / g t).
  Proof. intros N A B. unfold Rdiv. apply rd_mult; auto using rd_inv. Qed.
  Lemma rd_pow (f : R -> R) n : rd f -> rd (fun t => f t ^ n).
  Proof. exact (ex_derive_pow f n t0). Qed.
  Lemma rd_comp (g f : R -> R) : derivable_pt g (f t0) -> rd f -> rd (fun t => g (f t)).
  Proof. intros G A. exact (ex_derive_comp g f t0 (ex_derive_Reals_1 _ _ G) A). Qed.
  Lemma rd_sqrt (f : R -> R) : 0 < f t0 -> rd f -> rd (fun t => sqrt (f t)).
  Proof. intros P. apply rd_comp. apply derivable_pt_sqrt, P. Qed.
  Lemma rd_acos (f : R -> R) : -1 < f t0 < 1 -> rd f -> rd (fun t => acos (f t)).
  Proof. intros P. apply rd_comp. apply derivable_pt_acos, P. Qed.
  Lemma rd_cos (f : R -> R) : rd f -> rd (fun t => cos (f t)).
  Proof. apply rd_comp. apply derivable_pt_cos. Qed.
  Lemma rd_sin (f : R -> R) : rd f -> rd (fun t => sin (f t)).
  Proof. apply rd_comp. apply derivable_pt_sin. Qed.
  Lemma rd_exp (f : R -> R) : rd f -> rd (fun t => exp (f t)).
  Proof. apply rd_comp. apply derivable_pt_exp. Qed.
  Lemma rd_ext (f g : R -> R) : (forall t, f t = g t) -> rd f -> rd g.
  Proof. exact (ex_derive_ext f g t0). Qed.
  Lemma rd_ext_loc (f g : R -> R) : locally t0 (fun t => f t = g t) -> rd f -> rd g.
  Proof. exact (ex_derive_ext_loc f g t0). Qed.
  Lemma rd_cont (f : R -> R) : rd f -> rtends (locally t0) f (f t0).
  Proof. exact (ex_derive_continuous f t0). Qed.
  Local Opaque rsmooth_at.
  Lemma rd_sum {A} (l : list A) (f : R -> A -> R) : (forall x, In x l -> rd (fun t => f t x)) -> rd (fun t => Rsum l (f t)).
  Proof.
    induction l as [|x l IH]; intros H; cbn [Rsum]; [apply rd_const|].
    apply rd_plus; [apply H; left; auto|]. apply IH. intros y Hy. apply H. right. auto.
  Qed.
  Lemma rd_wigner j m m' (f : R -> R) : rd f -> rd (fun t => wigner_d j m m' (f t)).
  Proof.
    intros A. unfold wigner_d. destruct (_ && _)%bool; [|apply rd_const]. unfold wd.
    assert (H : rd (fun t => f t / 2)) by (apply rd_div; auto using rd_const; lra).
    apply rd_mult; [apply rd_const|]. apply rd_sum. intros i _. unfold wd_term. destruct (_ && _)%bool; [|apply rd_const].
    unfold Rdiv at 1. apply rd_mult; [|apply rd_const]. apply rd_mult; [|apply rd_pow, rd_sin, H].
    apply rd_mult; [apply rd_const|apply rd_pow, rd_cos, H].
  Qed.
  Lemma rd_kallen (f g h : R -> R) : rd f -> rd g -> rd h -> rd (fun t => kallen (f t) (g t) (h t)).
  Proof.
    intros A B C. pose proof (rd_const 2) as K. unfold kallen.
    pose proof (rd_mult _ _ A A) as A2. pose proof (rd_mult _ _ B B) as B2. pose proof (rd_mult _ _ C C) as C2.
    pose proof (rd_mult _ _ (rd_mult _ _ K A) B) as AB. pose proof (rd_mult _ _ (rd_mult _ _ K B) C) as BC.
    pose proof (rd_mult _ _ (rd_mult _ _ K C) A) as CA.
    exact (rd_minus _ _ (rd_minus _ _ (rd_minus _ _ (rd_plus _ _ (rd_plus _ _ A2 B2) C2) AB) BC) CA).
  Qed.
  Lemma rd_reval e (env : R -> symbol -> R) : (forall x, rd (fun t => env t x)) -> smooth_valued (env t0) e ->
    rd (fun t => reval (env t) e).
  Proof.
    intros V. induction e; cbn [reval smooth_valued]; intros H; auto using rd_const.
    - apply rd_plus; tauto.
    - apply rd_minus; tauto.
    - apply rd_mult; tauto.
    - apply rd_div; tauto.
    - apply rd_opp; tauto.
    - apply rd_mult; tauto.
    - apply rd_sqrt; tauto.
    - apply rd_acos; tauto.
    - apply rd_kallen; tauto.
  Qed.

  (** ** Complex functions *)
  Lemma cd_ext f g : (forall t, f t = g t) -> cd f -> cd g.
  Proof. intros E [H1 H2]. split; [revert H1|revert H2]; apply rd_ext; intros t; rewrite E; auto. Qed.
  Lemma cd_const c : cd (fun _ => c).
  Proof. split; [exact (rd_const (Re c))|exact (rd_const (Im c))]. Qed.
  Lemma cd_real (f : R -> R) : rd f -> cd (fun t => RtoC (f t)).
  Proof. intros A. split; [exact A|exact (rd_const 0)]. Qed.
  Lemma cd_plus f g : cd f -> cd g -> cd (fun t => f t + g t)%C.
  Proof. intros [A1 A2] [B1 B2]. split; cbn; apply rd_plus; auto. Qed.
  Lemma cd_opp f : cd f -> cd (fun t => - f t)%C.
  Proof. intros [A1 A2]. split; cbn; apply rd_opp; auto. Qed.
  Lemma cd_minus f g : cd f -> cd g -> cd (fun t => f t - g t)%C.
  Proof. intros A B. unfold Cminus. apply cd_plus; auto using cd_opp. Qed.
  Lemma cd_mult f g : cd f -> cd g -> cd (fun t => f t * g t)%C.
  Proof. intros [A1 A2] [B1 B2]. split; cbn; [apply rd_minus|apply rd_plus]; apply rd_mult; auto. Qed.
  Lemma norm_nonzero (a : C) : a <> RtoC 0 -> 0 < fst a ^ 2 + snd a ^ 2.
  Proof.
    intros N. destruct (Rle_lt_or_eq_dec 0 (fst a ^ 2 + snd a ^ 2)) as [|E]; auto; [nra|].
    destruct N. apply injective_projections; cbn [fst snd RtoC]; nra.
  Qed.
  Lemma cd_inv f : f t0 <> RtoC 0 -> cd f -> cd (fun t => / f t)%C.
  Proof.
    intros N [A1 A2]. unfold Re, Im in *. pose proof (norm_nonzero _ N) as N2.
    split; unfold Cinv; unfold Re, Im; cbn [fst snd];
      (apply rd_div; [lra| |apply rd_plus; apply rd_pow; auto]); auto using rd_opp.
  Qed.
  Lemma cd_div f g : g t0 <> RtoC 0 -> cd f -> cd g -> cd (fun t => f t / g t)%C.
  Proof. intros N A B. unfold Cdiv. apply cd_mult; auto using cd_inv. Qed.
  Lemma cd_cmod f : f t0 <> RtoC 0 -> cd f -> rd (fun t => Cmod (f t)).
  Proof. intros N [A1 A2]. unfold Cmod. apply rd_sqrt; [apply norm_nonzero, N|]. apply rd_plus; apply rd_pow; auto. Qed.
  Lemma cd_abs2 f : cd f -> rd (fun t => Cmod (f t) ^ 2).
  Proof.
    intros [A1 A2]. apply (rd_ext (fun t => Re (f t) ^ 2 + Im (f t) ^ 2)); [|apply rd_plus; apply rd_pow; auto].
    intros t. unfold Cmod, Re, Im. rewrite <- (Rsqr_pow2 (sqrt _)), Rsqr_sqrt; auto. nra.
  Qed.
  Lemma cd_cexp f : cd f -> cd (fun t => cexp (f t)).
  Proof. intros [A1 A2]. split; cbn; apply rd_mult; auto using rd_exp, rd_cos, rd_sin. Qed.
  Lemma cd_pow f n : cd f -> cd (fun t => cpow (f t) n).
  Proof. intros A. induction n as [|n IH]; cbn [cpow]; auto using cd_const, cd_mult. Qed.
  Lemma cd_sum {A} (l : list A) f : (forall x, In x l -> cd (fun t => f t x)) -> cd (fun t => Csum l (f t)).
  Proof.
    induction l as [|x l IH]; intros H; cbn [Csum]; [apply cd_const|].
    apply cd_plus; [apply H; left; auto|]. apply IH. intros y Hy. apply H. right. auto.
  Qed.
  (** The imaginary part of the root, where the root is not imaginary *)
  Lemma csqrt_im z : 0 < Cmod z + Re z -> Im (csqrt z) = Im z / (2 * sqrt ((Cmod z + Re z) / 2)).
  Proof.
    intros P. unfold csqrt. unfold Im at 1. cbn [snd].
    assert (M : Cmod z * Cmod z = Re z * Re z + Im z * Im z).
    { unfold Cmod, Re, Im. rewrite sqrt_sqrt; nra. }
    assert (C0 := Cmod_ge_0 z). assert (L : 0 <= Cmod z - Re z) by (destruct (Rle_lt_dec 0 (Cmod z - Re z)); auto; nra).
    set (u := (Cmod z + Re z) / 2) in *. set (v := (Cmod z - Re z) / 2).
    assert (U : 0 < sqrt u) by (apply sqrt_lt_R0; unfold u; lra).
    assert (UV : sqrt u * sqrt v = Rabs (Im z) / 2).
    { rewrite <- sqrt_mult by (unfold u, v; lra). replace (u * v) with (Rsqr (Im z / 2)) by (unfold u, v, Rsqr; nra).
      rewrite sqrt_Rsqr_abs. unfold Rdiv. rewrite Rabs_mult, (Rabs_right (/ 2)) by lra. reflexivity. }
    apply (Rmult_eq_reg_l (2 * sqrt u)); [|lra]. replace (2 * sqrt u * (Im z / (2 * sqrt u))) with (Im z) by (field; lra).
    destruct (Rlt_dec (Im z) 0) as [N|N].
    - rewrite (Rabs_left _ N) in UV. lra.
    - rewrite Rabs_right in UV by lra. lra.
  Qed.
  Lemma off_cut a : ~ on_cut a -> a <> RtoC 0 -> 0 < Cmod a + Re a.
  Proof.
    intros N Z. pose proof (norm_nonzero a Z) as P. unfold on_cut, Cmod, Re, Im in *.
    assert (B : sqrt (fst a ^ 2 + snd a ^ 2) * sqrt (fst a ^ 2 + snd a ^ 2) = fst a ^ 2 + snd a ^ 2) by (apply sqrt_sqrt; lra).
    pose proof (sqrt_lt_R0 _ P) as Q. set (q := sqrt _) in *.
    destruct (Rlt_le_dec 0 (q + fst a)) as [|L]; auto. exfalso. apply N.
    assert (S : snd a * snd a = 0) by nra. split; [nra|lra].
  Qed.
  Lemma cd_sqrt f : ~ on_cut (f t0) -> f t0 <> RtoC 0 -> cd f -> cd (fun t => csqrt (f t)).
  Proof.
    intros N Z A. pose proof (off_cut _ N Z) as P. pose proof (cd_cmod f Z A) as M. destruct A as [A1 A2].
    assert (S0 : rd (fun t => (Cmod (f t) + Re (f t)) / 2)) by (apply rd_div; [lra| |apply rd_const]; apply rd_plus; auto).
    assert (S1 : rd (fun t => sqrt ((Cmod (f t) + Re (f t)) / 2))) by (apply rd_sqrt; auto; lra).
    split; [exact S1|].
    apply (rd_ext_loc (fun t => Im (f t) / (2 * sqrt ((Cmod (f t) + Re (f t)) / 2)))).
    - pose proof (rd_cont _ (rd_plus _ _ M A1)) as K.
      apply (rt_above (locally t0) _ _ 0) in K; [|exact P]. revert K. apply filter_imp. intros t Ht. symmetry. apply csqrt_im, Ht.
    - apply rd_div; [|exact A2|apply rd_mult; [apply rd_const|exact S1]].
      assert (0 < sqrt ((Cmod (f t0) + Re (f t0)) / 2)) by (apply sqrt_lt_R0; lra). lra.
  Qed.
  Lemma cd_breakup f g h : (RtoC 4 * f t0)%C <> RtoC 0 -> cd f -> cd g -> cd h ->
    cd (fun t => breakup_squared (f t) (g t) (h t)).
  Proof.
    intros N A B C. unfold breakup_squared. apply cd_div; [exact N| |apply cd_mult; auto using cd_const].
    pose proof (cd_plus _ _ B C) as P. pose proof (cd_minus _ _ B C) as Q.
    exact (cd_mult _ _ (cd_minus _ _ A (cd_mult _ _ P P)) (cd_minus _ _ A (cd_mult _ _ Q Q))).
  Qed.
  Lemma cd_bw n f : bw_poly n (f t0) <> RtoC 0 -> cd f -> cd (fun t => blatt_weisskopf_squared n (f t)).
  Proof.
    intros N A. unfold blatt_weisskopf_squared. apply cd_div; auto.
    - apply cd_mult; [apply cd_pow; auto|apply cd_const].
    - unfold bw_poly. apply cd_sum. intros k _. apply cd_mult; [apply cd_const|apply cd_pow; auto].
  Qed.

  (** Every expression has a derivative where it divides by no zero and takes no root of zero or of a negative number. *)
  Theorem ceval_smooth e (ev : R -> env) :
    (forall x, cd (fun t => e_sym (ev t) x)) -> (forall n i, cd (fun t => e_idx (ev t) n i)) ->
    forall h, (forall x, In x (divisors (ev t0) h e) -> x <> RtoC 0) -> no_branch_point (ev t0) h e ->
    cd (fun t => ceval (ev t) h e).
  Proof.
    intros Vs Vi. unfold no_branch_point. induction e; intros h D N; cbn [ceval divisors radicands] in *; auto using cd_const.
    - apply cd_plus; [apply IHe1|apply IHe2]; intros x Hx; first [apply D|apply N]; apply in_or_app; auto.
    - apply cd_minus; [apply IHe1|apply IHe2]; intros x Hx; first [apply D|apply N]; apply in_or_app; auto.
    - apply cd_mult; [apply IHe1|apply IHe2]; intros x Hx; first [apply D|apply N]; apply in_or_app; auto.
    - apply cd_div; [apply D; left; auto|apply IHe1|apply IHe2]; intros x Hx; first [apply N; apply in_or_app; solve [auto]|apply D; right; apply in_or_app; auto].
    - apply cd_opp; auto.
    - apply cd_mult; auto.
    - destruct (N _ (or_introl eq_refl)) as [N1 N2]. apply cd_sqrt; auto. apply IHe; auto. intros x Hx. apply N. right. exact Hx.
    - apply cd_cexp; auto.
    - apply cd_real, cd_abs2; auto.
    - exact (cd_real _ (rd_wigner _ _ _ _ (proj1 (Vs angle)))).
    - revert h D N. induction pools as [|[s vals] ps IH]; intros h D N; cbn [psum]; [apply IHe; auto|].
      apply cd_sum. intros v Hv. apply IH; intros x Hx; [apply D|apply N]; eapply pool_flat_upd; eauto.
    - assert (D' : forall x, In x (divisors (ev t0) h e1) \/ In x (divisors (ev t0) h e2) \/ In x (divisors (ev t0) h e3) \/ In x (divisors (ev t0) h e4) -> x <> RtoC 0).
      { intros x Hx. apply D. right. right. rewrite !in_app_iff. exact Hx. }
      assert (N' : forall x, In x (radicands (ev t0) h e1) \/ In x (radicands (ev t0) h e2) \/ In x (radicands (ev t0) h e3) \/ In x (radicands (ev t0) h e4) -> ~ on_cut x /\ x <> RtoC 0).
      { intros x Hx. apply N. right. rewrite !in_app_iff. exact Hx. }
      pose proof (IHe1 h (fun x Hx => D' x (or_introl Hx)) (fun x Hx => N' x (or_introl Hx))) as T1.
      pose proof (IHe2 h (fun x Hx => D' x (or_intror (or_introl Hx))) (fun x Hx => N' x (or_intror (or_introl Hx)))) as T2.
      pose proof (IHe3 h (fun x Hx => D' x (or_intror (or_intror (or_introl Hx)))) (fun x Hx => N' x (or_intror (or_intror (or_introl Hx))))) as T3.
      pose proof (IHe4 h (fun x Hx => D' x (or_intror (or_intror (or_intror Hx)))) (fun x Hx => N' x (or_intror (or_intror (or_intror Hx))))) as T4.
      destruct (N _ (or_introl eq_refl)) as [N1 N2].
      apply cd_sqrt; [exact N1|exact N2|]. apply cd_bw; [apply D; right; left; auto|].
      exact (cd_mult _ _ (cd_breakup _ _ _ (D _ (or_introl eq_refl)) T1 T2 T3) (cd_mult _ _ T4 T4)).
    - assert (D' : forall x, In x (divisors (ev t0) h e1) \/ In x (divisors (ev t0) h e2) \/ In x (divisors (ev t0) h e3) -> x <> RtoC 0).
      { intros x Hx. apply D. right. rewrite !in_app_iff. exact Hx. }
      assert (N' : forall x, In x (radicands (ev t0) h e1) \/ In x (radicands (ev t0) h e2) \/ In x (radicands (ev t0) h e3) -> ~ on_cut x /\ x <> RtoC 0).
      { intros x Hx. apply N. right. rewrite !in_app_iff. exact Hx. }
      pose proof (IHe1 h (fun x Hx => D' x (or_introl Hx)) (fun x Hx => N' x (or_introl Hx))) as T1.
      pose proof (IHe2 h (fun x Hx => D' x (or_intror (or_introl Hx))) (fun x Hx => N' x (or_intror (or_introl Hx)))) as T2.
      pose proof (IHe3 h (fun x Hx => D' x (or_intror (or_intror Hx))) (fun x Hx => N' x (or_intror (or_intror Hx)))) as T3.
      destruct (N _ (or_introl eq_refl)) as [N1 N2]. apply cd_sqrt; [exact N1|exact N2|].
      exact (cd_breakup _ _ _ (D _ (or_introl eq_refl)) T1 T2 T3).
  Qed.
End At.
