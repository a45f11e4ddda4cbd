(** Continuity of the functions that occur in amplitude models (proofs for C113) *)
From Coq Require Import String ZArith QArith Qcanon Qreals List Bool Reals Lia Lra Psatz.
From Coquelicot Require Import Coquelicot.
From Verif Require Import Prelude Expr Sums Wigner CG CExpr SpecKin SpecFinite SpecContinuity.
Import ListNotations.
Local Open Scope R_scope.

Section Filter.
  Context {T : Type} (F : (T -> Prop) -> Prop) {FF : Filter F}.

  (** ** Real functions *)
  Lemma rt_const c : rtends F (fun _ => c) c.
  Proof. apply filterlim_const. Qed.
  Lemma rt_plus f g a b : rtends F f a -> rtends F g b -> rtends F (fun t => f t + g t) (a + b).
  Proof.
    intros A B. exact (@filterlim_comp_2 _ _ _ _ F (locally a) (locally b) (locally (plus a b)) FF f g (fun x y => x + y) A B
      (@filterlim_plus R_AbsRing R_NormedModule a b)).
  Qed.
  Lemma rt_mult f g a b : rtends F f a -> rtends F g b -> rtends F (fun t => f t * g t) (a * b).
  Proof.
    intros A B. exact (@filterlim_comp_2 _ _ _ _ F (locally a) (locally b) (locally (mult a b)) FF f g (fun x y => x * y) A B
      (@filterlim_mult R_AbsRing a b)).
  Qed.
  Lemma rt_cont f a g : rtends F f a -> continuous g a -> rtends F (fun t => g (f t)) (g a).
  Proof. intros A G. exact (filterlim_comp _ _ _ f g F (locally a) (locally (g a)) A G). Qed.
  Lemma rt_ext f g a b : (forall t, f t = g t) -> a = b -> rtends F f a -> rtends F g b.
  Proof. intros E -> H. unfold rtends in *. eapply filterlim_ext; eauto. Qed.
  Lemma rt_opp f a : rtends F f a -> rtends F (fun t => - f t) (- a).
  Proof. intros A. apply (rt_ext (fun t => (-1) * f t) _ ((-1) * a)); [intros; lra|lra|]. apply rt_mult; auto using rt_const. Qed.
  Lemma rt_minus f g a b : rtends F f a -> rtends F g b -> rtends F (fun t => f t - g t) (a - b).
  Proof. intros A B. unfold Rminus. apply rt_plus; auto using rt_opp. Qed.
  Lemma rt_inv f a : a <> 0 -> rtends F f a -> rtends F (fun t => / f t) (/ a).
  Proof. intros N A. exact (rt_cont f a (fun x => / x) A (continuous_Rinv a N)). Qed.
  Lemma rt_div f g a b : b <> 0 -> rtends F f a -> rtends F g b -> rtends F (fun t => f t / g t) (a / b).
  Proof. intros N A B. unfold Rdiv. apply rt_mult; auto using rt_inv. Qed.
  Lemma rt_sqrt f a : rtends F f a -> rtends F (fun t => sqrt (f t)) (sqrt a).
  Proof. intros A. apply rt_cont; auto. apply continuous_sqrt. Qed.
  Lemma rt_pow f a n : rtends F f a -> rtends F (fun t => f t ^ n) (a ^ n).
  Proof. intros A. induction n as [|n IH]; cbn [pow]; auto using rt_const, rt_mult. Qed.
  Lemma rt_iff f a : rtends F f a <-> forall eps : posreal, F (fun t => Rabs (f t - a) < eps).
  Proof. unfold rtends. rewrite filterlim_locally. split; intros H eps; exact (H eps). Qed.
  Lemma rt_cos f a : rtends F f a -> rtends F (fun t => cos (f t)) (cos a).
  Proof. intros A. apply rt_cont; auto. apply continuous_cos. Qed.
  Lemma rt_sin f a : rtends F f a -> rtends F (fun t => sin (f t)) (sin a).
  Proof. intros A. apply rt_cont; auto. apply continuous_sin. Qed.
  Lemma rt_exp f a : rtends F f a -> rtends F (fun t => exp (f t)) (exp a).
  Proof. intros A. apply rt_cont; auto. apply continuous_exp. Qed.

  Lemma acos_above y x : -1 <= x <= 1 -> x < y -> acos y <= acos x.
  Proof.
    intros Hx L. destruct (Rle_lt_dec 1 y) as [Y|Y].
    - pose proof (acos_bound x) as [B _]. replace (acos y) with 0; auto.
      unfold acos. destruct (Rle_dec y (-1)); [lra|]. destruct (Rle_dec 1 y); lra.
    - destruct (Rle_lt_dec (acos y) (acos x)) as [|X]; auto. exfalso.
      apply cos_decreasing_1 in X; try apply acos_bound. rewrite !cos_acos in X by lra. lra.
  Qed.
  Lemma acos_below y x : -1 <= x <= 1 -> y < x -> acos x <= acos y.
  Proof.
    intros Hx L. destruct (Rle_lt_dec y (-1)) as [Y|Y].
    - pose proof (acos_bound x) as [_ B]. replace (acos y) with PI; auto.
      unfold acos. destruct (Rle_dec y (-1)); lra.
    - destruct (Rle_lt_dec (acos x) (acos y)) as [|X]; auto. exfalso.
      apply cos_decreasing_1 in X; try apply acos_bound. rewrite !cos_acos in X by lra. lra.
  Qed.
  Lemma rt_below f a c : rtends F f a -> a < c -> F (fun t => f t < c).
  Proof.
    intros A L. assert (P : 0 < c - a) by lra. apply rt_iff with (eps := mkposreal _ P) in A.
    revert A. apply filter_imp. cbn [pos]. intros t H. apply Rabs_def2 in H. lra.
  Qed.
  Lemma rt_above f a c : rtends F f a -> c < a -> F (fun t => c < f t).
  Proof.
    intros A L. assert (P : 0 < a - c) by lra. apply rt_iff with (eps := mkposreal _ P) in A.
    revert A. apply filter_imp. cbn [pos]. intros t H. apply Rabs_def2 in H. lra.
  Qed.
  Lemma rt_acos f a : -1 <= a <= 1 -> rtends F f a -> rtends F (fun t => acos (f t)) (acos a).
  Proof.
    intros Ha A. apply rt_iff. intros eps. set (b := acos a). pose proof (acos_bound a) as Bb. fold b in Bb.
    assert (Eb : cos b = a) by (apply cos_acos; auto). destruct eps as [e He]. cbn [pos].
    assert (L : F (fun t => b - e < acos (f t))).
    { destruct (Rlt_le_dec (b - e) 0) as [X|X].
      - apply filter_forall. intros t. pose proof (acos_bound (f t)). lra.
      - set (d := b - e / 2). assert (D : 0 <= d < b /\ d <= PI) by (unfold d; lra).
        assert (C : a < cos d) by (rewrite <- Eb; apply cos_decreasing_1; lra).
        apply (rt_below f a (cos d) A) in C. revert C. apply filter_imp. intros t H.
        apply (acos_below (f t) (cos d)) in H; [|apply COS_bound]. rewrite acos_cos in H by lra. unfold d in H. lra. }
    assert (U : F (fun t => acos (f t) < b + e)).
    { destruct (Rlt_le_dec PI (b + e)) as [X|X].
      - apply filter_forall. intros t. pose proof (acos_bound (f t)). lra.
      - set (d := b + e / 2). assert (D : 0 <= b < d /\ d <= PI) by (unfold d; lra).
        assert (C : cos d < a) by (rewrite <- Eb; apply cos_decreasing_1; lra).
        apply (rt_above f a (cos d) A) in C. revert C. apply filter_imp. intros t H.
        apply (acos_above (f t) (cos d)) in H; [|apply COS_bound]. rewrite acos_cos in H by lra. unfold d in H. lra. }
    generalize (filter_and _ _ L U). apply filter_imp. intros t [P Q]. apply Rabs_def1; lra.
  Qed.
  Lemma rt_sum {A} (l : list A) f g : (forall x, In x l -> rtends F (fun t => f t x) (g x)) ->
    rtends F (fun t => Rsum l (f t)) (Rsum l g).
  Proof.
    induction l as [|x l IH]; intros H; cbn [Rsum]; [apply rt_const|].
    apply rt_plus; [apply H; left; auto|]. apply IH. intros y Hy. apply H. right. auto.
  Qed.
  Lemma rt_wigner j m m' f a : rtends F f a -> rtends F (fun t => wigner_d j m m' (f t)) (wigner_d j m m' a).
  Proof.
    intros A. unfold wigner_d. destruct (_ && _)%bool; [|apply rt_const]. unfold wd.
    assert (H : rtends F (fun t => f t / 2) (a / 2)) by (apply rt_div; auto using rt_const; lra).
    apply rt_mult; [apply rt_const|]. apply rt_sum. intros i _. unfold wd_term. destruct (_ && _)%bool; [|apply rt_const].
    unfold Rdiv at 1 3. apply rt_mult; [|apply rt_const]. apply rt_mult; [|apply rt_pow, rt_sin, H].
    apply rt_mult; [apply rt_const|apply rt_pow, rt_cos, H].
  Qed.
  Lemma rt_kallen f g h a b c : rtends F f a -> rtends F g b -> rtends F h c ->
    rtends F (fun t => kallen (f t) (g t) (h t)) (kallen a b c).
  Proof.
    intros A B C. pose proof (rt_const 2) as K. unfold kallen.
    pose proof (rt_mult _ _ _ _ A A) as A2. pose proof (rt_mult _ _ _ _ B B) as B2. pose proof (rt_mult _ _ _ _ C C) as C2.
    pose proof (rt_mult _ _ _ _ (rt_mult _ _ _ _ K A) B) as AB. pose proof (rt_mult _ _ _ _ (rt_mult _ _ _ _ K B) C) as BC.
    pose proof (rt_mult _ _ _ _ (rt_mult _ _ _ _ K C) A) as CA.
    exact (rt_minus _ _ _ _ (rt_minus _ _ _ _ (rt_minus _ _ _ _ (rt_plus _ _ _ _ (rt_plus _ _ _ _ A2 B2) C2) AB) BC) CA).
  Qed.
  (** Expressions for angles *)
  Lemma rt_reval e env env0 : (forall x, rtends F (fun t => env t x) (env0 x)) -> real_valued env0 e ->
    rtends F (fun t => reval (env t) e) (reval env0 e).
  Proof.
    intros V. induction e; cbn [reval real_valued]; intros R; auto using rt_const.
    - apply rt_plus; tauto.
    - apply rt_minus; tauto.
    - apply rt_mult; tauto.
    - apply rt_div; tauto.
    - apply rt_opp; tauto.
    - apply rt_mult; tauto.
    - apply rt_sqrt; tauto.
    - apply rt_acos; tauto.
    - apply rt_kallen; tauto.
  Qed.

  (** ** Complex functions *)
  Lemma t_ext f g a b : (forall t, f t = g t) -> a = b -> tends F f a -> tends F g b.
  Proof. intros E -> [H1 H2]. split; [revert H1|revert H2]; apply rt_ext; auto; intros t; rewrite E; auto. Qed.
  Lemma t_const c : tends F (fun _ => c) c.
  Proof. split; apply rt_const. Qed.
  Lemma t_real f a : rtends F f a -> tends F (fun t => RtoC (f t)) (RtoC a).
  Proof. intros A. split; [exact A|apply rt_const]. Qed.
  Lemma t_plus f g a b : tends F f a -> tends F g b -> tends F (fun t => f t + g t)%C (a + b)%C.
  Proof. intros [A1 A2] [B1 B2]. split; cbn; apply rt_plus; auto. Qed.
  Lemma t_opp f a : tends F f a -> tends F (fun t => - f t)%C (- a)%C.
  Proof. intros [A1 A2]. split; cbn; apply rt_opp; auto. Qed.
  Lemma t_minus f g a b : tends F f a -> tends F g b -> tends F (fun t => f t - g t)%C (a - b)%C.
  Proof. intros A B. unfold Cminus. apply t_plus; auto using t_opp. Qed.
  Lemma t_mult f g a b : tends F f a -> tends F g b -> tends F (fun t => f t * g t)%C (a * b)%C.
  Proof. intros [A1 A2] [B1 B2]. split; cbn; [apply rt_minus|apply rt_plus]; apply rt_mult; auto. Qed.
  Lemma t_inv f a : a <> RtoC 0 -> tends F f a -> tends F (fun t => / f t)%C (/ a)%C.
  Proof.
    intros N [A1 A2]. unfold Re, Im in *.
    assert (N2 : fst a ^ 2 + snd a ^ 2 <> 0).
    { intros E. apply N. apply injective_projections; cbn [fst snd RtoC]; nra. }
    split; unfold Cinv; unfold Re, Im; cbn [fst snd];
      (apply rt_div; [exact N2| |apply rt_plus; apply rt_pow; auto]); auto using rt_opp.
  Qed.
  Lemma t_div f g a b : b <> RtoC 0 -> tends F f a -> tends F g b -> tends F (fun t => f t / g t)%C (a / b)%C.
  Proof. intros N A B. unfold Cdiv. apply t_mult; auto using t_inv. Qed.
  Lemma t_cmod f a : tends F f a -> rtends F (fun t => Cmod (f t)) (Cmod a).
  Proof. intros [A1 A2]. unfold Cmod. apply rt_sqrt, rt_plus; apply rt_pow; auto. Qed.
  Lemma t_cexp f a : tends F f a -> tends F (fun t => cexp (f t)) (cexp a).
  Proof. intros [A1 A2]. split; cbn; apply rt_mult; auto using rt_exp, rt_cos, rt_sin. Qed.
  Lemma t_pow f a n : tends F f a -> tends F (fun t => cpow (f t) n) (cpow a n).
  Proof. intros A. induction n as [|n IH]; cbn [cpow]; auto using t_const, t_mult. Qed.
  Lemma t_sum {A} (l : list A) f g : (forall x, In x l -> tends F (fun t => f t x) (g x)) ->
    tends F (fun t => Csum l (f t)) (Csum l g).
  Proof.
    induction l as [|x l IH]; intros H; cbn [Csum]; [apply t_const|].
    apply t_plus; [apply H; left; auto|]. apply IH. intros y Hy. apply H. right. auto.
  Qed.
  Lemma t_sqrt f a : ~ on_cut a -> tends F f a -> tends F (fun t => csqrt (f t)) (csqrt a).
  Proof.
    intros N A. pose proof (t_cmod f a A) as M. destruct A as [A1 A2].
    assert (S1 : rtends F (fun t => sqrt ((Cmod (f t) + Re (f t)) / 2)) (sqrt ((Cmod a + Re a) / 2))).
    { apply rt_sqrt, rt_div; try lra; auto using rt_const, rt_plus. }
    assert (S2 : rtends F (fun t => sqrt ((Cmod (f t) - Re (f t)) / 2)) (sqrt ((Cmod a - Re a) / 2))).
    { apply rt_sqrt, rt_div; try lra; auto using rt_const, rt_minus. }
    split; [exact S1|]. unfold csqrt. unfold Im at 1 3. cbn [snd].
    destruct (Rtotal_order (Im a) 0) as [L|[E|G]].
    - destruct (Rlt_dec (Im a) 0) as [_|X]; [|contradiction].
      apply rt_iff. intros eps. pose proof (proj1 (rt_iff _ _) (rt_opp _ _ S2) eps) as H.
      generalize (filter_and _ _ H (rt_below _ _ _ A2 L)). apply filter_imp. intros t [P Q].
      destruct (Rlt_dec (Im (f t)) 0); [exact P|contradiction].
    - assert (Z : sqrt ((Cmod a - Re a) / 2) = 0).
      { assert (R0 : 0 <= Re a) by (destruct (Rle_lt_dec 0 (Re a)); auto; exfalso; apply N; split; auto).
        assert (C0 : Cmod a = Re a).
        { unfold Cmod. unfold Re, Im in *. rewrite E. replace (fst a ^ 2 + 0 ^ 2) with (fst a * fst a) by ring. apply sqrt_square, R0. }
        rewrite C0. replace ((Re a - Re a) / 2) with 0 by field. apply sqrt_0. }
      rewrite Z in *. destruct (Rlt_dec (Im a) 0) as [X|_]; [lra|].
      apply rt_iff. intros eps. pose proof (proj1 (rt_iff _ _) S2 eps) as H. revert H. apply filter_imp. intros t P.
      destruct (Rlt_dec (Im (f t)) 0); [|exact P]. rewrite Rminus_0_r in *. rewrite Rabs_Ropp. exact P.
    - destruct (Rlt_dec (Im a) 0) as [X|_]; [lra|].
      apply rt_iff. intros eps. pose proof (proj1 (rt_iff _ _) S2 eps) as H.
      generalize (filter_and _ _ H (rt_above _ _ _ A2 G)). apply filter_imp. intros t [P Q].
      destruct (Rlt_dec (Im (f t)) 0); [lra|exact P].
  Qed.
  Lemma t_breakup f g h a b c : (RtoC 4 * a)%C <> RtoC 0 -> tends F f a -> tends F g b -> tends F h c ->
    tends F (fun t => breakup_squared (f t) (g t) (h t)) (breakup_squared a b c).
  Proof.
    intros N A B C. unfold breakup_squared.
    pose proof (t_plus _ _ _ _ B C) as P. pose proof (t_minus _ _ _ _ B C) as Q.
    apply t_div; [exact N| |exact (t_mult _ _ _ _ (t_const (RtoC 4)) A)].
    exact (t_mult _ _ _ _ (t_minus _ _ _ _ A (t_mult _ _ _ _ P P)) (t_minus _ _ _ _ A (t_mult _ _ _ _ Q Q))).
  Qed.
  Lemma t_bw n f a : bw_poly n a <> RtoC 0 -> tends F f a ->
    tends F (fun t => blatt_weisskopf_squared n (f t)) (blatt_weisskopf_squared n a).
  Proof.
    intros N A. unfold blatt_weisskopf_squared. apply t_div; auto.
    - apply t_mult; [apply t_pow; auto|apply t_const].
    - unfold bw_poly. apply t_sum. intros k _. apply t_mult; [apply t_const|apply t_pow; auto].
  Qed.

  Lemma pool_flat_upd {A} (f : (symbol -> Z) -> list A) s vals ps h v x : In v vals ->
    In x (pool_flat f ps (upd h s v)) -> In x (pool_flat f ((s, vals) :: ps) h).
  Proof. intros Hv Hx. cbn [pool_flat]. apply in_flat_map. eauto. Qed.

  (** Every expression is continuous where it divides by no zero and takes no root of a negative number. *)
  Theorem ceval_tends e ev ev0 :
    (forall x, tends F (fun t => e_sym (ev t) x) (e_sym ev0 x)) ->
    (forall n i, tends F (fun t => e_idx (ev t) n i) (e_idx ev0 n i)) ->
    forall h, (forall x, In x (divisors ev0 h e) -> x <> RtoC 0) -> no_cut ev0 h e ->
    tends F (fun t => ceval (ev t) h e) (ceval ev0 h e).
  Proof.
    intros Vs Vi. unfold no_cut. induction e; intros h D N; cbn [ceval divisors radicands] in *; auto using t_const.
    - apply t_plus; [apply IHe1|apply IHe2]; intros x Hx; first [apply D|apply N]; apply in_or_app; auto.
    - apply t_minus; [apply IHe1|apply IHe2]; intros x Hx; first [apply D|apply N]; apply in_or_app; auto.
    - apply t_mult; [apply IHe1|apply IHe2]; intros x Hx; first [apply D|apply N]; apply in_or_app; auto.
    - apply t_div; [apply D; left; auto|apply IHe1|apply IHe2]; intros x Hx; first [apply N; apply in_or_app; solve [auto]|apply D; right; apply in_or_app; auto].
    - apply t_opp; auto.
    - apply t_mult; auto.
    - apply t_sqrt; [apply N; left; auto|]. apply IHe; auto. intros x Hx. apply N. right. exact Hx.
    - apply t_cexp; auto.
    - apply t_real, rt_pow, t_cmod; auto.
    - exact (t_real _ _ (rt_wigner _ _ _ _ _ (proj1 (Vs angle)))).
    - revert h D N. induction pools as [|[s vals] ps IH]; intros h D N; cbn [psum]; [apply IHe; auto|].
      apply t_sum. intros v Hv. apply IH; intros x Hx; [apply D|apply N]; eapply pool_flat_upd; eauto.
    - assert (D' : forall x, In x (divisors ev0 h e1) \/ In x (divisors ev0 h e2) \/ In x (divisors ev0 h e3) \/ In x (divisors ev0 h e4) -> x <> RtoC 0).
      { intros x Hx. apply D. right. right. rewrite !in_app_iff. exact Hx. }
      assert (N' : forall x, In x (radicands ev0 h e1) \/ In x (radicands ev0 h e2) \/ In x (radicands ev0 h e3) \/ In x (radicands ev0 h e4) -> ~ on_cut x).
      { intros x Hx. apply N. right. rewrite !in_app_iff. exact Hx. }
      pose proof (IHe1 h (fun x Hx => D' x (or_introl Hx)) (fun x Hx => N' x (or_introl Hx))) as T1.
      pose proof (IHe2 h (fun x Hx => D' x (or_intror (or_introl Hx))) (fun x Hx => N' x (or_intror (or_introl Hx)))) as T2.
      pose proof (IHe3 h (fun x Hx => D' x (or_intror (or_intror (or_introl Hx)))) (fun x Hx => N' x (or_intror (or_intror (or_introl Hx))))) as T3.
      pose proof (IHe4 h (fun x Hx => D' x (or_intror (or_intror (or_intror Hx)))) (fun x Hx => N' x (or_intror (or_intror (or_intror Hx))))) as T4.
      apply t_sqrt; [apply N; left; auto|]. apply t_bw; [apply D; right; left; auto|].
      exact (t_mult _ _ _ _ (t_breakup _ _ _ _ _ _ (D _ (or_introl eq_refl)) T1 T2 T3) (t_mult _ _ _ _ T4 T4)).
    - assert (D' : forall x, In x (divisors ev0 h e1) \/ In x (divisors ev0 h e2) \/ In x (divisors ev0 h e3) -> x <> RtoC 0).
      { intros x Hx. apply D. right. rewrite !in_app_iff. exact Hx. }
      assert (N' : forall x, In x (radicands ev0 h e1) \/ In x (radicands ev0 h e2) \/ In x (radicands ev0 h e3) -> ~ on_cut x).
      { intros x Hx. apply N. right. rewrite !in_app_iff. exact Hx. }
      pose proof (IHe1 h (fun x Hx => D' x (or_introl Hx)) (fun x Hx => N' x (or_introl Hx))) as T1.
      pose proof (IHe2 h (fun x Hx => D' x (or_intror (or_introl Hx))) (fun x Hx => N' x (or_intror (or_introl Hx)))) as T2.
      pose proof (IHe3 h (fun x Hx => D' x (or_intror (or_intror Hx))) (fun x Hx => N' x (or_intror (or_intror Hx)))) as T3.
      apply t_sqrt; [apply N; left; auto|].
      exact (t_breakup _ _ _ _ _ _ (D _ (or_introl eq_refl)) T1 T2 T3).
  Qed.
End Filter.
