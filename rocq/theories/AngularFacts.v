(** Angular distributions of models with one subsystem. *)
From Coq Require Import String ZArith QArith Qcanon Qreals List Bool Reals Lia Lra Permutation Sorted.
From Coquelicot Require Import Complex.
From Verif Require Import Prelude Spin Decay Expr Angles Sums Wigner CG CExpr SpecKin SpecDPD Builder
  SpinFacts DecayFacts AnglesFacts WignerFacts CExprFacts BuilderFacts ModelFacts RefFacts CGFacts CGComplete LSBasis SpecLS LSProofs
  SpecParity ChainProofs ParityProofs RelabelFacts JacobiFacts SpecObs ObsKin ObsProofs InterferenceFacts SpecAngular.
Import ListNotations.
Local Open Scope string_scope.
Local Open Scope Z_scope.
Local Open Scope list_scope.

(** ** Polynomials *)
Lemma poly_ext N f g : (forall x, f x = g x) -> polynomial N f -> polynomial N g.
Proof. intros E (a & H). exists a. intros x. rewrite <- E. apply H. Qed.
Lemma poly_plus N f g : polynomial N f -> polynomial N g -> polynomial N (fun x => f x + g x)%R.
Proof.
  intros (a & Ha) (b & Hb). exists (fun n => a n + b n)%R. intros x. rewrite Ha, Hb, <- Rsum_plus. apply Rsum_ext.
  intros n _. ring.
Qed.
Lemma poly_scal N c f : polynomial N f -> polynomial N (fun x => c * f x)%R.
Proof.
  intros (a & Ha). exists (fun n => c * a n)%R. intros x. rewrite Ha, <- Rsum_scal_l. apply Rsum_ext. intros n _. ring.
Qed.
Lemma poly_zero N : polynomial N (fun _ => 0%R).
Proof. exists (fun _ => 0%R). intros x. symmetry. apply Rsum_zero. intros n _. ring. Qed.
Lemma poly_Rsum {A} N (l : list A) (f : A -> R -> R) : (forall a, In a l -> polynomial N (f a)) ->
  polynomial N (fun x => Rsum l (fun a => f a x)).
Proof.
  induction l as [|a l IH]; intros H; cbn [Rsum]; [apply poly_zero|].
  apply poly_plus; [apply H; left; reflexivity|]. apply IH. intros. apply H. right. assumption.
Qed.
Lemma poly_up N f : polynomial N f -> polynomial (S N) f.
Proof.
  intros (a & Ha). exists (fun n => if (n <=? N)%nat then a n else 0%R). intros x. rewrite Ha.
  rewrite (seq_S (S N)), Rsum_app. cbn [Rsum]. rewrite Nat.add_0_l.
  replace (S N <=? N)%nat with false by (symmetry; apply Nat.leb_gt; lia). rewrite Rmult_0_l, !Rplus_0_r.
  apply Rsum_ext. intros n Hn. apply in_seq in Hn. replace (n <=? N)%nat with true by (symmetry; apply Nat.leb_le; lia). reflexivity.
Qed.
Lemma poly_le N M f : (N <= M)%nat -> polynomial N f -> polynomial M f.
Proof. intros L. induction L; auto. intros H. apply poly_up, IHL, H. Qed.
Lemma poly_x N f : polynomial N f -> polynomial (S N) (fun x => x * f x)%R.
Proof.
  intros (a & Ha). exists (fun n => match n with O => 0%R | S n => a n end). intros x. rewrite Ha, <- Rsum_scal_l.
  change (seq 0 (S (S N))) with (0%nat :: seq 1 (S N)). cbn [Rsum]. rewrite <- seq_shift, Rsum_map, Rmult_0_l, Rplus_0_l.
  apply Rsum_ext. intros n _. cbn [pow]. ring.
Qed.
Lemma poly_lin N p q f : polynomial N f -> polynomial (S N) (fun x => (p + q * x) * f x)%R.
Proof.
  intros H. apply (poly_ext (S N) (fun x => p * f x + q * (x * f x))%R); [intros; ring|].
  apply poly_plus; apply poly_scal; [apply poly_up; exact H|apply poly_x; exact H].
Qed.
Lemma poly_one N : polynomial N (fun _ => 1%R).
Proof.
  apply (poly_le 0); [lia|]. exists (fun _ => 1%R). intros x. cbn. ring.
Qed.
Lemma poly_pow p q n : polynomial n (fun x => (p + q * x) ^ n)%R.
Proof.
  induction n as [|n IH]; [apply poly_one|].
  cbn [pow]. apply (poly_lin n p q (fun x => (p + q * x) ^ n)%R IH).
Qed.
Lemma poly_pow_mult p q n N f : polynomial N f -> polynomial (n + N) (fun x => (p + q * x) ^ n * f x)%R.
Proof.
  intros H. induction n as [|n IH].
  - apply (poly_ext N f); [intros; cbn [pow]; ring|exact H].
  - cbn [plus]. apply (poly_ext (S (n + N)) (fun x => (p + q * x) * ((p + q * x) ^ n * f x))%R); [intros; cbn [pow]; ring|].
    apply (poly_lin (n + N) p q (fun x => (p + q * x) ^ n * f x)%R IH).
Qed.
(** affine substitution *)
Lemma poly_affine N f p q : polynomial N f -> polynomial N (fun x => f (p + q * x)%R).
Proof.
  intros (a & Ha). apply (poly_ext N (fun x => Rsum (seq 0 (S N)) (fun n => a n * (p + q * x) ^ n)%R)).
  - intros x. symmetry. apply Ha.
  - apply (poly_Rsum N (seq 0 (S N)) (fun n x => a n * (p + q * x) ^ n)%R). intros n Hn. apply in_seq in Hn.
    apply poly_scal. apply (poly_le n); [lia|]. apply poly_pow.
Qed.

(** ** Products of Wigner functions with the same projections *)
Lemma half_squares th : (cos (th / 2) * cos (th / 2) = / 2 + / 2 * cos th)%R /\ (sin (th / 2) * sin (th / 2) = / 2 + - / 2 * cos th)%R.
Proof.
  assert (A := cos_2a_cos (th / 2)). assert (B := cos_2a_sin (th / 2)). replace (2 * (th / 2))%R with th in * by field. lra.
Qed.
Lemma wd_poly n a b t : (a <= n)%nat -> (b <= n)%nat ->
  exists f, polynomial (n + t) f /\ forall th, (wd n a b th * wd (n + 2 * t) (a + t) (b + t) th)%R = f (cos th).
Proof.
  intros Ha Hb.
  exists (fun z => wnorm n a b * wnorm (n + 2 * t) (a + t) (b + t) *
    Rsum (seq 0 (S n)) (fun i => Rsum (seq 0 (S (n + 2 * t))) (fun k =>
      wc n a b i * wc (n + 2 * t) (a + t) (b + t) k * ((/ 2 + / 2 * z) ^ (i + k + n - a - b) * (/ 2 + - / 2 * z) ^ (a + b + t - i - k))))%R)%R.
  split.
  - apply poly_scal. apply (poly_Rsum (n + t) (seq 0 (S n)) (fun i z => Rsum (seq 0 (S (n + 2 * t))) (fun k =>
      wc n a b i * wc (n + 2 * t) (a + t) (b + t) k * ((/ 2 + / 2 * z) ^ (i + k + n - a - b) * (/ 2 + - / 2 * z) ^ (a + b + t - i - k))))%R).
    intros i _.
    apply (poly_Rsum (n + t) (seq 0 (S (n + 2 * t))) (fun k z =>
      wc n a b i * wc (n + 2 * t) (a + t) (b + t) k * ((/ 2 + / 2 * z) ^ (i + k + n - a - b) * (/ 2 + - / 2 * z) ^ (a + b + t - i - k)))%R).
    intros k _. unfold wc. destruct (wrange n a b i) eqn:R1.
    + destruct (wrange (n + 2 * t) (a + t) (b + t) k) eqn:R2.
      * apply poly_scal. apply wrange_spec in R1, R2.
        replace (n + t)%nat with ((i + k + n - a - b) + (a + b + t - i - k))%nat by lia.
        apply (poly_pow_mult (/ 2) (/ 2) (i + k + n - a - b) (a + b + t - i - k) (fun z => (/ 2 + - / 2 * z) ^ (a + b + t - i - k))%R).
        apply poly_pow.
      * apply (poly_ext _ (fun _ => 0%R)); [intros; ring|apply poly_zero].
    + apply (poly_ext _ (fun _ => 0%R)); [intros; ring|apply poly_zero].
  - intros th. destruct (half_squares th) as [C2 S2].
    unfold wd. fold (wnorm n a b). fold (wnorm (n + 2 * t) (a + t) (b + t)).
    match goal with |- (?x * ?y * (?u * ?v))%R = _ => transitivity (x * u * (y * v))%R; [ring|] end.
    f_equal. rewrite Rsum_mult. apply Rsum_ext. intros i _. apply Rsum_ext. intros k _.
    rewrite term_product by assumption. rewrite C2, S2. reflexivity.
Qed.
Lemma wigner_poly N J J' M M' : J <= Z.of_nat N -> J' <= Z.of_nat N ->
  exists f, polynomial N f /\ forall th, (wigner_d J M M' th * wigner_d J' M M' th)%R = f (cos th).
Proof.
  intros HJ HJ'.
  assert (Zr : (exists f, polynomial N f /\ forall th : R, 0%R = f (cos th))).
  { exists (fun _ => 0%R). split; [apply poly_zero|reflexivity]. }
  destruct (is_projection J M) eqn:P1.
  2:{ destruct Zr as (f & Pf & E). exists f. split; [exact Pf|]. intros th. rewrite wigner_d_out_l, <- E by exact P1. ring. }
  destruct (is_projection J M') eqn:P2.
  2:{ destruct Zr as (f & Pf & E). exists f. split; [exact Pf|]. intros th. rewrite wigner_d_out_r, <- E by exact P2. ring. }
  destruct (is_projection J' M) eqn:Q1.
  2:{ destruct Zr as (f & Pf & E). exists f. split; [exact Pf|]. intros th. rewrite (wigner_d_out_l J'), <- E by exact Q1. ring. }
  destruct (is_projection J' M') eqn:Q2.
  2:{ destruct Zr as (f & Pf & E). exists f. split; [exact Pf|]. intros th. rewrite (wigner_d_out_r J'), <- E by exact Q2. ring. }
  clear Zr.
  destruct (is_projection_ex J M P1) as (a & Ha & Em & Ea & J0). destruct (is_projection_ex J M' P2) as (b & Hb & Em' & Eb & _).
  destruct (is_projection_ex J' M Q1) as (a' & Ha' & Fm & Ea' & J0'). destruct (is_projection_ex J' M' Q2) as (b' & Hb' & Fm' & Eb' & _).
  assert (W : forall th, (wigner_d J M M' th * wigner_d J' M M' th = wd (Z.to_nat J) a b th * wd (Z.to_nat J') a' b' th)%R).
  { intros th. rewrite !wigner_d_in by assumption. rewrite Ea, Eb, Ea', Eb'. reflexivity. }
  destruct (Z.le_ge_cases J J') as [L|L].
  - destruct (wd_poly (Z.to_nat J) a b (a' - a) Ha Hb) as (f & Pf & E).
    exists f. split; [apply (poly_le (Z.to_nat J + (a' - a))); [lia|exact Pf]|].
    intros th. rewrite W, <- E.
    replace (Z.to_nat J + 2 * (a' - a))%nat with (Z.to_nat J') by lia.
    replace (a + (a' - a))%nat with a' by lia. replace (b + (a' - a))%nat with b' by lia. reflexivity.
  - destruct (wd_poly (Z.to_nat J') a' b' (a - a') Ha' Hb') as (f & Pf & E).
    exists f. split; [apply (poly_le (Z.to_nat J' + (a - a'))); [lia|exact Pf]|].
    intros th. rewrite W, <- E.
    replace (Z.to_nat J' + 2 * (a - a'))%nat with (Z.to_nat J) by lia.
    replace (a' + (a - a'))%nat with a by lia. replace (b' + (a - a'))%nat with b by lia. ring.
Qed.
Lemma poly_choice {A} N (l : list A) (g : A -> R -> R) (h : R -> R) :
  (forall a, In a l -> exists f, polynomial N f /\ forall th, g a th = f (h th)) ->
  exists f, polynomial N f /\ forall th, Rsum l (fun a => g a th) = f (h th).
Proof.
  induction l as [|a l IH]; intros H.
  - exists (fun _ => 0%R). split; [apply poly_zero|reflexivity].
  - destruct (H a (or_introl eq_refl)) as (f & Pf & Ef). destruct IH as (f' & Pf' & Ef').
    { intros. apply H. right. assumption. }
    exists (fun x => f x + f' x)%R. split; [apply poly_plus; assumption|]. intros th. cbn [Rsum]. rewrite Ef, Ef'. reflexivity.
Qed.
Lemma waves_poly N (Js : list Z) (w : Z -> C) M M' : (forall J, In J Js -> J <= Z.of_nat N) ->
  exists f, polynomial N f /\
    forall th, (Cmod (Csum Js (fun J => RtoC (wigner_d J M M' th) * w J)%C) ^ 2)%R = f (cos th).
Proof.
  intros H.
  destruct (poly_choice N Js (fun J th => Rsum Js (fun J' => (Re (w J) * Re (w J') + Im (w J) * Im (w J')) * (wigner_d J M M' th * wigner_d J' M M' th)))%R cos)
    as (f & Pf & Ef).
  { intros J HJ. apply (poly_choice N Js (fun J' th => (Re (w J) * Re (w J') + Im (w J) * Im (w J')) * (wigner_d J M M' th * wigner_d J' M M' th))%R cos).
    intros J' HJ'. destruct (wigner_poly N J J' M M' (H J HJ) (H J' HJ')) as (g & Pg & Eg).
    exists (fun x => (Re (w J) * Re (w J') + Im (w J) * Im (w J')) * g x)%R. split; [apply poly_scal, Pg|].
    intros th. rewrite Eg. reflexivity. }
  exists f. split; [exact Pf|]. intros th. rewrite <- Ef. apply Cmod_sum_sq.
Qed.

(** ** Models *)
Section Model.
  Variables (b : builder) (s : Z -> state) (dyn : chain -> defexpr) (ref : option Z) (cl uc : bool) (m : model) (i j k : Z).
  Hypothesis D : std_decay (b_decay b) s.
  Hypothesis Y : dynamics_of b dyn.
  Hypothesis P : b_prod_helicity b = false -> plain_resonances (b_decay b).
  Hypothesis F : formulate b ref cl uc = Ok m.
  Hypothesis Cy : cyclic i j k.
  
  (** the amplitude in terms of the scattering angle *)
  Lemma amp_turned ev th l : helicity_tuple s l ->
    amp_value (turned ev i j th) m k l =
      dpd_amplitude (b_prod_helicity b) (b_dec_helicity b) s (d_chains (b_decay b))
        (fun c r => (if uc then coefficient else coupling_product) ev (b_prod_helicity b) (b_dec_helicity b)
                      c r (at4 l k) (at4 l i) (at4 l j))
        (fun c => ceval ev (fun _ => 0) (de_expr (dyn c))) th (at4 l) i j k.
  Proof.
    intros Hl. rewrite (amplitude_total b s dyn ref cl uc m D Y P F l i j k _ Hl Cy).
    unfold turned at 3. cbn [e_sym]. rewrite Prelude.eqb_refl. unfold dpd_amplitude.
    apply Csum_ext. intros c Ic. apply filter_In in Ic. destruct Ic as [Ic _]. apply Csum_ext. intros r _.
    rewrite (lineshape_eval (turned ev i j th) ev (fun _ => 0) (fun _ => 0) _ (proj2 (Y c Ic))).
    - destruct uc; reflexivity.
    - intros x Hx _. cbn [turned e_sym]. destruct (eqb x (theta_name i j)) eqn:E; [|reflexivity].
      apply (proj1 (Prelude.eqb_eq _ _)) in E. subst x. contradiction Hx. reflexivity.
  Qed.
  Lemma spins_of c : In c (d_chains (b_decay b)) -> In (p_spin (ch_resonance c)) (resonance_spins (b_decay b)).
  Proof. intros Hc. unfold resonance_spins. rewrite nodup_In. apply in_map_iff. eauto. Qed.

  Hypothesis One : one_subsystem (b_decay b) k.
  Variable N : nat.
  Hypothesis HN : forall c, In c (d_chains (b_decay b)) -> p_spin (ch_resonance c) <= Z.of_nat N.

  Lemma spin_bound J : In J (resonance_spins (b_decay b)) -> J <= Z.of_nat N.
  Proof.
    unfold resonance_spins. rewrite nodup_In, in_map_iff. intros (c & <- & Hc). apply HN. exact Hc.
  Qed.
  Lemma amplitude_poly scal X l :
    exists f, polynomial N f /\ forall th,
      (Cmod (dpd_amplitude (b_prod_helicity b) (b_dec_helicity b) s (d_chains (b_decay b)) scal X th (at4 l) i j k) ^ 2)%R = f (cos th).
  Proof.
    set (Js := resonance_spins (b_decay b)).
    assert (NDJ : NoDup Js) by apply NoDup_nodup.
    assert (HJ : forall c, In c (d_chains (b_decay b)) ->
      st_index (ch_spectator c) = k /\ In (p_spin (ch_resonance c)) Js).
    { intros c Hc. split; [apply One; auto|]. apply spins_of. exact Hc. }
    destruct (waves_poly N Js (partial_wave (b_prod_helicity b) (b_dec_helicity b) (d_chains (b_decay b)) scal X (at4 l) i j k)
      (at4 l 0 + at4 l k) (at4 l i - at4 l j) spin_bound) as (f & Pf & Ef).
    exists f. split; [exact Pf|]. intros th. rewrite <- Ef.
    rewrite (amplitude_waves _ _ _ _ _ _ _ _ _ _ _ Js NDJ HJ), Cmod_mult, Cmod_R, Rpow_mult_distr.
    rewrite pow2_abs. cbn [pow]. rewrite !Rmult_1_r.
    set (u := parity_sign (p_spin (s k) - at4 l k)). set (v := parity_sign (p_spin (s j) - at4 l j)).
    replace (u * v * (u * v))%R with ((u * u) * (v * v))%R by ring. unfold u, v. rewrite !ObsProofs.parity_sign_sq, !Rmult_1_l.
    reflexivity.
  Qed.
  Lemma c102_angle ev : exists f, polynomial N f /\ forall th, full_value (turned ev i j th) m = RtoC (f (cos th)).
  Proof.
    destruct (poly_choice N (tuples s) (fun l th => (Cmod (amp_value (turned ev i j th) m k l) ^ 2)%R) cos) as (f & Pf & Ef).
    { intros l Hl. apply tuples_In in Hl.
      destruct (amplitude_poly (fun c r => (if uc then coefficient else coupling_product) ev (b_prod_helicity b) (b_dec_helicity b)
                      c r (at4 l k) (at4 l i) (at4 l j)) (fun c => ceval ev (fun _ => 0) (de_expr (dyn c))) l) as (f & Pf & Ef).
      exists f. split; [exact Pf|]. intros th. rewrite amp_turned by exact Hl. apply Ef. }
    exists f. split; [exact Pf|]. intros th. rewrite (c92 b s ref cl uc m k D F One). f_equal. apply Ef.
  Qed.
End Model.
