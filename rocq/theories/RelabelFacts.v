(** Change of the labels of the final state: angles, Wigner functions and chains. *)
From Coq Require Import String ZArith QArith Qcanon Qreals List Bool Reals Lia Lra Permutation Sorted.
From Coquelicot Require Import Complex.
From Verif Require Import Prelude Spin Decay Expr Angles Sums Wigner CG CExpr SpecKin SpecDPD Builder
  SpinFacts DecayFacts KinFacts AnglesFacts WignerFacts CExprFacts BuilderFacts ModelFacts RefFacts CGFacts CGComplete LSBasis SpecLS LSProofs
  SpecParity ChainProofs ParityProofs SpecRelabel AnglesProofs.
Import ListNotations.
Local Open Scope string_scope.
Local Open Scope Z_scope.
Local Open Scope list_scope.

(** ** d^j_{m,m'}(-x) = (-1)^(m-m') d^j_{m,m'}(x) *)
Lemma wigner_d_neg j m m' x : wigner_d j m m' (- x) = (parity_sign (m - m') * wigner_d j m m' x)%R.
Proof.
  destruct (is_projection j m) eqn:E.
  2:{ rewrite !wigner_d_out_l; [ring|exact E|exact E]. }
  destruct (is_projection j m') eqn:E'.
  2:{ rewrite !wigner_d_out_r; [ring|exact E'|exact E']. }
  rewrite !wigner_d_in by assumption.
  destruct (is_projection_ex j m E) as (a & Ha & Em & Pa & Hj).
  destruct (is_projection_ex j m' E') as (b & Hb & Em' & Pb & _).
  rewrite Pa, Pb.
  assert (S : parity_sign (m - m') = ((-1) ^ (a + b))%R).
  { rewrite <- (parity_sign_pow (2 * Z.of_nat (a + b)) (a + b) eq_refl). apply (parity_sign_4 _ _ (- Z.of_nat b)). lia. }
  rewrite S. unfold wd. set (sq := sqrt _).
  transitivity (sq * ((-1) ^ (a + b) * Rsum (seq 0 (Datatypes.S (Z.to_nat j))) (wd_term (Z.to_nat j) a b (cos (x / 2)) (sin (x / 2)))))%R; [|ring].
  f_equal. rewrite <- Rsum_scal_l. apply Rsum_ext. intros i _. unfold wd_term.
  destruct (Nat.leb_spec i a) as [H1|H1]; [|cbn [andb]; ring].
  destruct (Nat.leb_spec i b) as [H2|H2]; [|cbn [andb]; ring]. cbn [andb].
  destruct (Nat.leb_spec (a + b) (Z.to_nat j + i)) as [H3|H3]; [|ring].
  replace (- x / 2)%R with (- (x / 2))%R by lra. rewrite cos_neg, sin_neg.
  replace (- sin (x / 2))%R with (-1 * sin (x / 2))%R by ring. rewrite Rpow_mult_distr.
  replace ((-1) ^ (a + b - 2 * i))%R with ((-1) ^ (a + b))%R.
  2:{ apply minus_one_pow_parity. apply Nat.even_spec. exists (a + b - i)%nat. lia. }
  unfold Rdiv. ring.
Qed.

(** ** d^j_{m,-m'}(pi - x) = (-1)^(j+m) d^j_{m,m'}(x) *)
Lemma map_NoDup_in {A B} (f : A -> B) l : (forall x y, In x l -> In y l -> f x = f y -> x = y) -> NoDup l -> NoDup (map f l).
Proof.
  intros H N. induction N as [|x l Hx N IH]; [constructor|]. cbn [map]. constructor.
  - rewrite in_map_iff. intros (y & E & Hy). apply Hx. rewrite <- (H y x); [exact Hy|right; exact Hy|left; reflexivity|exact E].
  - apply IH. intros y z Hy Hz. apply H; right; assumption.
Qed.
Lemma Rsum_mirror a n (f g : nat -> R) : (a <= n)%nat ->
  (forall i, (i <= a)%nat -> f i = g (a - i)%nat) -> (forall i, (a < i)%nat -> f i = 0%R) -> (forall i, (a < i)%nat -> g i = 0%R) ->
  Rsum (seq 0 (S n)) f = Rsum (seq 0 (S n)) g.
Proof.
  intros L E Zf Zg.
  assert (X : forall h, (forall i, (a < i)%nat -> h i = 0%R) -> Rsum (seq 0 (S n)) h = Rsum (seq 0 (S a)) h).
  { intros h Hh. replace (S n) with (S a + (n - a))%nat by lia. rewrite seq_app, Rsum_app.
    rewrite (Rsum_zero (seq (0 + S a) (n - a)) h); [ring|]. intros i Hi. apply in_seq in Hi. apply Hh. lia. }
  rewrite (X f Zf), (X g Zg).
  transitivity (Rsum (map (fun i => a - i)%nat (seq 0 (S a))) g).
  - rewrite Rsum_map. apply Rsum_ext. intros i Hi. apply in_seq in Hi. apply E. lia.
  - apply Rsum_perm. apply NoDup_Permutation.
    + apply map_NoDup_in; [|apply seq_NoDup].
      intros x y Hx Hy. apply in_seq in Hx, Hy. lia.
    + apply seq_NoDup.
    + intros i. rewrite in_map_iff. split.
      * intros (y & <- & Hy). apply in_seq in Hy. apply in_seq. lia.
      * intros Hi. apply in_seq in Hi. exists (a - i)%nat. split; [lia|]. apply in_seq. lia.
Qed.
Lemma wd_pi_minus n a b x : (a <= n)%nat -> (b <= n)%nat ->
  wd n a (n - b) (PI - x) = ((-1) ^ a * wd n a b x)%R.
Proof.
  intros Ha Hb. unfold wd.
  replace ((PI - x) / 2)%R with (PI / 2 - x / 2)%R by lra. rewrite cos_shift, sin_shift.
  replace (n - (n - b))%nat with b by lia.
  replace (INR (fact a) * INR (fact (n - a)) * INR (fact (n - b)) * INR (fact b))%R
    with (INR (fact a) * INR (fact (n - a)) * INR (fact b) * INR (fact (n - b)))%R by ring.
  set (sq := sqrt _).
  transitivity (sq * ((-1) ^ a * Rsum (seq 0 (Datatypes.S n)) (wd_term n a b (cos (x / 2)) (sin (x / 2)))))%R; [|ring].
  f_equal. rewrite <- Rsum_scal_l. apply (Rsum_mirror a n); [assumption| | |].
  - intros i Hi. unfold wd_term.
    replace (i <=? a)%nat with true by (symmetry; apply Nat.leb_le; lia).
    replace (a - i <=? a)%nat with true by (symmetry; apply Nat.leb_le; lia). cbn [andb].
    replace (i <=? n - b)%nat with (a + b <=? n + (a - i))%nat.
    2:{ destruct (Nat.leb_spec (a + b) (n + (a - i))), (Nat.leb_spec i (n - b)); try reflexivity; lia. }
    replace (a + (n - b) <=? n + i)%nat with (a - i <=? b)%nat.
    2:{ destruct (Nat.leb_spec (a - i) b), (Nat.leb_spec (a + (n - b)) (n + i)); try reflexivity; lia. }
    rewrite andb_comm.
    destruct (Nat.leb_spec (a - i) b) as [H1|H1]; [|cbn [andb]; ring].
    destruct (Nat.leb_spec (a + b) (n + (a - i))) as [H2|H2]; [|cbn [andb]; ring]. cbn [andb].
    replace (2 * i + n - a - (n - b))%nat with (a + b - 2 * (a - i))%nat by lia.
    replace (a + (n - b) - 2 * i)%nat with (2 * (a - i) + n - a - b)%nat by lia.
    replace (n - b - i)%nat with (n + (a - i) - a - b)%nat by lia.
    replace (n + i - a - (n - b))%nat with (b - (a - i))%nat by lia.
    replace (a - (a - i))%nat with i by lia.
    replace ((-1) ^ (a - i))%R with ((-1) ^ a * (-1) ^ i)%R.
    2:{ rewrite <- pow_add. apply minus_one_pow_parity. apply Nat.even_spec. exists a. lia. }
    unfold Rdiv.
    replace (INR (fact (a - i)) * INR (fact i) * INR (fact (b - (a - i))) * INR (fact (n + (a - i) - a - b)))%R
      with (INR (fact i) * INR (fact (a - i)) * INR (fact (n + (a - i) - a - b)) * INR (fact (b - (a - i))))%R by ring.
    ring.
  - intros i Hi. unfold wd_term. destruct (Nat.leb_spec i a) as [H1|H1]; [lia|]. reflexivity.
  - intros i Hi. unfold wd_term. destruct (Nat.leb_spec i a) as [H1|H1]; [lia|]. cbn [andb]. ring.
Qed.
Lemma wigner_d_pi_minus j m m' x : wigner_d j m (- m') (PI - x) = (parity_sign (j + m) * wigner_d j m m' x)%R.
Proof.
  destruct (is_projection j m) eqn:E.
  2:{ rewrite !wigner_d_out_l; [ring|exact E|exact E]. }
  destruct (is_projection j m') eqn:E'.
  2:{ rewrite !wigner_d_out_r; [ring|exact E'|rewrite is_projection_opp; exact E']. }
  rewrite !wigner_d_in by (rewrite ?is_projection_opp; assumption).
  destruct (is_projection_ex j m E) as (a & Ha & Em & Pa & Hj).
  destruct (is_projection_ex j m' E') as (b & Hb & Em' & Pb & _).
  assert (Nb : pidx j (- m') = (Z.to_nat j - b)%nat).
  { unfold pidx. rewrite Em'. replace (j + - (2 * Z.of_nat b - j)) with (2 * (j - Z.of_nat b)) by lia. rewrite half_2. lia. }
  rewrite Pa, Pb, Nb, wd_pi_minus by assumption. f_equal.
  rewrite <- (parity_sign_pow (2 * Z.of_nat a) a eq_refl). f_equal. lia.
Qed.

(** ** The labels *)
Lemma label_cases x y z : In x [1; 2; 3] -> In y [1; 2; 3] -> In z [1; 2; 3] -> NoDup [x; y; z] -> cyclic x y z \/ cyclic y x z.
Proof.
  intros I1 I2 I3 N. unfold cyclic. inversion N as [|? ? N1 N']; subst. inversion N' as [|? ? N2 _]; subst. cbn [In] in *.
  destruct I1 as [<-|[<-|[<-|[]]]], I2 as [<-|[<-|[<-|[]]]], I3 as [<-|[<-|[<-|[]]]]; try (exfalso; tauto); tauto.
Qed.
Lemma relabelling_cases p : relabelling p ->
  (keeps_order p \/ exchanges p) /\
  (forall i, In i [0; 1; 2; 3] -> In (p i) [0; 1; 2; 3]) /\ (forall i, In i [1; 2; 3] -> In (p i) [1; 2; 3]).
Proof.
  intros [P0 P].
  assert (I : forall i, In i [1; 2; 3] -> In (p i) [1; 2; 3]).
  { intros i Hi. apply (Permutation_in _ P). cbn [In] in *. intuition (subst; auto). }
  split; [|split; [|exact I]].
  - assert (N : NoDup [p 1; p 2; p 3]).
    { apply (Permutation_NoDup (Permutation_sym P)). repeat constructor; cbn [In]; intuition discriminate. }
    pose proof (I 1 ltac:(cbn [In]; auto)) as I1. pose proof (I 2 ltac:(cbn [In]; auto)) as I2. pose proof (I 3 ltac:(cbn [In]; auto)) as I3.
    apply (label_cases _ _ _ I1 I2 I3 N).
  - intros i [<-|Hi]; [rewrite P0; left; reflexivity|right; apply I; exact Hi].
Qed.
Lemma relabelling_inj p i j : relabelling p -> In i [0; 1; 2; 3] -> In j [0; 1; 2; 3] -> p i = p j -> i = j.
Proof.
  intros [P0 P] Hi Hj E.
  assert (N : NoDup [p 0; p 1; p 2; p 3]).
  { rewrite P0. apply (Permutation_NoDup (l := [0; 1; 2; 3])).
    - apply perm_skip. apply Permutation_sym. exact P.
    - repeat constructor; cbn [In]; intuition discriminate. }
  inversion N as [|? ? N0 N']; subst. inversion N' as [|? ? N1 N'']; subst. inversion N'' as [|? ? N2 _]; subst.
  cbn [In] in *.
  destruct Hi as [<-|[<-|[<-|[<-|[]]]]], Hj as [<-|[<-|[<-|[<-|[]]]]]; try reflexivity; exfalso; intuition congruence.
Qed.

(** ** The angles *)
Section Angles.
  Variables (p : Z -> Z) (env env' : symbol -> R).
  Hypothesis P : relabelling p.
  Hypothesis E0 : env' (Sym "m0" ANonneg) = env (Sym "m0" ANonneg).
  Hypothesis EM : forall i, In i [1; 2; 3] ->
    env' (Sym ("m" ++ str_of_Z (p i))%string ANonneg) = env (Sym ("m" ++ str_of_Z i)%string ANonneg) /\
    env' (Sym ("sigma" ++ str_of_Z (p i))%string ANonneg) = env (Sym ("sigma" ++ str_of_Z i)%string ANonneg).

  Lemma env_at i : In i [1; 2; 3] -> pick (p i) (at_m1 env') (at_m2 env') (at_m3 env') = pick i (at_m1 env) (at_m2 env) (at_m3 env) /\
    pick (p i) (at_s1 env') (at_s2 env') (at_s3 env') = pick i (at_s1 env) (at_s2 env) (at_s3 env).
  Proof.
    intros Hi. pose proof (EM i Hi) as [A B].
    pose proof (proj2 (proj2 (relabelling_cases p P)) i Hi) as Hp. cbn [In] in Hi, Hp.
    destruct Hi as [<-|[<-|[<-|[]]]], Hp as [Q|[Q|[Q|[]]]]; rewrite <- Q in A, B |- *; split; assumption.
  Qed.
  Ltac pvals :=
    pose proof (env_at 1 ltac:(cbn [In]; auto)) as [A1 B1]; pose proof (env_at 2 ltac:(cbn [In]; auto)) as [A2 B2];
    pose proof (env_at 3 ltac:(cbn [In]; auto)) as [A3 B3].

  Lemma theta_kept i j k : keeps_order p -> cyclic i j k ->
    rv env' (formulate_scattering_angle (p i) (p j)) = rv env (formulate_scattering_angle i j).
  Proof.
    intros K C. pvals. assert (A0 : at_m0 env' = at_m0 env) by exact E0.
    destruct K as [K|[K|[K|[]]]]; apply pair_equal_spec in K; destruct K as [K K3]; apply pair_equal_spec in K; destruct K as [K1 K2];
      rewrite <- K1 in A1, B1; rewrite <- K2 in A2, B2; rewrite <- K3 in A3, B3; cbn in A1, B1, A2, B2, A3, B3;
      destruct C as [C|[C|[C|[]]]]; apply pair_equal_spec in C; destruct C as [C C3]; apply pair_equal_spec in C; destruct C as [C1 C2];
      rewrite <- C1, <- C2; rewrite <- ?K1, <- ?K2, <- ?K3;
      rewrite ?th_12, ?th_23, ?th_31; rewrite A0, A1, A2, A3, ?B1, ?B2, ?B3; reflexivity.
  Qed.
  Lemma theta_exchanged i j k : exchanges p -> cyclic i j k -> physical env -> nonsingular env ->
    rv env' (formulate_scattering_angle (p j) (p i)) = (PI - rv env (formulate_scattering_angle i j))%R.
  Proof.
    intros K C Ph NS. pvals. assert (A0 : at_m0 env' = at_m0 env) by exact E0.
    assert (X : rv env' (formulate_scattering_angle (p j) (p i)) = rv env (formulate_scattering_angle j i)).
    { destruct K as [K|[K|[K|[]]]]; apply pair_equal_spec in K; destruct K as [K K3]; apply pair_equal_spec in K; destruct K as [K2 K1];
        rewrite <- K1 in A1, B1; rewrite <- K2 in A2, B2; rewrite <- K3 in A3, B3; cbn in A1, B1, A2, B2, A3, B3;
        destruct C as [C|[C|[C|[]]]]; apply pair_equal_spec in C; destruct C as [C C3]; apply pair_equal_spec in C; destruct C as [C1 C2];
        rewrite <- C1, <- C2; rewrite <- ?K1, <- ?K2, <- ?K3;
        rewrite ?th_12, ?th_23, ?th_31, ?th_21, ?th_32, ?th_13; rewrite A0, A1, A2, A3, ?B1, ?B2, ?B3; reflexivity. }
    rewrite X.
    destruct C as [C|[C|[C|[]]]]; (apply pair_equal_spec in C; destruct C as [C C3]; apply pair_equal_spec in C; destruct C as [C1 C2];
      rewrite <- C1, <- C2); [exact (c20 env 1 2 _ _ _ _ Ph NS eq_refl eq_refl)|exact (c20 env 2 3 _ _ _ _ Ph NS eq_refl eq_refl)
        |exact (c20 env 3 1 _ _ _ _ Ph NS eq_refl eq_refl)].
  Qed.

  Ltac forms := rewrite ?zeta_rot0 by lia;
    rewrite ?hat_31, ?hat_12, ?hat_23, ?z_113, ?z_121, ?z_221, ?z_232, ?z_332, ?z_313, ?z_123, ?z_231, ?z_312.
  Ltac both_signs env0 env1 vals :=
    first [ rewrite !zeta_diag by lia; reflexivity
          | forms; vals; reflexivity
          | rewrite (zeta_antisym env0), (zeta_antisym env1) by lia; apply f_equal; forms; vals; reflexivity ].

  Lemma zeta_kept i k r : keeps_order p -> zeta_ids i k r ->
    rv env' (formulate_zeta_angle (p i) (p k) (p r)) = rv env (formulate_zeta_angle i k r).
  Proof.
    intros K Z. pvals. assert (A0 : at_m0 env' = at_m0 env) by exact E0. destruct P as [P0 _].
    assert (Hi : i = 0 \/ i = 1 \/ i = 2 \/ i = 3) by (unfold zeta_ids in Z; lia).
    assert (Hk : k = 1 \/ k = 2 \/ k = 3) by (unfold zeta_ids in Z; lia).
    assert (Hr : r = 0 \/ r = 1 \/ r = 2 \/ r = 3) by (unfold zeta_ids in Z; lia).
    destruct K as [K|[K|[K|[]]]]; apply pair_equal_spec in K; destruct K as [K K3]; apply pair_equal_spec in K; destruct K as [K1 K2];
      rewrite <- K1 in A1, B1; rewrite <- K2 in A2, B2; rewrite <- K3 in A3, B3; cbn in A1, B1, A2, B2, A3, B3;
      destruct Hi as [->|[->|[->| ->]]], Hk as [->|[->| ->]], Hr as [->|[->|[->| ->]]];
      try (exfalso; unfold zeta_ids in Z; lia);
      rewrite ?P0, <- ?K1, <- ?K2, <- ?K3; clear Z P0 K1 K2 K3 EM;
      rewrite ?zeta_ref0 by lia;
      both_signs env' env ltac:(rewrite ?A0, ?A1, ?A2, ?A3, ?B1, ?B2, ?B3).
  Qed.

  Lemma kallen_last_swap a b c : kallen a b c = kallen a c b.
  Proof. unfold kallen. ring. Qed.
  Lemma z_swap xa xb xc sa sb sc : z_ xa xb xc sa sb sc = z_ xa xc xb sa sc sb.
  Proof.
    unfold z_. rewrite (kallen_last_swap sb xc xa), (kallen_last_swap sc xa xb), (Rmult_comm (sqrt _)).
    f_equal. f_equal. unfold n_zeta. ring.
  Qed.
  Lemma hat_swap x0 xi xj si sj sk : hat_ x0 xi xj si sj sk = hat_ x0 xj xi sj si sk.
  Proof.
    unfold hat_. rewrite (kallen_last_swap x0 xj sj), (kallen_last_swap x0 si xi), (Rmult_comm (sqrt _)).
    f_equal. f_equal. unfold n_hat. ring.
  Qed.
  Ltac opp_signs env0 env1 vals :=
    first [ rewrite !zeta_diag by lia; symmetry; apply Ropp_0
          | rewrite (zeta_antisym env0) by lia; apply f_equal; forms; vals; first [reflexivity|apply hat_swap|apply z_swap]
          | rewrite (zeta_antisym env1) by lia; rewrite Ropp_involutive; forms; vals; first [reflexivity|apply hat_swap|apply z_swap] ].
  Lemma zeta_exchanged i k r : exchanges p -> zeta_ids i k r ->
    rv env' (formulate_zeta_angle (p i) (p k) (p r)) = (- rv env (formulate_zeta_angle i k r))%R.
  Proof.
    intros K Z. pvals. assert (A0 : at_m0 env' = at_m0 env) by exact E0. destruct P as [P0 _].
    assert (Hi : i = 0 \/ i = 1 \/ i = 2 \/ i = 3) by (unfold zeta_ids in Z; lia).
    assert (Hk : k = 1 \/ k = 2 \/ k = 3) by (unfold zeta_ids in Z; lia).
    assert (Hr : r = 0 \/ r = 1 \/ r = 2 \/ r = 3) by (unfold zeta_ids in Z; lia).
    destruct K as [K|[K|[K|[]]]]; apply pair_equal_spec in K; destruct K as [K K3]; apply pair_equal_spec in K; destruct K as [K2 K1];
      rewrite <- K1 in A1, B1; rewrite <- K2 in A2, B2; rewrite <- K3 in A3, B3; cbn in A1, B1, A2, B2, A3, B3;
      destruct Hi as [->|[->|[->| ->]]], Hk as [->|[->| ->]], Hr as [->|[->|[->| ->]]];
      try (exfalso; unfold zeta_ids in Z; lia);
      rewrite ?P0, <- ?K1, <- ?K2, <- ?K3; clear Z P0 K1 K2 K3 EM;
      rewrite ?zeta_ref0 by lia;
      opp_signs env' env ltac:(rewrite ?A0, ?A1, ?A2, ?A3, ?B1, ?B2, ?B3).
  Qed.
End Angles.
