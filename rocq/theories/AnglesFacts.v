(** Proofs about the angle expressions of Angles.v *)
From Coq Require Import String ZArith List Bool Reals Lra Lia Psatz.
From Verif Require Import Prelude Expr Angles SpecKin KinFacts.
Import ListNotations.
Local Open Scope string_scope.
Local Open Scope Z_scope.
Local Open Scope list_scope.

Definition rv (env : symbol -> R) (r : res (symbol * rexpr)) : R :=
  match r with Ok (_, e) => reval env e | Err _ => 0%R end.
Lemma rv_ok env r s e : r = Ok (s, e) -> reval env e = rv env r.
Proof. intros ->; reflexivity. Qed.

Section Vals.
  Variable env : symbol -> R.
  Notation x0 := (at_m0 env * at_m0 env)%R.
  Notation x1 := (at_m1 env * at_m1 env)%R.
  Notation x2 := (at_m2 env * at_m2 env)%R.
  Notation x3 := (at_m3 env * at_m3 env)%R.
  Notation s1 := (at_s1 env).
  Notation s2 := (at_s2 env).
  Notation s3 := (at_s3 env).

  Local Open Scope R_scope.
  Definition th_ x0 xi xj xk sj sk :=
    acos (n_theta x0 xi xj xk sj sk / (sqrt (kallen x0 xk sk) * sqrt (kallen sk xi xj))).
  Definition hat_ x0 xi xj si sj sk :=
    acos (n_hat x0 xi xj si sj sk / (sqrt (kallen x0 xj sj) * sqrt (kallen x0 si xi))).
  Definition z0_ x0 xa xb sa sb sc :=
    acos (n_zeta0 x0 xa xb sa sb sc / (sqrt (kallen x0 xa sa) * sqrt (kallen sc xa xb))).
  Definition z_ xa xb xc sa sb sc :=
    acos (n_zeta xa xb xc sa sb sc / (sqrt (kallen sb xc xa) * sqrt (kallen sc xa xb))).
  Local Close Scope R_scope.

  Notation TH i j := (rv env (formulate_scattering_angle i j)).
  Lemma th_12 : TH 1 2 = th_ x0 x1 x2 x3 s2 s3. Proof. reflexivity. Qed.
  Lemma th_21 : TH 2 1 = th_ x0 x2 x1 x3 s1 s3. Proof. reflexivity. Qed.
  Lemma th_23 : TH 2 3 = th_ x0 x2 x3 x1 s3 s1. Proof. reflexivity. Qed.
  Lemma th_32 : TH 3 2 = th_ x0 x3 x2 x1 s2 s1. Proof. reflexivity. Qed.
  Lemma th_31 : TH 3 1 = th_ x0 x3 x1 x2 s1 s2. Proof. reflexivity. Qed.
  Lemma th_13 : TH 1 3 = th_ x0 x1 x3 x2 s3 s2. Proof. reflexivity. Qed.

  Notation HAT i j := (rv env (formulate_theta_hat_angle i j)).
  Lemma hat_31 : HAT 3 1 = hat_ x0 x3 x1 s3 s1 s2. Proof. reflexivity. Qed.
  Lemma hat_12 : HAT 1 2 = hat_ x0 x1 x2 s1 s2 s3. Proof. reflexivity. Qed.
  Lemma hat_23 : HAT 2 3 = hat_ x0 x2 x3 s2 s3 s1. Proof. reflexivity. Qed.

  Notation Z i j k := (rv env (formulate_zeta_angle i j k)).
  Lemma z_113 : Z 1 1 3 = z0_ x0 x1 x2 s1 s2 s3. Proof. reflexivity. Qed.
  Lemma z_121 : Z 1 2 1 = z0_ x0 x1 x3 s1 s3 s2. Proof. reflexivity. Qed.
  Lemma z_221 : Z 2 2 1 = z0_ x0 x2 x3 s2 s3 s1. Proof. reflexivity. Qed.
  Lemma z_232 : Z 2 3 2 = z0_ x0 x2 x1 s2 s1 s3. Proof. reflexivity. Qed.
  Lemma z_332 : Z 3 3 2 = z0_ x0 x3 x1 s3 s1 s2. Proof. reflexivity. Qed.
  Lemma z_313 : Z 3 1 3 = z0_ x0 x3 x2 s3 s2 s1. Proof. reflexivity. Qed.
  Lemma z_123 : Z 1 2 3 = z_ x1 x2 x3 s1 s2 s3. Proof. reflexivity. Qed.
  Lemma z_231 : Z 2 3 1 = z_ x2 x3 x1 s2 s3 s1. Proof. reflexivity. Qed.
  Lemma z_312 : Z 3 1 2 = z_ x3 x1 x2 s3 s1 s2. Proof. reflexivity. Qed.
End Vals.

Ltac cases_in :=
  repeat match goal with
  | H : In _ [] |- _ => destruct H
  | H : In _ (_ :: _) |- _ => destruct H as [<- | H]
  end.

(** ** C11 *)
Lemma in123 i : (1 <= i <= 3) -> i = 1 \/ i = 2 \/ i = 3. Proof. lia. Qed.
Lemma subset123 i j : subsetb [i; j] [1; 2; 3] = true <-> (1 <= i <= 3 /\ 1 <= j <= 3).
Proof.
  unfold subsetb. cbn [forallb]. rewrite !andb_true_iff, !memb_In. cbn [In].
  split; [intros (A & B & _)|intros (A & B); repeat split]; lia.
Qed.

Lemma scattering_total i j :
  (1 <= i <= 3 /\ 1 <= j <= 3 /\ i <> j /\ exists e,
     formulate_scattering_angle i j = Ok (Sym ("theta_" ++ str_of_Z i ++ str_of_Z j)%string AReal, e))
  \/ (~ (1 <= i <= 3 /\ 1 <= j <= 3 /\ i <> j) /\ formulate_scattering_angle i j = Err ValueError).
Proof.
  destruct (subsetb [i; j] [1; 2; 3]) eqn:E.
  - pose proof E as E'. rewrite subset123 in E'. destruct E' as [Hi Hj].
    apply in123 in Hi. apply in123 in Hj.
    destruct Hi as [-> | [-> | ->]], Hj as [-> | [-> | ->]];
      (left; repeat split; try lia; eexists; reflexivity) || (right; split; [lia|reflexivity]).
  - right. split.
    + intros (A & B & _). rewrite (proj2 (subset123 i j)) in E; [discriminate|lia].
    + unfold formulate_scattering_angle. rewrite E. reflexivity.
Qed.

Lemma theta_hat_total i j :
  (1 <= i <= 3 /\ 1 <= j <= 3 /\ exists e,
     formulate_theta_hat_angle i j
     = Ok (Sym ("\hat\theta_" ++ str_of_Z i ++ "(" ++ str_of_Z j ++ ")")%string AReal, e))
  \/ (~ (1 <= i <= 3 /\ 1 <= j <= 3) /\ formulate_theta_hat_angle i j = Err ValueError).
Proof.
  destruct (subsetb [i; j] [1; 2; 3]) eqn:E.
  - pose proof E as E'. rewrite subset123 in E'. destruct E' as [Hi Hj].
    apply in123 in Hi. apply in123 in Hj. left.
    destruct Hi as [-> | [-> | ->]], Hj as [-> | [-> | ->]];
      (repeat split; try lia; eexists; reflexivity).
  - right. split.
    + intros (A & B). rewrite (proj2 (subset123 i j)) in E; [discriminate|lia].
    + unfold formulate_theta_hat_angle. cbn [theta_hat_fuel]. rewrite E. reflexivity.
Qed.


Definition zeta_tuples : list (Z * Z * Z) :=
  [(1,1,3);(1,2,1);(2,2,1);(2,3,2);(3,3,2);(3,1,3);(1,2,3);(2,3,1);(3,1,2);
   (1,3,1);(2,1,2);(3,2,3);(1,1,2);(2,2,3);(3,3,1);(1,3,2);(2,1,3);(3,2,1)].

Lemma key_eqb_false (k : Z * Z * Z) t : ~ In k zeta_tuples -> In t zeta_tuples -> eqb k t = false.
Proof. intros N I. apply eqb_neq. intros ->. auto. Qed.

Lemma zeta_none fuel r a f : r <> 0 -> f <> 0 -> a <> f -> ~ In (r, a, f) zeta_tuples ->
  zeta_fuel (S fuel) r a f = Err NotImplementedErr.
Proof.
  intros Hr Hf Ha N. cbn [zeta_fuel].
  rewrite (proj2 (Z.eqb_neq r 0) Hr), (proj2 (Z.eqb_neq f 0) Hf), (proj2 (Z.eqb_neq a f) Ha).
  rewrite !(key_eqb_false (r, a, f)) by (auto; unfold zeta_tuples; cbn [In]; tauto).
  destruct (memb (r, a, f) [(1, 2, 3); (2, 3, 1); (3, 1, 2)]) eqn:E1.
  { rewrite memb_In in E1. exfalso; apply N. unfold zeta_tuples; cbn [In] in *; tauto. }
  match goal with |- context [memb (r, a, f) ?l] => destruct (memb (r, a, f) l) eqn:E2 end.
  { rewrite memb_In in E2. exfalso; apply N. unfold zeta_tuples; cbn [In] in *; tauto. }
  reflexivity.
Qed.

Lemma zeta_tuples_range r a f : In (r, a, f) zeta_tuples -> 1 <= r <= 3 /\ 1 <= a <= 3 /\ 1 <= f <= 3.
Proof.
  unfold zeta_tuples. cbn [In]. intros H.
  repeat (destruct H as [H|H]; [injection H as <- <- <-; lia|]). destruct H.
Qed.

Lemma zeta_total r a f :
  (zeta_ids r a f /\ exists e, formulate_zeta_angle r a f = Ok (zeta_symbol r a f, e))
  \/ (~ zeta_ids r a f /\ r = 0 /\ formulate_zeta_angle r a f = Err ValueError)
  \/ (~ zeta_ids r a f /\ r <> 0 /\ (a = f \/ (f = 0 /\ a = r)) /\
      formulate_zeta_angle r a f = Ok (zeta_symbol r a f, RNum 0))
  \/ (~ zeta_ids r a f /\ r <> 0 /\ formulate_zeta_angle r a f = Err NotImplementedErr).
Proof.
  unfold zeta_ids.
  destruct (Z.eq_dec r 0) as [-> | Hr].
  - destruct (theta_hat_total a f) as [(Ha & Hf & e & H)|(N & H)].
    + left. split; [left; auto|]. exists e. unfold formulate_zeta_angle.
      cbn [zeta_fuel]. change (0 =? 0) with true. cbv iota. rewrite H. reflexivity.
    + right; left. split; [lia|]. split; [reflexivity|]. unfold formulate_zeta_angle.
      cbn [zeta_fuel]. change (0 =? 0) with true. cbv iota. rewrite H. reflexivity.
  - destruct (Z.eq_dec f 0) as [-> | Hf].
    + destruct (Z.eq_dec a r) as [-> | Har].
      * assert (V : formulate_zeta_angle r r 0 = Ok (zeta_symbol r r 0, RNum 0)).
        { unfold formulate_zeta_angle. cbn [zeta_fuel].
          rewrite (proj2 (Z.eqb_neq r 0) Hr), (Z.eqb_refl r). reflexivity. }
        destruct (Z_le_dec 1 r), (Z_le_dec r 3);
          try (right; right; left; split; [lia|]; split; [auto|]; split; [auto|];
               exact V).
        left. split; [lia|]. eauto.
      * destruct (in_dec eq_dec (r, a, r) zeta_tuples) as [I|N].
        -- pose proof (zeta_tuples_range _ _ _ I) as (A & B & _).
           left. split; [lia|].
           destruct (in123 r A) as [-> | [-> | ->]], (in123 a B) as [-> | [-> | ->]];
             eexists; reflexivity.
        -- right; right; right. split.
           { intros [H|(A & B & _)]; [lia|]. apply N.
             destruct (in123 r A) as [-> | [-> | ->]], (in123 a B) as [-> | [-> | ->]];
               try congruence; unfold zeta_tuples; cbn [In]; tauto. }
           split; auto. unfold formulate_zeta_angle.
           change (zeta_fuel 3 r a 0) with
             (let sym := zeta_symbol r a 0 in
              if r =? 0 then let* (_, theta) := formulate_theta_hat_angle a 0 in Ok (sym, theta)
              else let* (_, zeta) := zeta_fuel 2 r a r in Ok (sym, zeta)).
           rewrite (proj2 (Z.eqb_neq r 0) Hr). rewrite zeta_none; auto.
    + destruct (Z.eq_dec a f) as [-> | Haf].
      * assert (V : formulate_zeta_angle r f f = Ok (zeta_symbol r f f, RNum 0)).
        { unfold formulate_zeta_angle. cbn [zeta_fuel].
          rewrite (proj2 (Z.eqb_neq r 0) Hr), (proj2 (Z.eqb_neq f 0) Hf), (Z.eqb_refl f). reflexivity. }
        destruct (Z_le_dec 1 r), (Z_le_dec r 3), (Z_le_dec 1 f), (Z_le_dec f 3);
          try (right; right; left; split; [lia|]; split; [auto|]; split; [auto|];
               exact V).
        left. split; [lia|]. eauto.
      * destruct (in_dec eq_dec (r, a, f) zeta_tuples) as [I|N].
        -- pose proof (zeta_tuples_range _ _ _ I) as (A & B & C).
           left. split; [lia|].
           destruct (in123 r A) as [-> | [-> | ->]], (in123 a B) as [-> | [-> | ->]],
             (in123 f C) as [-> | [-> | ->]]; eexists; reflexivity.
        -- right; right; right. split.
           { intros [H|(A & B & C)]; [lia|]. apply N. assert (C' : 1 <= f <= 3) by lia.
             destruct (in123 r A) as [-> | [-> | ->]], (in123 a B) as [-> | [-> | ->]],
               (in123 f C') as [-> | [-> | ->]];
               try congruence; unfold zeta_tuples; cbn [In]; tauto. }
           split; auto. apply zeta_none; auto.
Qed.

(** More fuel never changes the outcome: the recursion of the Python code ends. *)
Lemma theta_hat_fuel_enough n i j :
  theta_hat_fuel (2 + n) i j = formulate_theta_hat_angle i j.
Proof.
  destruct (subsetb [i; j] [1; 2; 3]) eqn:E.
  - rewrite subset123 in E. destruct E as [Hi Hj].
    destruct (in123 i Hi) as [-> | [-> | ->]], (in123 j Hj) as [-> | [-> | ->]]; reflexivity.
  - unfold formulate_theta_hat_angle. cbn [theta_hat_fuel Nat.add]. rewrite E. reflexivity.
Qed.
Lemma zeta_fuel_enough n r a f : zeta_fuel (3 + n) r a f = formulate_zeta_angle r a f.
Proof.
  destruct (Z.eq_dec r 0) as [-> | Hr]; [reflexivity|].
  assert (B : forall m a f, f <> 0 -> zeta_fuel (2 + m) r a f = zeta_fuel 2 r a f).
  { clear a f. intros m a f Hf. destruct (Z.eq_dec a f) as [-> | Ha].
    - cbn [zeta_fuel Nat.add]. rewrite (Z.eqb_refl f), (proj2 (Z.eqb_neq f 0) Hf). reflexivity.
    - destruct (in_dec eq_dec (r, a, f) zeta_tuples) as [I|N].
      + unfold zeta_tuples in I. cbn [In] in I.
        repeat (destruct I as [I|I]; [injection I as <- <- <-; reflexivity|]). destruct I.
      + change (2 + m)%nat with (S (1 + m)). rewrite !zeta_none; auto. }
  destruct (Z.eq_dec f 0) as [-> | Hf].
  - unfold formulate_zeta_angle.
    change (zeta_fuel (3 + n) r a 0) with
      (let sym := zeta_symbol r a 0 in
       if r =? 0 then let* (_, theta) := formulate_theta_hat_angle a 0 in Ok (sym, theta)
       else let* (_, zeta) := zeta_fuel (2 + n) r a r in Ok (sym, zeta)).
    change (zeta_fuel 3 r a 0) with
      (let sym := zeta_symbol r a 0 in
       if r =? 0 then let* (_, theta) := formulate_theta_hat_angle a 0 in Ok (sym, theta)
       else let* (_, zeta) := zeta_fuel 2 r a r in Ok (sym, zeta)).
    rewrite B by auto. reflexivity.
  - unfold formulate_zeta_angle. change (3 + n)%nat with (2 + (1 + n))%nat.
    rewrite B by auto. change 3%nat with (2 + 1)%nat. rewrite (B 1%nat) by auto. reflexivity.
Qed.

(** ** Antisymmetry (C12) *)
Lemma zeta_antisym env r j k : 0 <= r <= 3 -> 1 <= j <= 3 -> 1 <= k <= 3 ->
  rv env (formulate_zeta_angle r j k) = (- rv env (formulate_zeta_angle r k j))%R.
Proof.
  intros Hr Hj Hk.
  assert (Hr' : r = 0 \/ r = 1 \/ r = 2 \/ r = 3) by lia.
  destruct (in123 j Hj) as [-> | [-> | ->]], (in123 k Hk) as [-> | [-> | ->]],
    Hr' as [-> | [-> | [-> | ->]]];
    first
    [ match goal with |- rv ?e ?a = (- rv ?e ?b)%R => change (rv e a) with (- rv e b)%R; reflexivity end
    | match goal with |- rv ?e ?a = (- rv ?e ?b)%R => change (rv e b) with (- rv e a)%R; lra end
    | match goal with |- rv ?e ?a = (- rv ?e ?b)%R => change (rv e b) with 0%R; change (rv e a) with 0%R; lra end ].
Qed.
Lemma zeta_diag env r j : 0 <= r <= 3 -> 1 <= j <= 3 -> rv env (formulate_zeta_angle r j j) = 0%R.
Proof.
  intros Hr Hj. assert (Hr' : r = 0 \/ r = 1 \/ r = 2 \/ r = 3) by lia.
  destruct (in123 j Hj) as [-> | [-> | ->]], Hr' as [-> | [-> | [-> | ->]]]; reflexivity.
Qed.
Lemma zeta_ref0 env r k : 1 <= r <= 3 -> 1 <= k <= 3 ->
  rv env (formulate_zeta_angle r k 0) = rv env (formulate_zeta_angle r k r).
Proof.
  intros Hr Hk.
  destruct (in123 r Hr) as [-> | [-> | ->]], (in123 k Hk) as [-> | [-> | ->]]; reflexivity.
Qed.
Lemma zeta_rot0 env j k : 1 <= j <= 3 -> 1 <= k <= 3 ->
  rv env (formulate_zeta_angle 0 j k) = rv env (formulate_theta_hat_angle j k).
Proof.
  intros Hj Hk.
  destruct (in123 j Hj) as [-> | [-> | ->]], (in123 k Hk) as [-> | [-> | ->]]; reflexivity.
Qed.

(** ** Facts of physical points *)
Record phys_facts (x0 x1 x2 x3 s1 s2 s3 : R) : Prop := {
  pf_mand : x0 = (s1 + s2 + s3 - x1 - x2 - x3)%R;
  pf_gram : (0 <= gram x1 x2 x3 s1 s2 s3)%R;
  pf_x0 : (0 <= x0)%R; pf_x1 : (0 <= x1)%R; pf_x2 : (0 <= x2)%R; pf_x3 : (0 <= x3)%R;
  pf_s1 : (0 <= s1)%R; pf_s2 : (0 <= s2)%R; pf_s3 : (0 <= s3)%R }.

Lemma msq_add p q : msq (add4 p q) = (msq p + msq q + 2 * (vE p * vE q - dot (vp p) (vp q)))%R.
Proof. destruct p as [a [b c d]], q as [e [f g h]]. unfold msq, add4, add3, dot; simpl. ring. Qed.

Lemma physical_facts env p1 p2 p3 : momenta_of env p1 p2 p3 ->
  phys_facts (at_m0 env * at_m0 env) (at_m1 env * at_m1 env) (at_m2 env * at_m2 env)
    (at_m3 env * at_m3 env) (at_s1 env) (at_s2 env) (at_s3 env).
Proof.
  intros H. pose proof (gram_nonneg _ _ _ _ H) as G.
  destruct H as (O1 & O2 & O3 & O0 & S1 & S2 & S3).
  pose proof (future_mdot _ _ _ _ O1 O2) as D12.
  pose proof (future_mdot _ _ _ _ O2 O3) as D23.
  pose proof (future_mdot _ _ _ _ O3 O1) as D31.
  destruct O1 as (N1 & E1 & Q1), O2 as (N2 & E2 & Q2), O3 as (N3 & E3 & Q3), O0 as (N0 & E0 & Q0).
  assert (X : forall m, (0 <= m * m)%R) by (intros m; nra).
  pose proof (X (at_m0 env)). pose proof (X (at_m1 env)). pose proof (X (at_m2 env)).
  pose proof (X (at_m3 env)).
  assert (A1 : (0 <= at_s1 env)%R) by (rewrite S1, msq_add; lra).
  assert (A2 : (0 <= at_s2 env)%R) by (rewrite S2, msq_add; lra).
  assert (A3 : (0 <= at_s3 env)%R) by (rewrite S3, msq_add; lra).
  constructor; auto.
  - rewrite S1, S2, S3, <- Q0, <- Q1, <- Q2, <- Q3.
    destruct p1 as [a1 [b1 c1 d1]], p2 as [a2 [b2 c2 d2]], p3 as [a3 [b3 c3 d3]].
    unfold msq, add4, add3, dot; simpl. ring.
  - rewrite S1, S2, S3, <- Q1, <- Q2, <- Q3. exact G.
Qed.

Lemma phys_cycle x0 x1 x2 x3 s1 s2 s3 : phys_facts x0 x1 x2 x3 s1 s2 s3 ->
  phys_facts x0 x2 x3 x1 s2 s3 s1.
Proof. intros []. constructor; auto; [lra|]. rewrite gram_cycle. auto. Qed.

Record nonsing (x0 x1 x2 x3 s1 s2 s3 : R) : Prop := {
  ns_01 : (0 < kallen x0 x1 s1)%R; ns_02 : (0 < kallen x0 x2 s2)%R;
  ns_03 : (0 < kallen x0 x3 s3)%R; ns_1 : (0 < kallen s1 x2 x3)%R;
  ns_2 : (0 < kallen s2 x3 x1)%R; ns_3 : (0 < kallen s3 x1 x2)%R }.
Lemma nonsing_cycle x0 x1 x2 x3 s1 s2 s3 : nonsing x0 x1 x2 x3 s1 s2 s3 ->
  nonsing x0 x2 x3 x1 s2 s3 s1.
Proof. intros []. constructor; auto. Qed.
Lemma nonsing_of env : nonsingular env ->
  nonsing (at_m0 env * at_m0 env) (at_m1 env * at_m1 env) (at_m2 env * at_m2 env)
    (at_m3 env * at_m3 env) (at_s1 env) (at_s2 env) (at_s3 env).
Proof. intros (?&?&?&?&?&?). constructor; auto. Qed.

Section Sums.
  Variables x0 x1 x2 x3 s1 s2 s3 : R.
  Hypothesis PF : phys_facts x0 x1 x2 x3 s1 s2 s3.
  Hypothesis NS : nonsing x0 x1 x2 x3 s1 s2 s3.
  Local Open Scope R_scope.

  (** ** C13, first particle: zeta^1_{2(3)} = zeta^1_{2(1)} + zeta^1_{1(3)} *)
  Lemma zeta1_sum : z_ x1 x2 x3 s1 s2 s3 = z0_ x0 x1 x3 s1 s3 s2 + z0_ x0 x1 x2 s1 s2 s3.
  Proof.
    destruct PF as [M G X0 X1 X2 X3 Y1 Y2 Y3], NS as [N01 N02 N03 N1 N2 N3].
    unfold z_, z0_. rewrite (kallen_swap s2 x3 x1).
    apply acos_sum with (T := 16 * x1 * gram x1 x2 x3 s1 s2 s3); auto.
    - apply Rmult_le_pos; [lra|auto].
    - rewrite <- (kallen_swap s2 x3 x1). apply id_z1_13; auto.
    - apply id_z1_12; auto.
    - apply id_z1_23; auto.
    - apply id_z1_prod; auto.
    - apply id_z1_sum; auto.
  Qed.
  (** ** C14 *)
  Lemma hat_turn : hat_ x0 x3 x1 s3 s1 s2 + hat_ x0 x1 x2 s1 s2 s3 + hat_ x0 x2 x3 s2 s3 s1 = 2 * PI.
  Proof.
    destruct PF as [M G X0 X1 X2 X3 Y1 Y2 Y3], NS as [N01 N02 N03 N1 N2 N3].
    unfold hat_.
    rewrite (kallen_swap x0 x3 s3), (kallen_swap x0 x1 s1), (kallen_swap x0 x2 s2).
    rewrite (Rmult_comm (sqrt (kallen x0 x2 s2)) (sqrt (kallen x0 x1 s1))).
    apply acos_turn with (T := 16 * x0 * gram x1 x2 x3 s1 s2 s3); auto.
    - apply Rmult_le_pos; [lra|auto].
    - pose proof (id_hat31 x0 x1 x2 x3 s1 s2 s3 M) as H. rewrite (kallen_swap x0 x3 s3) in H. cbv zeta in H. lra.
    - pose proof (id_hat12 x0 x1 x2 x3 s1 s2 s3 M) as H. rewrite (kallen_swap x0 x1 s1) in H. cbv zeta in H. lra.
    - pose proof (id_hat23 x0 x1 x2 x3 s1 s2 s3 M) as H. rewrite (kallen_swap x0 x2 s2) in H. cbv zeta in H. lra.
    - apply id_hat_prod; auto.
    - apply id_hat_sum; auto.
  Qed.
  (** ** C20 *)
  Lemma theta_swap12 : th_ x0 x2 x1 x3 s1 s3 = PI - th_ x0 x1 x2 x3 s2 s3.
  Proof.
    destruct PF as [M G X0 X1 X2 X3 Y1 Y2 Y3], NS as [N01 N02 N03 N1 N2 N3].
    unfold th_. rewrite (id_theta_swap x0 x1 x2 x3 s1 s2 s3) by lra.
    rewrite (kallen_swap s3 x1 x2).
    rewrite <- acos_opp. f_equal. unfold Rdiv. ring.
  Qed.
  (** ** C17: the numerators *)
  Lemma theta12_le : n_theta x0 x1 x2 x3 s2 s3 * n_theta x0 x1 x2 x3 s2 s3 <=
    kallen x0 x3 s3 * kallen s3 x1 x2.
  Proof.
    destruct PF. pose proof (id_theta12 x0 x1 x2 x3 s1 s2 s3 pf_mand0) as E.
    assert (0 <= 16 * s3 * gram x1 x2 x3 s1 s2 s3) by (apply Rmult_le_pos; [lra|auto]). lra.
  Qed.
  Lemma hat31_le : n_hat x0 x3 x1 s3 s1 s2 * n_hat x0 x3 x1 s3 s1 s2 <=
    kallen x0 x1 s1 * kallen x0 s3 x3.
  Proof.
    destruct PF. pose proof (id_hat31 x0 x1 x2 x3 s1 s2 s3 pf_mand0) as E.
    assert (0 <= 16 * x0 * gram x1 x2 x3 s1 s2 s3) by (apply Rmult_le_pos; [lra|auto]). lra.
  Qed.
  Lemma z113_le : n_zeta0 x0 x1 x2 s1 s2 s3 * n_zeta0 x0 x1 x2 s1 s2 s3 <=
    kallen x0 x1 s1 * kallen s3 x1 x2.
  Proof.
    destruct PF. pose proof (id_z1_12 x0 x1 x2 x3 s1 s2 s3 pf_mand0) as E.
    assert (0 <= 16 * x1 * gram x1 x2 x3 s1 s2 s3) by (apply Rmult_le_pos; [lra|auto]). lra.
  Qed.
  Lemma z121_le : n_zeta0 x0 x1 x3 s1 s3 s2 * n_zeta0 x0 x1 x3 s1 s3 s2 <=
    kallen x0 x1 s1 * kallen s2 x1 x3.
  Proof.
    destruct PF. pose proof (id_z1_13 x0 x1 x2 x3 s1 s2 s3 pf_mand0) as E.
    assert (0 <= 16 * x1 * gram x1 x2 x3 s1 s2 s3) by (apply Rmult_le_pos; [lra|auto]). lra.
  Qed.
  Lemma z123_le : n_zeta x1 x2 x3 s1 s2 s3 * n_zeta x1 x2 x3 s1 s2 s3 <=
    kallen s2 x3 x1 * kallen s3 x1 x2.
  Proof.
    destruct PF. pose proof (id_z1_23 x1 x2 x3 s1 s2 s3) as E.
    assert (0 <= 16 * x1 * gram x1 x2 x3 s1 s2 s3) by (apply Rmult_le_pos; [lra|auto]). lra.
  Qed.
  Lemma theta21_le : n_theta x0 x2 x1 x3 s1 s3 * n_theta x0 x2 x1 x3 s1 s3 <=
    kallen x0 x3 s3 * kallen s3 x2 x1.
  Proof.
    pose proof theta12_le as H. destruct PF.
    rewrite (id_theta_swap x0 x1 x2 x3 s1 s2 s3) by lra. rewrite (kallen_swap s3 x1 x2). lra.
  Qed.
End Sums.

Lemma zeta_cocycle env i j k l : physical env -> nonsingular env ->
  1 <= i <= 3 -> 1 <= j <= 3 -> 1 <= k <= 3 -> 1 <= l <= 3 ->
  rv env (formulate_zeta_angle i j k)
  = (rv env (formulate_zeta_angle i j l) + rv env (formulate_zeta_angle i l k))%R.
Proof.
  intros (p1 & p2 & p3 & H) NS Hi Hj Hk Hl.
  apply physical_facts in H. apply nonsing_of in NS.
  pose proof (zeta1_sum _ _ _ _ _ _ _ H NS) as B1.
  pose proof (zeta1_sum _ _ _ _ _ _ _ (phys_cycle _ _ _ _ _ _ _ H) (nonsing_cycle _ _ _ _ _ _ _ NS)) as B2.
  pose proof (zeta1_sum _ _ _ _ _ _ _ (phys_cycle _ _ _ _ _ _ _ (phys_cycle _ _ _ _ _ _ _ H))
    (nonsing_cycle _ _ _ _ _ _ _ (nonsing_cycle _ _ _ _ _ _ _ NS))) as B3.
  rewrite <- z_123, <- z_121, <- z_113 in B1.
  rewrite <- z_231, <- z_232, <- z_221 in B2.
  rewrite <- z_312, <- z_313, <- z_332 in B3.
  pose proof (fun i j k Hi => zeta_antisym env i j k Hi) as AS.
  pose proof (zeta_diag env i 1) as D1. pose proof (zeta_diag env i 2) as D2.
  pose proof (zeta_diag env i 3) as D3.
  assert (Hi0 : 0 <= i <= 3) by lia.
  pose proof (AS i 1 2 Hi0 ltac:(lia) ltac:(lia)) as A12.
  pose proof (AS i 1 3 Hi0 ltac:(lia) ltac:(lia)) as A13.
  pose proof (AS i 2 3 Hi0 ltac:(lia) ltac:(lia)) as A23.
  specialize (D1 Hi0 ltac:(lia)). specialize (D2 Hi0 ltac:(lia)). specialize (D3 Hi0 ltac:(lia)).
  clear AS H NS Hi0.
  destruct (in123 i Hi) as [-> | [-> | ->]], (in123 j Hj) as [-> | [-> | ->]],
    (in123 k Hk) as [-> | [-> | ->]], (in123 l Hl) as [-> | [-> | ->]]; lra.
Qed.
