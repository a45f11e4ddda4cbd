(** Lemmas behind PropsAngles.v *)
From Coq Require Import String ZArith List Bool Reals Lra Lia Psatz.
From Verif Require Import Prelude Expr Angles SpecKin KinFacts AnglesFacts AnglesGeo Dimension.
Import ListNotations.
Local Open Scope string_scope.
Local Open Scope Z_scope.
Local Open Scope list_scope.

Lemma rv_of env r s e : r = Ok (s, e) -> reval env e = rv env r.
Proof. intros ->; reflexivity. Qed.

Lemma ok_scattering_ids i j s e : formulate_scattering_angle i j = Ok (s, e) ->
  1 <= i <= 3 /\ 1 <= j <= 3 /\ i <> j.
Proof. intros H. destruct (scattering_total i j) as [(A & B & C & _)|(_ & E)]; auto. congruence. Qed.
Lemma ok_theta_hat_ids i j s e : formulate_theta_hat_angle i j = Ok (s, e) ->
  1 <= i <= 3 /\ 1 <= j <= 3.
Proof. intros H. destruct (theta_hat_total i j) as [(A & B & _)|(_ & E)]; auto. congruence. Qed.
Lemma ok_zeta_ids r a f s e : formulate_zeta_angle r a f = Ok (s, e) ->
  zeta_ids r a f \/ e = RNum 0.
Proof.
  intros H. destruct (zeta_total r a f) as [(A & _)|[(_ & _ & E)|[(_ & _ & _ & E)|(_ & _ & E)]]];
    auto; try congruence. right. congruence.
Qed.

(** ** C11 *)
Lemma c11_scattering i j :
  (1 <= i <= 3 /\ 1 <= j <= 3 /\ i <> j /\
     exists e, formulate_scattering_angle i j
               = Ok (Sym ("theta_" ++ str_of_Z i ++ str_of_Z j)%string AReal, e))
  \/ (~ (1 <= i <= 3 /\ 1 <= j <= 3 /\ i <> j) /\ formulate_scattering_angle i j = Err ValueError).
Proof. exact (scattering_total i j). Qed.
Lemma c11_zeta r a f :
  (zeta_ids r a f -> exists e, formulate_zeta_angle r a f = Ok (zeta_symbol r a f, e)) /\
  (~ zeta_ids r a f ->
   formulate_zeta_angle r a f = Err ValueError \/
   formulate_zeta_angle r a f = Err NotImplementedErr \/
   ((a = f \/ (f = 0 /\ a = r)) /\ formulate_zeta_angle r a f = Ok (zeta_symbol r a f, RNum 0))).
Proof.
  destruct (zeta_total r a f) as [(A & H)|[(N & _ & E)|[(N & _ & B & E)|(N & _ & E)]]];
    split; intros; try tauto; auto.
Qed.

(** ** C12 *)
Lemma c12_antisym env i j k s e s' e' : 0 <= i <= 3 -> 1 <= j <= 3 -> 1 <= k <= 3 ->
  formulate_zeta_angle i j k = Ok (s, e) -> formulate_zeta_angle i k j = Ok (s', e') ->
  reval env e = (- reval env e')%R.
Proof.
  intros Hi Hj Hk E E'. rewrite (rv_of env _ _ _ E), (rv_of env _ _ _ E').
  apply zeta_antisym; auto.
Qed.
Lemma c12_diag env i j s e : formulate_zeta_angle i j j = Ok (s, e) -> reval env e = 0%R.
Proof.
  intros H. destruct (ok_zeta_ids _ _ _ _ _ H) as [Z| ->]; [|reflexivity].
  rewrite (rv_of env _ _ _ H). destruct Z as [(-> & A & B)|(A & B & C)]; apply zeta_diag; lia.
Qed.
Lemma c12_ref0 env i k s e s' e' : 1 <= i <= 3 -> 1 <= k <= 3 ->
  formulate_zeta_angle i k 0 = Ok (s, e) -> formulate_zeta_angle i k i = Ok (s', e') ->
  reval env e = reval env e'.
Proof.
  intros Hi Hk E E'. rewrite (rv_of env _ _ _ E), (rv_of env _ _ _ E'). apply zeta_ref0; auto.
Qed.
Lemma c12_hat env i j s e s' e' :
  formulate_theta_hat_angle i j = Ok (s, e) -> formulate_theta_hat_angle j i = Ok (s', e') ->
  reval env e = (- reval env e')%R /\ (i = j -> reval env e = 0%R).
Proof.
  intros E E'. destruct (ok_theta_hat_ids _ _ _ _ E) as [Hi Hj].
  rewrite (rv_of env _ _ _ E), (rv_of env _ _ _ E').
  rewrite <- !zeta_rot0 by auto. split.
  - apply zeta_antisym; lia.
  - intros <-. apply zeta_diag; lia.
Qed.

(** ** C13, C14, C20 *)
Lemma c13 env i j k l s e s1 e1 s2 e2 : physical env -> nonsingular env ->
  1 <= i <= 3 -> 1 <= j <= 3 -> 1 <= k <= 3 -> 1 <= l <= 3 ->
  formulate_zeta_angle i j k = Ok (s, e) -> formulate_zeta_angle i j l = Ok (s1, e1) ->
  formulate_zeta_angle i l k = Ok (s2, e2) -> reval env e = (reval env e1 + reval env e2)%R.
Proof.
  intros P N Hi Hj Hk Hl E E1 E2.
  rewrite (rv_of env _ _ _ E), (rv_of env _ _ _ E1), (rv_of env _ _ _ E2).
  apply zeta_cocycle; auto.
Qed.
Lemma c14 env s31 e31 s12 e12 s23 e23 : physical env -> nonsingular env ->
  formulate_theta_hat_angle 3 1 = Ok (s31, e31) -> formulate_theta_hat_angle 1 2 = Ok (s12, e12) ->
  formulate_theta_hat_angle 2 3 = Ok (s23, e23) ->
  (reval env e31 + reval env e12 + reval env e23 = 2 * PI)%R.
Proof.
  intros (p1 & p2 & p3 & P) N E1 E2 E3.
  rewrite (rv_of env _ _ _ E1), (rv_of env _ _ _ E2), (rv_of env _ _ _ E3).
  rewrite hat_31, hat_12, hat_23. apply hat_turn.
  - eapply physical_facts; eauto.
  - apply nonsing_of; auto.
Qed.
Lemma c20 env i j s e s' e' : physical env -> nonsingular env ->
  formulate_scattering_angle i j = Ok (s, e) -> formulate_scattering_angle j i = Ok (s', e') ->
  (reval env e' = PI - reval env e)%R.
Proof.
  intros (p1 & p2 & p3 & P) N E E'. destruct (ok_scattering_ids _ _ _ _ E) as (Hi & Hj & D).
  rewrite (rv_of env _ _ _ E), (rv_of env _ _ _ E'). clear E E'.
  apply physical_facts in P. apply nonsing_of in N.
  pose proof (theta_swap12 _ _ _ _ _ _ _ P N) as T1.
  apply phys_cycle in P. apply nonsing_cycle in N.
  pose proof (theta_swap12 _ _ _ _ _ _ _ P N) as T2.
  apply phys_cycle in P. apply nonsing_cycle in N.
  pose proof (theta_swap12 _ _ _ _ _ _ _ P N) as T3.
  rewrite <- th_12, <- th_21 in T1. rewrite <- th_23, <- th_32 in T2. rewrite <- th_31, <- th_13 in T3.
  destruct (in123 i Hi) as [-> | [-> | ->]], (in123 j Hj) as [-> | [-> | ->]]; try congruence; lra.
Qed.

(** ** C15, C16 *)
Lemma msq_comm p q : msq (add4 p q) = msq (add4 q p).
Proof. rewrite !msq_add. unfold dot. ring. Qed.
Lemma msq_rot p q r : msq (add4 p (add4 q r)) = msq (add4 q (add4 r p)).
Proof.
  destruct p as [? [? ? ?]], q as [? [? ? ?]], r as [? [? ? ?]].
  unfold msq, add4, add3, dot; simpl. ring.
Qed.
Lemma msq_swap p q r : msq (add4 p (add4 q r)) = msq (add4 q (add4 p r)).
Proof.
  destruct p as [? [? ? ?]], q as [? [? ? ?]], r as [? [? ? ?]].
  unfold msq, add4, add3, dot; simpl. ring.
Qed.
Lemma msq_swap2 p q r : msq (add4 p (add4 q r)) = msq (add4 p (add4 r q)).
Proof.
  destruct p as [? [? ? ?]], q as [? [? ? ?]], r as [? [? ? ?]].
  unfold msq, add4, add3, dot; simpl. ring.
Qed.

Ltac shell := repeat match goal with H : on_shell _ _ |- _ => destruct H as (? & ? & ?) end.
Ltac msq_perm :=
  first [ assumption | symmetry; assumption
        | congruence
        | match goal with H : msq (add4 ?p1 (add4 ?p2 ?p3)) = ?m |- ?m = _ =>
            rewrite <- H end;
          first [ reflexivity | apply msq_rot | apply msq_swap | apply msq_swap2
                | rewrite msq_rot; first [apply msq_swap | apply msq_swap2 | apply msq_rot] ]
        | match goal with H : ?s = msq (add4 ?p ?q) |- ?s = msq (add4 ?q ?p) =>
            rewrite H; apply msq_comm end ].
Ltac kal :=
  first [ assumption
        | rewrite kallen_swap; assumption ].

Lemma c15 env p1 p2 p3 i j s e : momenta_of env p1 p2 p3 -> nonsingular env ->
  formulate_scattering_angle i j = Ok (s, e) ->
  add3 (vp (pick i p1 p2 p3)) (vp (pick j p1 p2 p3)) = zero3 ->
  reval env e = angle_between (vp (pick i p1 p2 p3)) (opp3 (vp (pick (third i j) p1 p2 p3))).
Proof.
  intros P N E F. destruct (ok_scattering_ids _ _ _ _ E) as (Hi & Hj & D).
  rewrite (rv_of env _ _ _ E). clear E.
  destruct P as (O1 & O2 & O3 & O0 & S1 & S2 & S3), N as (N1 & N2 & N3 & N4 & N5 & N6).
  shell.
  destruct (in123 i Hi) as [-> | [-> | ->]], (in123 j Hj) as [-> | [-> | ->]]; try congruence;
    cbn [pick third Z.sub Z.add Z.opp Z.eqb Z.pos_sub Pos.eqb Pos.pred_double Pos.sub Pos.sub_mask
         Pos.succ_double_mask Pos.double_mask Pos.double_pred_mask Pos.add] in *;
    [rewrite th_12|rewrite th_13|rewrite th_21|rewrite th_23|rewrite th_31|rewrite th_32];
    match goal with |- th_ _ _ _ _ _ _ = angle_between (vp ?a) (opp3 (vp ?c)) =>
      match type of F with add3 _ (vp ?b) = _ => apply (geo_theta _ _ _ _ _ _ a b c) end end;
    try exact F; try (unfold add4 in *; simpl in *; lra); try kal; try msq_perm.
Qed.

Lemma c16_hat env p1 p2 p3 i j s e : momenta_of env p1 p2 p3 -> nonsingular env ->
  formulate_theta_hat_angle i j = Ok (s, e) -> i <> j ->
  vp (add4 p1 (add4 p2 p3)) = zero3 ->
  reval env e =
    ((if Z.eqb j (next_label i) then 1 else -1)
     * angle_between (vp (pick i p1 p2 p3)) (vp (pick j p1 p2 p3)))%R.
Proof.
  intros P N E D F. destruct (ok_theta_hat_ids _ _ _ _ E) as (Hi & Hj).
  rewrite (rv_of env _ _ _ E). clear E.
  destruct P as (O1 & O2 & O3 & O0 & S1 & S2 & S3), N as (N1 & N2 & N3 & N4 & N5 & N6).
  shell.
  assert (T31 : rv env (formulate_theta_hat_angle 3 1) = angle_between (vp p3) (vp p1)).
  { rewrite hat_31. apply (geo_hat _ _ _ _ _ _ p3 p1 p2); try msq_perm; try kal.
    - unfold add4 in *; simpl in *; lra.
    - rewrite <- F. unfold add4, add3. simpl. f_equal; ring. }
  assert (T12 : rv env (formulate_theta_hat_angle 1 2) = angle_between (vp p1) (vp p2)).
  { rewrite hat_12. apply (geo_hat _ _ _ _ _ _ p1 p2 p3); try msq_perm; try kal.
    unfold add4 in *; simpl in *; lra. }
  assert (T23 : rv env (formulate_theta_hat_angle 2 3) = angle_between (vp p2) (vp p3)).
  { rewrite hat_23. apply (geo_hat _ _ _ _ _ _ p2 p3 p1); try msq_perm; try kal.
    - unfold add4 in *; simpl in *; lra.
    - rewrite <- F. unfold add4, add3. simpl. f_equal; ring. }
  pose proof (zeta_antisym env 0 1 3 ltac:(lia) ltac:(lia) ltac:(lia)) as A13.
  pose proof (zeta_antisym env 0 2 1 ltac:(lia) ltac:(lia) ltac:(lia)) as A21.
  pose proof (zeta_antisym env 0 3 2 ltac:(lia) ltac:(lia) ltac:(lia)) as A32.
  rewrite !zeta_rot0 in A13, A21, A32 by lia.
  destruct (in123 i Hi) as [-> | [-> | ->]], (in123 j Hj) as [-> | [-> | ->]]; try congruence;
    [ change (2 =? next_label 1) with true | change (3 =? next_label 1) with false
    | change (1 =? next_label 2) with false | change (3 =? next_label 2) with true
    | change (1 =? next_label 3) with true | change (2 =? next_label 3) with false ];
    unfold pick; cbn [Z.eqb Pos.eqb];
    rewrite ?A13, ?A21, ?A32, ?T31, ?T12, ?T23; try lra;
    match goal with |- (- angle_between ?a ?b = _)%R => rewrite (angle_between_sym a b) end; lra.
Qed.


Lemma c16_zeta env p1 p2 p3 i j k s e : momenta_of env p1 p2 p3 -> nonsingular env ->
  1 <= i <= 3 -> 1 <= j <= 3 -> 1 <= k <= 3 ->
  formulate_zeta_angle i j k = Ok (s, e) ->
  vp (pick i p1 p2 p3) = zero3 ->
  reval env e =
    (zsign (zeta_rank i j - zeta_rank i k)
     * angle_between (zeta_direction i j p1 p2 p3) (zeta_direction i k p1 p2 p3))%R.
Proof.
  intros P N Hi Hj Hk E F. rewrite (rv_of env _ _ _ E). clear E.
  destruct P as (O1 & O2 & O3 & O0 & S1 & S2 & S3), N as (N1 & N2 & N3 & N4 & N5 & N6).
  shell.
  pose proof (zeta_diag env i j ltac:(lia) Hj) as Dg.
  pose proof (zeta_antisym env i j k ltac:(lia) Hj Hk) as A.
  assert (Tot : vp (add4 p2 (add4 p3 p1)) = vp (add4 p1 (add4 p2 p3)) /\
                vp (add4 p3 (add4 p1 p2)) = vp (add4 p1 (add4 p2 p3)) /\
                vp (add4 p1 (add4 p3 p2)) = vp (add4 p1 (add4 p2 p3)) /\
                vp (add4 p2 (add4 p1 p3)) = vp (add4 p1 (add4 p2 p3)) /\
                vp (add4 p3 (add4 p2 p1)) = vp (add4 p1 (add4 p2 p3))).
  { unfold add4, add3; simpl. repeat split; f_equal; ring. }
  destruct Tot as (R1 & R2 & R3 & R4 & R5).
  unfold zeta_direction, zeta_rank, zsign.
  destruct (in123 i Hi) as [-> | [-> | ->]].
  - assert (B113 : rv env (formulate_zeta_angle 1 1 3) = angle_between (vp (add4 p1 (add4 p2 p3))) (vp p2)).
    { rewrite z_113. apply (geo_z0 _ _ _ _ _ _ p1 p2 p3); try msq_perm; try kal; auto. }
    assert (B121 : rv env (formulate_zeta_angle 1 2 1) = angle_between (vp p3) (vp (add4 p1 (add4 p2 p3)))).
    { rewrite z_121, angle_between_sym, <- R3. apply (geo_z0 _ _ _ _ _ _ p1 p3 p2); try msq_perm; try kal; auto. }
    assert (B123 : rv env (formulate_zeta_angle 1 2 3) = angle_between (vp p3) (vp p2)).
    { rewrite z_123. apply (geo_z _ _ _ _ _ _ p1 p2 p3); try msq_perm; try kal; auto. }
    destruct (in123 j Hj) as [-> | [-> | ->]], (in123 k Hk) as [-> | [-> | ->]];
      rewrite ?Dg; try rewrite B113; try rewrite B121; try rewrite B123;
      unfold pick, third, next_label; cbn -[angle_between add4 Rmult Ropp IZR rv formulate_zeta_angle];
      try lra;
      rewrite A; try rewrite B113; try rewrite B121; try rewrite B123;
      rewrite angle_between_sym; lra.
  - assert (B113 : rv env (formulate_zeta_angle 2 2 1) = angle_between (vp (add4 p1 (add4 p2 p3))) (vp p3)).
    { rewrite z_221, <- R1. apply (geo_z0 _ _ _ _ _ _ p2 p3 p1); try msq_perm; try kal; auto. }
    assert (B121 : rv env (formulate_zeta_angle 2 3 2) = angle_between (vp p1) (vp (add4 p1 (add4 p2 p3)))).
    { rewrite z_232, angle_between_sym, <- R4. apply (geo_z0 _ _ _ _ _ _ p2 p1 p3); try msq_perm; try kal; auto. }
    assert (B123 : rv env (formulate_zeta_angle 2 3 1) = angle_between (vp p1) (vp p3)).
    { rewrite z_231. apply (geo_z _ _ _ _ _ _ p2 p3 p1); try msq_perm; try kal; auto. }
    destruct (in123 j Hj) as [-> | [-> | ->]], (in123 k Hk) as [-> | [-> | ->]];
      rewrite ?Dg; try rewrite B113; try rewrite B121; try rewrite B123;
      unfold pick, third, next_label; cbn -[angle_between add4 Rmult Ropp IZR rv formulate_zeta_angle];
      try lra;
      rewrite A; try rewrite B113; try rewrite B121; try rewrite B123;
      rewrite angle_between_sym; lra.
  - assert (B113 : rv env (formulate_zeta_angle 3 3 2) = angle_between (vp (add4 p1 (add4 p2 p3))) (vp p1)).
    { rewrite z_332, <- R2. apply (geo_z0 _ _ _ _ _ _ p3 p1 p2); try msq_perm; try kal; auto. }
    assert (B121 : rv env (formulate_zeta_angle 3 1 3) = angle_between (vp p2) (vp (add4 p1 (add4 p2 p3)))).
    { rewrite z_313, angle_between_sym, <- R5. apply (geo_z0 _ _ _ _ _ _ p3 p2 p1); try msq_perm; try kal; auto. }
    assert (B123 : rv env (formulate_zeta_angle 3 1 2) = angle_between (vp p2) (vp p1)).
    { rewrite z_312. apply (geo_z _ _ _ _ _ _ p3 p1 p2); try msq_perm; try kal; auto. }
    destruct (in123 j Hj) as [-> | [-> | ->]], (in123 k Hk) as [-> | [-> | ->]];
      rewrite ?Dg; try rewrite B113; try rewrite B121; try rewrite B123;
      unfold pick, third, next_label; cbn -[angle_between add4 Rmult Ropp IZR rv formulate_zeta_angle];
      try lra;
      rewrite A; try rewrite B113; try rewrite B121; try rewrite B123;
      rewrite angle_between_sym; lra.
Qed.

(** ** C17 *)
Lemma real_acos env n a b : real_valued env n -> real_valued env a -> real_valued env b ->
  (0 < reval env a)%R -> (0 < reval env b)%R ->
  (reval env n * reval env n <= reval env a * reval env b)%R ->
  real_valued env (RAcos (RDiv n (RMul (RSqrt a) (RSqrt b)))).
Proof.
  intros Hn Ha Hb Pa Pb L. cbn [real_valued reval].
  pose proof (sqrt_lt_R0 _ Pa) as Qa. pose proof (sqrt_lt_R0 _ Pb) as Qb.
  repeat split; auto; try lra; try nra; apply acos_ratio; auto.
Qed.


Section C17.
  Variable env : symbol -> R.
  Hypothesis P : physical env.
  Hypothesis N : nonsingular env.
  Definition rvd (r : res (symbol * rexpr)) : Prop :=
    match r with Ok (_, e) => real_valued env e | Err _ => True end.
  Lemma rvd_all i j k : 1 <= i <= 3 -> 1 <= j <= 3 -> 1 <= k <= 3 ->
    rvd (formulate_scattering_angle i j) /\ rvd (formulate_theta_hat_angle i j) /\
    rvd (formulate_zeta_angle i j k) /\ rvd (formulate_zeta_angle i j 0) /\
    rvd (formulate_zeta_angle 0 i j).
  Proof.
    destruct P as (p1 & p2 & p3 & P1). apply physical_facts in P1. pose proof (nonsing_of _ N) as N1.
    pose proof (phys_cycle _ _ _ _ _ _ _ P1) as P2. pose proof (nonsing_cycle _ _ _ _ _ _ _ N1) as N2.
    pose proof (phys_cycle _ _ _ _ _ _ _ P2) as P3. pose proof (nonsing_cycle _ _ _ _ _ _ _ N2) as N3.
    assert (Th12 : rvd (formulate_scattering_angle 1 2)).
    { apply real_acos; try (cbn; tauto); [apply N1|apply N1|apply (theta12_le _ _ _ _ _ _ _ P1)]. }
    assert (Th23 : rvd (formulate_scattering_angle 2 3)).
    { apply real_acos; try (cbn; tauto); [apply N2|apply N2|apply (theta12_le _ _ _ _ _ _ _ P2)]. }
    assert (Th31 : rvd (formulate_scattering_angle 3 1)).
    { apply real_acos; try (cbn; tauto); [apply N3|apply N3|apply (theta12_le _ _ _ _ _ _ _ P3)]. }
    assert (Th21 : rvd (formulate_scattering_angle 2 1)).
    { apply real_acos; try (cbn; tauto); [apply N1|cbn [reval]; rewrite kallen_swap; apply N1|
        apply (theta21_le _ _ _ _ _ _ _ P1)]. }
    assert (Th32 : rvd (formulate_scattering_angle 3 2)).
    { apply real_acos; try (cbn; tauto); [apply N2|cbn [reval]; rewrite kallen_swap; apply N2|
        apply (theta21_le _ _ _ _ _ _ _ P2)]. }
    assert (Th13 : rvd (formulate_scattering_angle 1 3)).
    { apply real_acos; try (cbn; tauto); [apply N3|cbn [reval]; rewrite kallen_swap; apply N3|
        apply (theta21_le _ _ _ _ _ _ _ P3)]. }
    assert (H31 : rvd (formulate_theta_hat_angle 3 1)).
    { apply real_acos; try (cbn; tauto); [apply N1|cbn [reval]; rewrite kallen_swap; apply N1|
        apply (hat31_le _ _ _ _ _ _ _ P1)]. }
    assert (H12 : rvd (formulate_theta_hat_angle 1 2)).
    { apply real_acos; try (cbn; tauto); [apply N2|cbn [reval]; rewrite kallen_swap; apply N2|
        apply (hat31_le _ _ _ _ _ _ _ P2)]. }
    assert (H23 : rvd (formulate_theta_hat_angle 2 3)).
    { apply real_acos; try (cbn; tauto); [apply N3|cbn [reval]; rewrite kallen_swap; apply N3|
        apply (hat31_le _ _ _ _ _ _ _ P3)]. }
    assert (Z113 : rvd (formulate_zeta_angle 1 1 3)).
    { apply real_acos; try (cbn; tauto); [apply N1|apply N1|apply (z113_le _ _ _ _ _ _ _ P1)]. }
    assert (Z221 : rvd (formulate_zeta_angle 2 2 1)).
    { apply real_acos; try (cbn; tauto); [apply N2|apply N2|apply (z113_le _ _ _ _ _ _ _ P2)]. }
    assert (Z332 : rvd (formulate_zeta_angle 3 3 2)).
    { apply real_acos; try (cbn; tauto); [apply N3|apply N3|apply (z113_le _ _ _ _ _ _ _ P3)]. }
    assert (Z121 : rvd (formulate_zeta_angle 1 2 1)).
    { apply real_acos; try (cbn; tauto); [apply N1|cbn [reval]; rewrite kallen_swap; apply N1|
        apply (z121_le _ _ _ _ _ _ _ P1)]. }
    assert (Z232 : rvd (formulate_zeta_angle 2 3 2)).
    { apply real_acos; try (cbn; tauto); [apply N2|cbn [reval]; rewrite kallen_swap; apply N2|
        apply (z121_le _ _ _ _ _ _ _ P2)]. }
    assert (Z313 : rvd (formulate_zeta_angle 3 1 3)).
    { apply real_acos; try (cbn; tauto); [apply N3|cbn [reval]; rewrite kallen_swap; apply N3|
        apply (z121_le _ _ _ _ _ _ _ P3)]. }
    assert (Z123 : rvd (formulate_zeta_angle 1 2 3)).
    { apply real_acos; try (cbn; tauto); [apply N1|apply N1|apply (z123_le _ _ _ _ _ _ _ P1)]. }
    assert (Z231 : rvd (formulate_zeta_angle 2 3 1)).
    { apply real_acos; try (cbn; tauto); [apply N2|apply N2|apply (z123_le _ _ _ _ _ _ _ P2)]. }
    assert (Z312 : rvd (formulate_zeta_angle 3 1 2)).
    { apply real_acos; try (cbn; tauto); [apply N3|apply N3|apply (z123_le _ _ _ _ _ _ _ P3)]. }
    intros Hi Hj Hk.
    destruct (in123 i Hi) as [-> | [-> | ->]], (in123 j Hj) as [-> | [-> | ->]],
      (in123 k Hk) as [-> | [-> | ->]];
      (split; [|split; [|split; [|split]]]); clear Hi Hj Hk P1 P2 P3 N1 N2 N3; first [assumption | exact I].
  Qed.
End C17.

Lemma c17 env : physical env -> nonsingular env ->
  (forall i j s e, formulate_scattering_angle i j = Ok (s, e) -> real_valued env e) /\
  (forall i j s e, formulate_theta_hat_angle i j = Ok (s, e) -> real_valued env e) /\
  (forall i j k s e, formulate_zeta_angle i j k = Ok (s, e) -> real_valued env e).
Proof.
  intros P N. split; [|split]; intros.
  - destruct (ok_scattering_ids _ _ _ _ H) as (Hi & Hj & _).
    pose proof (rvd_all env P N i j 1 Hi Hj ltac:(lia)) as (A & _). rewrite H in A. exact A.
  - destruct (ok_theta_hat_ids _ _ _ _ H) as (Hi & Hj).
    pose proof (rvd_all env P N i j 1 Hi Hj ltac:(lia)) as (_ & A & _). rewrite H in A. exact A.
  - destruct (ok_zeta_ids _ _ _ _ _ H) as [[(-> & Hj & Hk)|(Hi & Hj & Hk)]| ->]; [| |exact I].
    + pose proof (rvd_all env P N j k 1 Hj Hk ltac:(lia)) as (_ & _ & _ & _ & A). rewrite H in A. exact A.
    + destruct (Z.eq_dec k 0) as [-> |].
      * pose proof (rvd_all env P N i j 1 Hi Hj ltac:(lia)) as (_ & _ & _ & A & _). rewrite H in A. exact A.
      * pose proof (rvd_all env P N i j k Hi Hj ltac:(lia)) as (_ & _ & A & _). rewrite H in A. exact A.
Qed.

(** ** C18 *)
Lemma powerRZ_1_ c : powerRZ c 1 = c. Proof. simpl. lra. Qed.
Lemma powerRZ_2_ c : powerRZ c 2 = (c * c)%R. Proof. simpl. lra. Qed.
Lemma scale_units_scaled c env s : scale_units c env s = scaled mass_dim c env s.
Proof.
  unfold scale_units, scaled, mass_dim. cbn [existsb].
  destruct (String.eqb_spec (sname s) "m0"), (string_dec (sname s) "m0"); try congruence;
    [cbn [orb]; rewrite ?powerRZ_1_, ?powerRZ_2_; ring|].
  destruct (String.eqb_spec (sname s) "m1"), (string_dec (sname s) "m1"); try congruence;
    [cbn [orb]; rewrite ?powerRZ_1_, ?powerRZ_2_; ring|].
  destruct (String.eqb_spec (sname s) "m2"), (string_dec (sname s) "m2"); try congruence;
    [cbn [orb]; rewrite ?powerRZ_1_, ?powerRZ_2_; ring|].
  destruct (String.eqb_spec (sname s) "m3"), (string_dec (sname s) "m3"); try congruence;
    [cbn [orb]; rewrite ?powerRZ_1_, ?powerRZ_2_; ring|].
  destruct (String.eqb_spec (sname s) "sigma1"), (string_dec (sname s) "sigma1"); try congruence;
    [cbn [orb]; rewrite ?powerRZ_1_, ?powerRZ_2_; ring|].
  destruct (String.eqb_spec (sname s) "sigma2"), (string_dec (sname s) "sigma2"); try congruence;
    [cbn [orb]; rewrite ?powerRZ_1_, ?powerRZ_2_; ring|].
  destruct (String.eqb_spec (sname s) "sigma3"), (string_dec (sname s) "sigma3"); try congruence;
    [cbn [orb]; rewrite ?powerRZ_1_, ?powerRZ_2_; ring|].
  cbn [orb]. change (powerRZ c 0) with 1%R. ring.
Qed.

Definition dimless (r : res (symbol * rexpr)) : Prop :=
  match r with Ok (_, e) => degree mass_dim e = Some 0 | Err _ => True end.
Lemma dimless_sound c env r s e : (0 < c)%R -> dimless r -> r = Ok (s, e) ->
  reval (scale_units c env) e = reval env e.
Proof.
  intros Hc D ->. cbn in D.
  rewrite (reval_ext _ (scaled mass_dim c env)) by (apply scale_units_scaled).
  rewrite (degree_sound mass_dim c Hc env e 0 D). cbn. ring.
Qed.
Lemma c18 c env : (0 < c)%R ->
  (forall i j s e, formulate_scattering_angle i j = Ok (s, e) ->
     reval (scale_units c env) e = reval env e) /\
  (forall i j s e, formulate_theta_hat_angle i j = Ok (s, e) ->
     reval (scale_units c env) e = reval env e) /\
  (forall i j k s e, formulate_zeta_angle i j k = Ok (s, e) ->
     reval (scale_units c env) e = reval env e).
Proof.
  intros Hc. split; [|split]; intros.
  - apply (dimless_sound c env _ s e Hc) with (2 := H).
    destruct (ok_scattering_ids _ _ _ _ H) as (Hi & Hj & _). clear H.
    destruct (in123 i Hi) as [-> | [-> | ->]], (in123 j Hj) as [-> | [-> | ->]]; vm_compute; auto.
  - apply (dimless_sound c env _ s e Hc) with (2 := H).
    destruct (ok_theta_hat_ids _ _ _ _ H) as (Hi & Hj). clear H.
    destruct (in123 i Hi) as [-> | [-> | ->]], (in123 j Hj) as [-> | [-> | ->]]; vm_compute; auto.
  - destruct (ok_zeta_ids _ _ _ _ _ H) as [Z| ->]; [|reflexivity].
    apply (dimless_sound c env _ s e Hc) with (2 := H). clear H.
    destruct Z as [(-> & Hj & Hk)|(Hi & Hj & Hk)].
    + destruct (in123 j Hj) as [-> | [-> | ->]], (in123 k Hk) as [-> | [-> | ->]]; vm_compute; auto.
    + assert (Hk' : k = 0 \/ k = 1 \/ k = 2 \/ k = 3) by lia.
      destruct (in123 i Hi) as [-> | [-> | ->]], (in123 j Hj) as [-> | [-> | ->]],
        Hk' as [-> | [-> | [-> | ->]]]; vm_compute; auto.
Qed.

(** ** C19 *)
Lemma c19 : exists e21 e32 e13,
  formulate_scattering_angle 2 1 = Ok (Sym "theta_21" AReal, e21) /\
  formulate_scattering_angle 3 2 = Ok (Sym "theta_32" AReal, e32) /\
  formulate_scattering_angle 1 3 = Ok (Sym "theta_13" AReal, e13).
Proof. do 3 eexists. repeat split; reflexivity. Qed.

(** ** A concrete phase-space point: m = (23; 4, 3, 12), momenta in the rest frame
    (3,0,0), (0,4,0), (-3,-4,0). *)
Definition ex_p1 : vec4 := V4 5 (V3 3 0 0).
Definition ex_p2 : vec4 := V4 5 (V3 0 4 0).
Definition ex_p3 : vec4 := V4 13 (V3 (-3) (-4) 0).
Definition ex_env (s : symbol) : R :=
  if eqb s (Sym "m0" ANonneg) then 23 else if eqb s (Sym "m1" ANonneg) then 4
  else if eqb s (Sym "m2" ANonneg) then 3 else if eqb s (Sym "m3" ANonneg) then 12
  else if eqb s (Sym "sigma1" ANonneg) then 315 else if eqb s (Sym "sigma2" ANonneg) then 308
  else if eqb s (Sym "sigma3" ANonneg) then 75 else 0%R.
Lemma ex_env_vals : at_m0 ex_env = 23%R /\ at_m1 ex_env = 4%R /\ at_m2 ex_env = 3%R /\
  at_m3 ex_env = 12%R /\ at_s1 ex_env = 315%R /\ at_s2 ex_env = 308%R /\ at_s3 ex_env = 75%R.
Proof. repeat split. Qed.
Lemma ex_momenta : momenta_of ex_env ex_p1 ex_p2 ex_p3.
Proof.
  unfold momenta_of, on_shell. destruct ex_env_vals as (-> & -> & -> & -> & -> & -> & ->).
  unfold ex_p1, ex_p2, ex_p3, msq, add4, add3, dot; simpl. repeat split; lra.
Qed.
Lemma ex_nonsingular : nonsingular ex_env.
Proof.
  unfold nonsingular. destruct ex_env_vals as (-> & -> & -> & -> & -> & -> & ->).
  unfold kallen. repeat split; lra.
Qed.
(** The same decay in the rest frames of the isobar (12) would need irrational
    components; a simpler point for the frames of C15 and C16: *)
Definition ex_q1 : vec4 := V4 5 (V3 3 0 0).
Definition ex_q2 : vec4 := V4 5 (V3 (-3) 0 0).
Definition ex_q3 : vec4 := V4 13 (V3 0 5 0).
Definition ex_q_env (s : symbol) : R :=
  if eqb s (Sym "m0" ANonneg) then sqrt 504 else if eqb s (Sym "m1" ANonneg) then 4
  else if eqb s (Sym "m2" ANonneg) then 4 else if eqb s (Sym "m3" ANonneg) then 12
  else if eqb s (Sym "sigma1" ANonneg) then 290 else if eqb s (Sym "sigma2" ANonneg) then 290
  else if eqb s (Sym "sigma3" ANonneg) then 100 else 0%R.
Lemma ex_q_env_vals : at_m0 ex_q_env = sqrt 504%R /\ at_m1 ex_q_env = 4%R /\ at_m2 ex_q_env = 4%R /\
  at_m3 ex_q_env = 12%R /\ at_s1 ex_q_env = 290%R /\ at_s2 ex_q_env = 290%R /\ at_s3 ex_q_env = 100%R.
Proof. repeat split. Qed.
Lemma ex_q_momenta : momenta_of ex_q_env ex_q1 ex_q2 ex_q3 /\ nonsingular ex_q_env /\
  add3 (vp ex_q1) (vp ex_q2) = zero3.
Proof.
  unfold momenta_of, on_shell, nonsingular.
  destruct ex_q_env_vals as (-> & -> & -> & -> & -> & -> & ->).
  rewrite sqrt_sqrt by lra. pose proof (sqrt_pos 504).
  unfold ex_q1, ex_q2, ex_q3, msq, add4, add3, dot, kallen, zero3; simpl. repeat split; try lra.
  f_equal; lra.
Qed.
Definition ex_r1 : vec4 := V4 4 (V3 0 0 0).
Definition ex_r2 : vec4 := V4 5 (V3 4 0 0).
Definition ex_r3 : vec4 := V4 13 (V3 0 5 0).
Definition ex_r_env (s : symbol) : R :=
  if eqb s (Sym "m0" ANonneg) then sqrt 443 else if eqb s (Sym "m1" ANonneg) then 4
  else if eqb s (Sym "m2" ANonneg) then 3 else if eqb s (Sym "m3" ANonneg) then 12
  else if eqb s (Sym "sigma1" ANonneg) then 283 else if eqb s (Sym "sigma2" ANonneg) then 264
  else if eqb s (Sym "sigma3" ANonneg) then 65 else 0%R.
Lemma ex_r_env_vals : at_m0 ex_r_env = sqrt 443%R /\ at_m1 ex_r_env = 4%R /\ at_m2 ex_r_env = 3%R /\
  at_m3 ex_r_env = 12%R /\ at_s1 ex_r_env = 283%R /\ at_s2 ex_r_env = 264%R /\ at_s3 ex_r_env = 65%R.
Proof. repeat split. Qed.
Lemma ex_r_momenta : momenta_of ex_r_env ex_r1 ex_r2 ex_r3 /\ nonsingular ex_r_env /\
  vp (pick 1 ex_r1 ex_r2 ex_r3) = zero3.
Proof.
  unfold momenta_of, on_shell, nonsingular.
  destruct ex_r_env_vals as (-> & -> & -> & -> & -> & -> & ->).
  rewrite sqrt_sqrt by lra. pose proof (sqrt_pos 443).
  unfold ex_r1, ex_r2, ex_r3, msq, add4, add3, dot, kallen, zero3; simpl. repeat split; try lra.
Qed.
