(** The momenta of a decay in its rest frame follow from their invariants (C131) *)
From Coq Require Import ZArith Reals List Lra Lia Psatz.
From Verif Require Import Prelude Expr SpecKin Angles KinFacts AnglesFacts AnglesProofs SpecWigner WignerFrames WignerProofs.
Import ListNotations.
Local Open Scope R_scope.

Lemma same_square x y : 0 <= x -> 0 <= y -> x * x = y * y -> x = y.
Proof. intros X Y E. nra. Qed.
Lemma same_energy m e f n e' n' : 0 < m -> e * e - n = e' * e' - n' -> (m - e) * (m - e) - n = (m - e') * (m - e') - n' -> f = e -> f = e'.
Proof. intros M A B ->. nra. Qed.
Lemma unique_triple m pk pa pb qk qa qb : 0 < m ->
  add4 pk (add4 pa pb) = at_rest m -> add4 qk (add4 qa qb) = at_rest m ->
  msq pk = msq qk -> msq pa = msq qa -> msq pb = msq qb ->
  msq (add4 pa pb) = msq (add4 qa qb) -> msq (add4 pb pk) = msq (add4 qb qk) ->
  vx (vp pk) = 0 -> vx (vp qk) = 0 -> vz (vp pk) <= 0 -> vz (vp qk) < 0 ->
  vy (vp pk) = 0 -> vy (vp qk) = 0 -> vy (vp pa) = 0 -> vy (vp qa) = 0 ->
  0 <= vx (vp pa) -> 0 <= vx (vp qa) -> pk = qk /\ pa = qa /\ pb = qb.
Proof.
  destruct pk as [ek [xk yk zk]], pa as [ea [xa ya za]], pb as [eb [xb yb zb]].
  destruct qk as [fk [uk vk wk]], qa as [fa [ua va wa]], qb as [fb [ub vb wb]].
  unfold add4, add3, at_rest, zero3, msq, dot; cbn [vE vp vx vy vz].
  intros M T T' Mk Ma Mb Sk Sa -> -> Lk Lk' -> -> -> -> La La'.
  injection T as Te Tx Ty Tz. injection T' as Te' Tx' Ty' Tz'.
  assert (Eb : eb = m - ek - ea) by lra. assert (Fb : fb = m - fk - fa) by lra.
  assert (Xb : xb = - xa) by lra. assert (Yb : yb = 0) by lra. assert (Zb : zb = - zk - za) by lra.
  assert (Ub : ub = - ua) by lra. assert (Vb : vb = 0) by lra. assert (Wb : wb = - wk - wa) by lra.
  clear Te Tx Ty Tz Te' Tx' Ty' Tz'. subst eb fb xb yb zb ub vb wb.
  assert (K : ek = fk).
  { apply (same_energy m ek ek (zk * zk) fk (wk * wk) M); [clear -Mk; lra|clear -Sk; lra|reflexivity]. }
  subst fk. assert (Z : zk = wk).
  { assert (- zk = - wk); [|lra]. apply same_square; [lra|lra|]. clear -Mk. lra. }
  subst wk.
  assert (A : ea = fa).
  { apply (same_energy m ea ea (xa * xa + za * za) fa (ua * ua + wa * wa) M); [clear -Ma; lra|clear -Sa; lra|reflexivity]. }
  subst fa.
  assert (ZA : za = wa).
  { assert (zk * (za - wa) = 0) as X by (clear -Ma Mb; lra). apply Rmult_integral in X. destruct X; lra. }
  subst wa.
  assert (XA : xa = ua) by (apply same_square; [lra|lra|clear -Ma; lra]).
  subst ua. repeat split.
Qed.

Lemma c131_unique env k theta p : physical env -> nonsingular env ->
  (forall i, (1 <= i <= 3)%Z -> 0 < mass_at env i) -> (1 <= k <= 3)%Z -> scattering_angle env k theta ->
  momenta_of env (p 1%Z) (p 2%Z) (p 3%Z) -> add4 (p 1%Z) (add4 (p 2%Z) (p 3%Z)) = at_rest (mass_at env 0) ->
  vx (vp (p k)) = 0 -> vz (vp (p k)) <= 0 -> (forall i, vy (vp (p i)) = 0) -> 0 <= vx (vp (p (next_label k))) ->
  forall i, (1 <= i <= 3)%Z -> p i = helicity_frame env k theta i (at_rest (mass_at env i)).
Proof.
  intros PH NS M Hk T Mo To A B C D.
  pose proof (c131_momenta env k theta PH NS M Hk T) as Q. cbv zeta in Q.
  set (q := fun i => helicity_frame env k theta i (at_rest (mass_at env i))) in *.
  change (forall i, (1 <= i <= 3)%Z -> p i = q i).
  destruct Q as (Qm & Qt & Qk & Qs & Qp).
  change (momenta_of env (q 1%Z) (q 2%Z) (q 3%Z)) in Qm.
  change (add4 (q 1%Z) (add4 (q 2%Z) (q 3%Z)) = at_rest (mass_at env 0)) in Qt.
  change (vp (q k) = V3 0 0 (- spectator_momentum env k)) in Qk.
  change (0 <= vx (vp (q (next_label k)))) in Qs. change (forall i, vy (vp (q i)) = 0) in Qp.
  destruct (point_facts env PH NS M k Hk) as (M0 & S0 & I1 & I2 & N1 & N2). cbv zeta in N1.
  assert (SP : 0 < spectator_momentum env k).
  { unfold spectator_momentum, momentum. apply Rdiv_lt_0_compat.
    - apply sqrt_lt_R0. rewrite (sqrt_sqrt (sigma_val env k)) by lra. exact N1.
    - assert (0 < sqrt (mass_at env 0 * mass_at env 0)); [|lra]. apply sqrt_lt_R0. apply Rmult_lt_0_compat; exact M0. }
  assert (Zk : vz (vp (q k)) < 0) by (rewrite Qk; cbn [vz]; lra).
  assert (Xk : vx (vp (q k)) = 0) by (rewrite Qk; reflexivity).
  clearbody q. clear Qk.
  assert (CA : forall u v : vec4, add4 u v = add4 v u) by (intros; unfold add4, add3; f_equal; [ring|f_equal; ring]).
  assert (AA : forall u v w : vec4, add4 u (add4 v w) = add4 (add4 u v) w) by (intros; unfold add4, add3; cbn [vE vp vx vy vz]; f_equal; [ring|f_equal; ring]).
  destruct Mo as ((_ & _ & E1) & (_ & _ & E2) & (_ & _ & E3) & _ & F1 & F2 & F3).
  destruct Qm as ((_ & _ & G1) & (_ & _ & G2) & (_ & _ & G3) & _ & H1 & H2 & H3).
  assert (J : p 1%Z = q 1%Z /\ p 2%Z = q 2%Z /\ p 3%Z = q 3%Z).
  { destruct (in123 k Hk) as [-> | [-> | ->]]; cbn [next_label Z.eqb Pos.eqb Z.add Pos.add Pos.succ] in D, Qs.
    - destruct (unique_triple (mass_at env 0) (p 1%Z) (p 2%Z) (p 3%Z) (q 1%Z) (q 2%Z) (q 3%Z)) as (X & Y & W); auto; congruence.
    - destruct (unique_triple (mass_at env 0) (p 2%Z) (p 3%Z) (p 1%Z) (q 2%Z) (q 3%Z) (q 1%Z)) as (X & Y & W); auto; congruence.
    - destruct (unique_triple (mass_at env 0) (p 3%Z) (p 1%Z) (p 2%Z) (q 3%Z) (q 1%Z) (q 2%Z)) as (X & Y & W); auto; congruence. }
  destruct J as (J1 & J2 & J3). intros i Hi. destruct (in123 i Hi) as [-> | [-> | ->]]; assumption.
Qed.

(** ** Example: the point of the other examples *)
Lemma ex_masses i : (1 <= i <= 3)%Z -> 0 < mass_at ex_env i.
Proof.
  intros Hi. destruct ex_env_vals as (_ & V1 & V2 & V3 & _). unfold mass_at, pick.
  destruct (in123 i Hi) as [-> | [-> | ->]]; cbn [Z.eqb Pos.eqb]; lra.
Qed.
Lemma ex_frames : physical ex_env /\ nonsingular ex_env /\ (forall i, (1 <= i <= 3)%Z -> 0 < mass_at ex_env i) /\
  (exists t, scattering_angle ex_env 3 t) /\ (exists t, scattering_angle ex_env 1 t) /\
  (exists x e, formulate_theta_hat_angle 3 1 = Ok (x, e)) /\ (exists y f, formulate_zeta_angle 2 3 1 = Ok (y, f)) /\
  frame_sign 2 3 1 = -1.
Proof.
  split; [exists ex_p1, ex_p2, ex_p3; exact ex_momenta|]. split; [exact ex_nonsingular|]. split; [exact ex_masses|].
  split; [eexists; eexists; eexists; split; reflexivity|]. split; [eexists; eexists; eexists; split; reflexivity|].
  split; [eexists; eexists; reflexivity|]. split; [eexists; eexists; reflexivity|reflexivity].
Qed.
(** Momenta that satisfy the hypotheses of the uniqueness: those of the frames *)
Lemma ex_unique : exists p : Z -> vec4, momenta_of ex_env (p 1%Z) (p 2%Z) (p 3%Z) /\
  add4 (p 1%Z) (add4 (p 2%Z) (p 3%Z)) = at_rest (mass_at ex_env 0) /\ vx (vp (p 3%Z)) = 0 /\ vz (vp (p 3%Z)) <= 0 /\
  (forall i, vy (vp (p i)) = 0) /\ 0 <= vx (vp (p (next_label 3))).
Proof.
  destruct ex_frames as (P & N & M & [t T] & _).
  pose proof (c131_momenta ex_env 3 t P N M ltac:(lia) T) as (A & B & C & D & E).
  eexists (fun i => helicity_frame ex_env 3 t i (at_rest (mass_at ex_env i))). split; [exact A|]. split; [exact B|].
  rewrite C. cbn [vx vz]. split; [reflexivity|]. split; [|split; [exact E|exact D]].
  assert (0 <= spectator_momentum ex_env 3); [|lra]. unfold spectator_momentum, momentum.
  apply Rmult_le_pos; [apply sqrt_pos|]. apply Rlt_le, Rinv_0_lt_compat.
  destruct (point_facts ex_env P N M 3 ltac:(lia)) as (M0 & _).
  assert (0 < sqrt (mass_at ex_env 0 * mass_at ex_env 0)); [|lra]. apply sqrt_lt_R0. apply Rmult_lt_0_compat; exact M0.
Qed.
