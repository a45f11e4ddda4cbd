(** Derivatives of a serialised decay (C139) *)
From Coq Require Import String ZArith QArith Qcanon List Bool Reals Lia Lra Permutation.
From Coquelicot Require Import Coquelicot.
From Verif Require Import Prelude Spin Decay Expr SpecKin SpecDPD CExpr Builder AnglesProofs SpecWigner SpecFinite SpecSmooth SmoothFacts
  SerFormat SerDynamics SpecSerial SerTotal SerWeights SerDyn SerPropagators SerExamples SpecSerPoints SerPoints SerPointExamples SpecSerFinite SerFinite
  SerFiniteExamples SpecSerSmooth SerSmooth.
Import ListNotations.
Local Open Scope string_scope.
Local Open Scope Z_scope.
Local Open Scope list_scope.

Lemma nx_moving_zero y : nx_moving 0 y = nx_base y.
Proof.
  unfold nx_moving. rewrite Ropp_0. destruct (eqb (sname y) "sigma1"); [apply Cplus_0_r|]. destruct (eqb (sname y) "sigma2"); [apply Cplus_0_r|].
  destruct (eqb (sname y) "m_{D}"); [apply Cplus_0_r|reflexivity].
Qed.
Lemma nx_smooth y : smooth_at 0 (fun t => nx_moving t y).
Proof.
  assert (I : rsmooth_at 0 (fun t => t)) by exact (ex_derive_id 0%R).
  assert (P : smooth_at 0 (fun t => nx_base y + RtoC t)%C) by (apply cd_plus; [apply cd_const|apply cd_real; exact I]).
  assert (Q : smooth_at 0 (fun t => nx_base y + RtoC (- t))%C) by (apply cd_plus; [apply cd_const|apply cd_real; apply rd_opp; exact I]).
  unfold nx_moving. destruct (eqb (sname y) "sigma1"); [exact P|]. destruct (eqb (sname y) "sigma2"); [exact Q|].
  destruct (eqb (sname y) "m_{D}"); [exact P|apply cd_const].
Qed.
Lemma nx_inside : inside (fun y => Re (nx_moving 0 y)) /\ nonsingular (fun y => Re (nx_moving 0 y)).
Proof.
  destruct nx_physical as [_ N]. split.
  - exists ex_p1, ex_p2, ex_p3. split; [|split].
    + pose proof ex_momenta as E. unfold momenta_of, at_m0, at_m1, at_m2, at_m3, at_s1, at_s2, at_s3 in E |- *. rewrite !nx_moving_zero. exact E.
    + unfold add3, zero3, ex_p1, ex_p2, ex_p3. cbn [vp vx vy vz]. f_equal; lra.
    + unfold cross, zero3, ex_p1, ex_p2. cbn [vp vx vy vz]. intros E. injection E as E1 E2 E3. lra.
  - unfold nonsingular, at_m0, at_m1, at_m2, at_m3, at_s1, at_s2, at_s3 in N |- *. rewrite !nx_moving_zero. exact N.
Qed.
Lemma nx_kept : masses_kept sx_s 0 (fun t y => Re (nx_moving t y)).
Proof.
  intros i Hi _. left. assert (K : i = 1 \/ i = 2 \/ i = 3) by lia. destruct K as [->|[->| ->]]; unfold mass_at; cbn; lra.
Qed.
Lemma nx_smooth_serial c : In c px_chains -> smooth_serial px_model sx_tl sx_x (nx_moving 0) c.
Proof.
  intros I. split.
  - pose proof (nx_regular c I) as (Cc & NB & (Rl & Ps) & Th & Ch).
    split; [exact Cc|]. split; [exact NB|]. split; [|split].
    + split; [intros y Hy; rewrite nx_moving_zero; exact (Rl y Hy)|]. rewrite !nx_moving_zero. exact Ps.
    + intros B. rewrite !nx_moving_zero. exact (Th B).
    + intros p f ch0 chs q ch Ip Ff Ec Eq. rewrite !nx_moving_zero. exact (Ch p f ch0 chs q ch Ip Ff Ec Eq).
  - intros p f ch0 chs q ch Ip Ff Ech Eq. cbv zeta. rewrite !nx_moving_zero.
    assert (Bw : forall g, function_of px_model (pr_parametrization p) g -> f = g) by (intros g Hg; exact (function_fun px_model _ _ _ Ff Hg)).
    destruct I as [<-|[<-|[<-|[]]]]; destruct Ip as [<-|[]].
    + rewrite (Bw (sx_bw "D_BW" 1 2 1 1 0 3)) in Ech by (fn (@nil func_def) (tl px_functions)). discriminate Ech.
    + rewrite (Bw (sx_multi "L_MC" 3 [sx_channel 0 1 1 2 3; sx_channel 1 1 2 4 5; sx_channel 0 2 2 6 7])) in Ech by (fn (firstn 1 px_functions) (skipn 2 px_functions)).
      injection Ech as <- <-. destruct q as [|[|[|q]]]; cbn [nth_error] in Eq; try discriminate Eq; injection Eq as <-.
      * right. cbn. lra.
      * left. reflexivity.
    + rewrite (Bw (sx_bw "K_BW" 1 2 1 0 1 3)) in Ech by (fn (firstn 2 px_functions) (skipn 3 px_functions)). discriminate Ech.
Qed.
