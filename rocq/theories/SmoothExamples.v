(** A point that moves inside the Dalitz plot, without spin and with a photon (C139) *)
From Coq Require Import String ZArith QArith Qcanon List Bool Reals Lia Lra Psatz Permutation.
From Coquelicot Require Import Coquelicot.
From Verif Require Import Prelude Spin Decay Expr Sums CExpr SpecKin SpecDPD SpecWigner Builder Dynamics SpecDynamics RelabelExamples
  RelabelShapeExamples ObsExamples SpecFinite FiniteExamples ContinuityFacts MasslessExamples SpecSmooth SmoothFacts.
Import ListNotations.
Local Open Scope R_scope.

Definition se_base (t : R) : symbol -> C := rb_base (id_env (72 + t) (24 - t)).
Lemma se_zero x : se_base 0 x = fe_base x.
Proof.
  unfold se_base, fe_base, rb_base. destruct (existsb _ _); [|reflexivity]. f_equal. unfold id_env.
  destruct (eqb x _); [reflexivity|]. destruct (eqb x _); [lra|]. destruct (eqb x _); [lra|reflexivity].
Qed.
Lemma se_smooth x : smooth_at 0 (fun t => se_base t x).
Proof.
  unfold se_base, rb_base. destruct (existsb _ _); [|apply cd_const].
  assert (I : rsmooth_at 0 (fun t => t)) by exact (ex_derive_id 0).
  apply cd_real. unfold id_env.
  destruct (eqb x (Sym "m0" ANonneg)); [apply rd_const|].
  destruct (eqb x (Sym "sigma1" ANonneg)); [apply rd_plus; [apply rd_const|exact I]|].
  destruct (eqb x (Sym "sigma2" ANonneg)); [apply rd_minus; [apply rd_const|exact I]|].
  destruct (eqb x (Sym "sigma3" ANonneg)); apply rd_const.
Qed.
Lemma se_vals : let e := fun x => Re (se_base 0 x) in
  at_m0 e = 12 /\ at_m1 e = 0 /\ at_m2 e = 0 /\ at_m3 e = 0 /\ at_s1 e = 72 /\ at_s2 e = 24 /\ at_s3 e = 48.
Proof.
  cbv zeta. unfold at_m0, at_m1, at_m2, at_m3, at_s1, at_s2, at_s3. rewrite !se_zero. repeat split.
Qed.
Lemma se_inside : inside (fun x => Re (se_base 0 x)) /\ nonsingular (fun x => Re (se_base 0 x)).
Proof.
  destruct se_vals as (V0 & V1 & V2 & V3' & V4' & V5 & V6). split.
  - exists (V4 3 (V3 3 0 0)), (V4 5 (V3 (-3) (-4) 0)), (V4 4 (V3 0 4 0)). split; [|split].
    + unfold momenta_of, on_shell. rewrite V0, V1, V2, V3', V4', V5, V6. unfold msq, add4, add3, dot; simpl. repeat split; lra.
    + unfold add3, zero3. cbn [vp vx vy vz]. f_equal; lra.
    + unfold cross, zero3. cbn [vp vx vy vz]. intros E. injection E as _ _ E. lra.
  - unfold nonsingular. rewrite V0, V1, V2, V3', V4', V5, V6. unfold kallen. repeat split; lra.
Qed.
Lemma se_kept : masses_kept id_st 0 (fun t x => Re (se_base t x)).
Proof.
  intros i Hi Sp. exfalso. apply Sp. assert (K : i = 1%Z \/ i = 2%Z \/ i = 3%Z) by lia. destruct K as [->|[->| ->]]; reflexivity.
Qed.
Lemma se_dynamics : smooth_dynamics ob_decay rb_dyn (se_base 0).
Proof.
  intros c Hc. right. destruct (fe_regular c Hc) as [E|_].
  { exfalso. destruct Hc as [<-|[<-|[]]]; lazy in E; discriminate E. }
  destruct (ob_chain c Hc) as (i & j & Iso).
  assert (M : forall r, se_base 0 (resonance_mass r) = RtoC 2) by (intros; rewrite se_zero; reflexivity).
  assert (G : forall r, se_base 0 (resonance_width r) = RtoC 2) by (intros; rewrite se_zero; reflexivity).
  assert (O0 : se_base 0 (outer_mass (id_st 0)) = RtoC 12) by (rewrite se_zero; reflexivity).
  assert (O1 : se_base 0 (outer_mass (id_st 1)) = RtoC 0) by (rewrite se_zero; reflexivity).
  assert (O2 : se_base 0 (outer_mass (id_st 2)) = RtoC 0) by (rewrite se_zero; reflexivity).
  assert (O3 : se_base 0 (outer_mass (id_st 3)) = RtoC 0) by (rewrite se_zero; reflexivity).
  assert (S1 : se_base 0 (sigma_of (id_st 1)) = RtoC 72) by (rewrite se_zero; reflexivity).
  assert (PR : se_base 0 (parent_radius (id_st 0)) = RtoC 2) by (rewrite se_zero; reflexivity).
  assert (RR : se_base 0 resonance_radius = RtoC 2) by (rewrite se_zero; reflexivity).
  exists rb_w. do 7 eexists. split; [reflexivity|]. split; [exact (ob_call c Hc)|]. split; [exact Iso|].
  split; [|split; [|split]].
  - intros x _. unfold real_at. rewrite se_zero. unfold fe_base, rb_base. destruct (existsb _ _); reflexivity.
  - unfold between_masses. rewrite M, G, RR, O0, O1, O2, O3. cbn [Re RtoC fst]. lra.
  - intros _. right. rewrite PR, M, O0, O1. cbn [Re RtoC fst]. lra.
  - intros _. right. rewrite O2, O3, S1. cbn [Re RtoC fst]. lra.
Qed.

(** J/psi -> gamma pi0 eta: the photon stays massless while the event moves. *)
Definition sg_base (t : R) (x : symbol) : C :=
  RtoC (if eqb x (Sym "sigma1" ANonneg) then 308 + t else if eqb x (Sym "sigma2" ANonneg) then 56 - t else ga_env x).
Lemma sg_vals t : let e := fun x => Re (sg_base t x) in
  at_m0 e = 22 /\ at_m1 e = 0 /\ at_m2 e = 12 /\ at_m3 e = 4 /\ at_s1 e = 308 + t /\ at_s2 e = 56 - t /\ at_s3 e = 280.
Proof. repeat split. Qed.
Lemma sg_physical t : -1 < t < 1 -> physical (fun x => Re (sg_base t x)) /\ nonsingular (fun x => Re (sg_base t x)).
Proof.
  intros T. destruct (sg_vals t) as (W0 & W1 & W2 & W3 & W4 & W5 & W6).
  set (y := - (17 / 132) * t). set (e1 := 4 - t / 44).
  assert (Q : 0 <= e1 * e1 - y * y) by (unfold e1, y; nra). set (x := sqrt (e1 * e1 - y * y)).
  assert (X : x * x = e1 * e1 - y * y) by (apply sqrt_sqrt; exact Q). clearbody x. split.
  - exists (V4 e1 (V3 x y 0)), (V4 (13 + t / 44) (V3 (- x) (3 - y) 0)), (V4 5 (V3 0 (-3) 0)).
    unfold momenta_of, on_shell. rewrite W0, W1, W2, W3, W4, W5, W6. unfold msq, add4, add3, dot. cbn [vE vp vx vy vz].
    unfold e1, y in *. repeat split; nra.
  - unfold nonsingular. rewrite W0, W1, W2, W3, W4, W5, W6. unfold kallen. repeat split; nra.
Qed.
Lemma sg_inside : inside (fun x => Re (sg_base 0 x)).
Proof.
  destruct (sg_vals 0) as (W0 & W1 & W2 & W3 & W4 & W5 & W6).
  exists (V4 4 (V3 4 0 0)), (V4 13 (V3 (-4) 3 0)), (V4 5 (V3 0 (-3) 0)). split; [|split].
  - unfold momenta_of, on_shell. rewrite W0, W1, W2, W3, W4, W5, W6. unfold msq, add4, add3, dot; simpl. repeat split; lra.
  - unfold add3, zero3. cbn [vp vx vy vz]. f_equal; lra.
  - unfold cross, zero3. cbn [vp vx vy vz]. intros E. injection E as _ _ E. lra.
Qed.
Lemma sg_kept : masses_kept ga_s 0 (fun t x => Re (sg_base t x)).
Proof.
  intros i Hi Sp. assert (K : i = 1%Z \/ i = 2%Z \/ i = 3%Z) by lia.
  destruct K as [->|[->| ->]]; [|destruct Sp; reflexivity|destruct Sp; reflexivity].
  right. exists (mkposreal 1 Rlt_0_1). intros t Ht. split; [reflexivity|].
  apply sg_physical. assert (H : Rabs (t - 0) < 1) by exact Ht. apply Rabs_def2 in H. lra.
Qed.
Lemma sg_smooth x : smooth_at 0 (fun t => sg_base t x).
Proof.
  assert (I : rsmooth_at 0 (fun t => t)) by exact (ex_derive_id 0). unfold sg_base. apply cd_real.
  destruct (eqb x (Sym "sigma1" ANonneg)); [apply rd_plus; [apply rd_const|exact I]|].
  destruct (eqb x (Sym "sigma2" ANonneg)); [apply rd_minus; [apply rd_const|exact I]|apply rd_const].
Qed.
Lemma sg_dynamics : smooth_dynamics ga_decay (fun _ => de_unit) (sg_base 0).
Proof. intros c _. left. reflexivity. Qed.
Lemma sg_zero : physical (fun x => Re (sg_base 0 x)) /\ nonsingular (fun x => Re (sg_base 0 x)).
Proof. apply sg_physical. lra. Qed.
