(** An event on the boundary of the Dalitz plot (C136) *)
From Coq Require Import String ZArith QArith Qcanon List Bool Reals Lia Lra Permutation.
From Coquelicot Require Import Complex.
From Verif Require Import Prelude Spin Decay Expr Angles Sums CExpr SpecSpin SpecKin SpecDPD SpecWigner Builder SpecBuilder BuilderExamples SpecLine LineFacts LineProofs.
Import ListNotations.
Local Open Scope R_scope.

Definition bl_env (s : symbol) : R :=
  if eqb s (Sym "m0" ANonneg) then 28 else if eqb s (Sym "m1" ANonneg) then 4
  else if eqb s (Sym "m2" ANonneg) then 12 else if eqb s (Sym "m3" ANonneg) then 6
  else if eqb s (Sym "sigma1" ANonneg) then 520 else if eqb s (Sym "sigma2" ANonneg) then 200
  else if eqb s (Sym "sigma3" ANonneg) then 260 else 1.
Definition bl_base (x : symbol) : C := RtoC (bl_env x).
Definition bl_p1 := V4 5 (V3 0 0 3).
Definition bl_p2 := V4 13 (V3 0 0 5).
Definition bl_p3 := V4 10 (V3 0 0 (-8)).
Definition bl_a (n : Z) : R := if Z.eqb n 1 then 3 else if Z.eqb n 2 then 5 else -8.
Lemma bl_vals : at_m0 bl_env = 28 /\ at_m1 bl_env = 4 /\ at_m2 bl_env = 12 /\
  at_m3 bl_env = 6 /\ at_s1 bl_env = 520 /\ at_s2 bl_env = 200 /\ at_s3 bl_env = 260.
Proof. repeat split. Qed.
Lemma bl_line : on_line bl_env bl_p1 bl_p2 bl_p3 (V3 0 0 1) bl_a.
Proof.
  split; [|split; [|split]].
  - unfold momenta_of, on_shell. destruct bl_vals as (-> & -> & -> & -> & -> & -> & ->).
    unfold bl_p1, bl_p2, bl_p3, msq, add4, add3, dot; simpl. repeat split; lra.
  - unfold bl_p1, bl_p2, bl_p3, add3, zero3; simpl. f_equal; lra.
  - unfold dot; simpl; lra.
  - intros n Hn. assert (C : (n = 1 \/ n = 2 \/ n = 3)%Z) by lia. destruct C as [->|[->| ->]]; cbn; f_equal; lra.
Qed.
Lemma bl_nonsingular : nonsingular bl_env.
Proof.
  unfold nonsingular. destruct bl_vals as (-> & -> & -> & -> & -> & -> & ->). unfold kallen. repeat split; lra.
Qed.
Lemma bl_formulate : exists m, formulate ex_b (Some 2%Z) false false = Ok m.
Proof. destruct (formulate ex_b (Some 2%Z) false false) as [m|] eqn:F; [eauto|exfalso; vm_compute in F; discriminate F]. Qed.
Lemma bl_sum m : formulate ex_b (Some 2%Z) false false = Ok m -> forall cpl,
  full_value (at_point (m_variables m) bl_base cpl) m
  = RtoC (Cmod (aligned_value ex_b 2 m (at_point (m_variables m) bl_base cpl) (-1, 1, 0, 0)%Z) ^ 2
          + Cmod (aligned_value ex_b 2 m (at_point (m_variables m) bl_base cpl) (1, -1, 0, 0)%Z) ^ 2).
Proof.
  intros F cpl.
  rewrite (c136_intensity ex_b ex_st ex_dyn 2 false false m bl_base cpl bl_p1 bl_p2 bl_p3 (V3 0 0 1) bl_a ex_std
    (ex_dynamics (MinBool false) (or_introl eq_refl)) (fun _ => ex_plain) F bl_line bl_nonsingular).
  f_equal.
  change (tuples ex_st) with [(-1, -1, 0, 0)%Z; (-1, 1, 0, 0)%Z; (1, -1, 0, 0)%Z; (1, 1, 0, 0)%Z].
  assert (A2 : sgn (bl_a 2) = 1%Z) by (unfold sgn, bl_a; simpl; destruct (Rlt_dec 5 0); [lra|reflexivity]).
  assert (M1 : moves bl_a (fun n => vE (pick n bl_p1 bl_p2 bl_p3)) 2 1 = 1%Z).
  { unfold moves, sgn, bl_a, third; simpl. destruct (Rlt_dec (3 * 10 - -8 * 5) 0); [lra|reflexivity]. }
  assert (T : forall l0 l1, (parent_projection bl_a 2 (l0, l1, 0, 0) =? final_projection bl_a (fun n => vE (pick n bl_p1 bl_p2 bl_p3)) 2 (l0, l1, 0, 0))%Z = (- l0 =? l1)%Z).
  { intros l0 l1. unfold parent_projection, final_projection. cbn [at4]. rewrite A2, M1. change (2 =? 0)%Z with false. cbv iota.
    replace (- (1) * l0)%Z with (- l0)%Z by lia. match goal with |- (_ =? ?x)%Z = _ => replace x with l1 by lia end. reflexivity. }
  cbn [filter]. rewrite !T. cbn [Z.opp Z.eqb Pos.eqb Rsum]. ring.
Qed.
