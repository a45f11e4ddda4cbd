(** Kinematics on a line of constant sigma_k in the Dalitz plot (proofs for C94) *)
From Coq Require Import String ZArith List Bool Reals Lra Lia Psatz.
From Coquelicot Require Import Complex Hierarchy RInt RInt_analysis.
From Verif Require Import Prelude Expr CExpr Angles SpecKin KinFacts AnglesFacts SpecDPD SpecObs.
Import ListNotations.
Local Open Scope R_scope.

(** ** Momenta in the rest frame of the isobar *)
Section frame.
  Variables mi mj mk m0 sg x : R.
  Hypothesis (Hi : 0 <= mi) (Hj : 0 <= mj) (Hk : 0 <= mk).
  Hypothesis (T : mi + mj < sqrt sg < m0 - mk).
  Let xi := mi * mi. Let xj := mj * mj. Let xk := mk * mk. Let x0 := m0 * m0.
  Let w := sqrt sg.
  Let A := kallen x0 xk sg. Let B := kallen sg xi xj.
  Let N := n_theta x0 xi xj xk x sg.
  Lemma w_pos : 0 < w. Proof. unfold w. lra. Qed.
  Lemma sg_pos : 0 < sg.
  Proof.
    destruct (Rle_or_lt sg 0) as [H|H]; [|exact H]. pose proof w_pos as W. unfold w in W.
    rewrite sqrt_neg_0 in W by exact H. lra.
  Qed.
  Lemma w_sq : w * w = sg. Proof. apply sqrt_sqrt. pose proof sg_pos. lra. Qed.
  Lemma A_pos : 0 < A.
  Proof.
    unfold A, x0, xk. rewrite <- w_sq.
    replace (kallen (m0 * m0) (mk * mk) (w * w)) with ((m0 - mk - w) * (m0 - mk + w) * ((m0 + mk - w) * (m0 + mk + w)))
      by (unfold kallen; ring).
    pose proof w_pos. fold w in T. repeat apply Rmult_lt_0_compat; lra.
  Qed.
  Lemma B_pos : 0 < B.
  Proof.
    unfold B, xi, xj. rewrite <- w_sq.
    replace (kallen (w * w) (mi * mi) (mj * mj)) with ((w - mi - mj) * (w + mi + mj) * ((w - mi + mj) * (w + mi - mj)))
      by (unfold kallen; ring).
    pose proof w_pos. fold w in T. repeat apply Rmult_lt_0_compat; lra.
  Qed.
  Let c := N / (sqrt A * sqrt B).
  Let P := sqrt B / (2 * w). Let Q := sqrt A / (2 * w).
  Definition frame_i : vec4 := V4 ((sg + xi - xj) / (2 * w)) (V3 (P * sqrt (1 - c * c)) 0 (P * c)).
  Definition frame_j : vec4 := V4 ((sg + xj - xi) / (2 * w)) (V3 (- (P * sqrt (1 - c * c))) 0 (- (P * c))).
  Definition frame_k : vec4 := V4 ((x0 - sg - xk) / (2 * w)) (V3 0 0 (- Q)).
  Hypothesis (NN : N * N <= A * B).
  Lemma c_range : c * c <= 1.
  Proof. pose proof (acos_ratio N A B A_pos B_pos NN) as X. fold c in X. nra. Qed.
  Lemma P_sq : P * P = B / (4 * sg).
  Proof.
    unfold P. rewrite <- w_sq at 1. pose proof w_pos. pose proof (sqrt_sqrt B (Rlt_le _ _ B_pos)) as E.
    transitivity (sqrt B * sqrt B / (4 * (w * w))); [field; lra|]. rewrite E. reflexivity.
  Qed.
  Lemma Q_sq : Q * Q = A / (4 * sg).
  Proof.
    unfold Q. rewrite <- w_sq at 1. pose proof w_pos. pose proof (sqrt_sqrt A (Rlt_le _ _ A_pos)) as E.
    transitivity (sqrt A * sqrt A / (4 * (w * w))); [field; lra|]. rewrite E. reflexivity.
  Qed.
  Lemma PQc : P * Q * c = N / (4 * sg).
  Proof.
    unfold P, Q, c. rewrite <- w_sq. pose proof w_pos.
    pose proof (sqrt_lt_R0 A A_pos). pose proof (sqrt_lt_R0 B B_pos). field. lra.
  Qed.
  Lemma root_sq : sqrt (1 - c * c) * sqrt (1 - c * c) = 1 - c * c.
  Proof. apply sqrt_sqrt. pose proof c_range. lra. Qed.
  Lemma p_sq : P * sqrt (1 - c * c) * (P * sqrt (1 - c * c)) + P * c * (P * c) = B / (4 * sg).
  Proof.
    transitivity (P * P * (sqrt (1 - c * c) * sqrt (1 - c * c) + c * c)); [ring|].
    rewrite root_sq, P_sq. ring.
  Qed.
  Ltac open := unfold msq, add4, add3, dot, frame_i, frame_j, frame_k; cbn [vE vp vx vy vz].
  Lemma energy_sq a : a / (2 * w) * (a / (2 * w)) = a * a / (4 * sg).
  Proof. rewrite <- w_sq. pose proof w_pos. field. lra. Qed.
  Lemma frame_shell : on_shell mi frame_i /\ on_shell mj frame_j /\ on_shell mk frame_k.
  Proof.
    pose proof w_pos as W. pose proof sg_pos as S. pose proof p_sq as Pq. pose proof Q_sq as Qq. fold w in T.
    assert (Inv : 0 < / (2 * w)) by (apply Rinv_0_lt_compat; lra).
    repeat split; auto.
    - open. apply Rmult_le_pos; [|lra]. rewrite <- w_sq. unfold xi, xj. nra.
    - open. rewrite energy_sq. unfold Rdiv at 1.
      replace (_ - _) with ((sg + xi - xj) * (sg + xi - xj) * / (4 * sg)
        - (P * sqrt (1 - c * c) * (P * sqrt (1 - c * c)) + P * c * (P * c))) by ring.
      rewrite Pq. unfold B, kallen, xi, xj. field. lra.
    - open. apply Rmult_le_pos; [|lra]. rewrite <- w_sq. unfold xi, xj. nra.
    - open. rewrite energy_sq. unfold Rdiv at 1.
      replace (_ - _) with ((sg + xj - xi) * (sg + xj - xi) * / (4 * sg)
        - (P * sqrt (1 - c * c) * (P * sqrt (1 - c * c)) + P * c * (P * c))) by ring.
      rewrite Pq. unfold B, kallen, xi, xj. field. lra.
    - open. apply Rmult_le_pos; [|lra]. rewrite <- w_sq. unfold x0, xk. nra.
    - open. rewrite energy_sq. replace (0 * 0 + 0 * 0 + - Q * - Q) with (Q * Q) by ring. rewrite Qq.
      unfold A, kallen, x0, xk. field. lra.
  Qed.
  Lemma frame_sigma_k : msq (add4 frame_i frame_j) = sg.
  Proof.
    pose proof w_pos as W. pose proof w_sq as E. open.
    replace (P * c + - (P * c)) with 0 by ring.
    replace (P * sqrt (1 - c * c) + - (P * sqrt (1 - c * c))) with 0 by ring.
    replace ((sg + xi - xj) / (2 * w) + (sg + xj - xi) / (2 * w)) with w; [rewrite E; ring|].
    rewrite <- E. field. lra.
  Qed.
  Lemma frame_sigma_j : msq (add4 frame_k frame_i) = x.
  Proof.
    rewrite msq_add. destruct frame_shell as ((_ & _ & ->) & _ & (_ & _ & ->)).
    pose proof PQc as E. pose proof sg_pos. open. fold xk xi.
    replace (0 * _ + 0 * 0 + - Q * (P * c)) with (- (P * Q * c)) by ring. rewrite E.
    replace ((x0 - sg - xk) / (2 * w) * ((sg + xi - xj) / (2 * w))) with ((x0 - sg - xk) * (sg + xi - xj) / (4 * sg)).
    - unfold N, n_theta. field. lra.
    - rewrite <- w_sq. pose proof w_pos. field. lra.
  Qed.
  Lemma frame_total : on_shell m0 (add4 frame_i (add4 frame_j frame_k)).
  Proof.
    destruct frame_shell as ((_ & Ei & _) & (_ & Ej & _) & (_ & Ek & Qk)).
    pose proof w_pos as W. pose proof w_sq as E. fold w in T. split; [lra|]. split.
    - unfold add4 at 1 2. cbn [vE]. unfold add4. cbn [vE]. lra.
    - assert (X : msq (add4 frame_i (add4 frame_j frame_k)) = msq (add4 frame_i frame_j) + msq frame_k + 2 * (w * vE frame_k)).
      { rewrite frame_sigma_k, Qk. pose proof p_sq. revert Qk. open. intros Qk.
        replace (P * sqrt (1 - c * c) + (- (P * sqrt (1 - c * c)) + 0)) with 0 by ring.
        replace (P * c + (- (P * c) + - Q)) with (- Q) by ring.
        set (e := (x0 - sg - xk) / (2 * w)) in *.
        replace ((sg + xi - xj) / (2 * w) + ((sg + xj - xi) / (2 * w) + e)) with (w + e)
          by (rewrite <- E; field; lra).
        rewrite <- E at 1. lra. }
      rewrite X, frame_sigma_k, Qk. open. fold xk x0. rewrite <- E. field. lra.
  Qed.
  Lemma frame_sigma_i : msq (add4 frame_j frame_k) = x0 + xi + xj + xk - sg - x.
  Proof.
    pose proof frame_total as (_ & _ & T0). pose proof frame_sigma_k as Sk. pose proof frame_sigma_j as Sj.
    destruct frame_shell as ((_ & _ & Q1) & (_ & _ & Q2) & (_ & _ & Q3)).
    rewrite !msq_add in *. revert T0 Sk Sj. unfold add4, add3, dot. cbn [vE vp vx vy vz]. fold xi xj xk x0 in Q1, Q2, Q3 |- *.
    fold x0. intros. nra.
  Qed.
End frame.

(** ** The physical part of the line *)
Definition line_A (base : symbol -> C) (k : Z) : R :=
  kallen (square_at base 0) (square_at base k) (Re (base (sigma_at k))).
Definition line_B (base : symbol -> C) (i j k : Z) : R :=
  kallen (Re (base (sigma_at k))) (square_at base i) (square_at base j).
Definition line_N (base : symbol -> C) (i j k : Z) (x : R) : R :=
  n_theta (square_at base 0) (square_at base i) (square_at base j) (square_at base k) x (Re (base (sigma_at k))).
Definition line_root (base : symbol -> C) (i j k : Z) : R := sqrt (line_A base k) * sqrt (line_B base i j k).
Definition line_env (base : symbol -> C) (i j k : Z) (x : R) : symbol -> R := fun y => Re (dalitz_line base i j k x y).
(** the end points *)
Definition line_end (base : symbol -> C) (i j k : Z) (e : R) : R :=
  (e * line_root base i j k - line_N base i j k 0) / (2 * Re (base (sigma_at k))).
Section line.
  Variables (base : symbol -> C) (i j k : Z).
  Hypothesis (Cy : cyclic i j k) (BT : between_thresholds base i j k).
  Notation mi := (Re (base (mass_at i))). Notation mj := (Re (base (mass_at j))). Notation mk := (Re (base (mass_at k))).
  Notation m0 := (Re (base (mass_at 0))). Notation sg := (Re (base (sigma_at k))).
  Notation line_A := (line_A base k). Notation line_B := (line_B base i j k). Notation line_N := (line_N base i j k).
  Notation line_root := (line_root base i j k). Notation line_env := (line_env base i j k).
  Notation line_end := (line_end base i j k).
  Lemma line_thr : 0 <= mi /\ 0 <= mj /\ 0 <= mk /\ mi + mj < sqrt sg < m0 - mk.
  Proof. exact BT. Qed.
  Lemma line_A_pos : 0 < line_A.
  Proof. destruct line_thr as (a & b & c & T). exact (A_pos mi mj mk m0 sg a b c T). Qed.
  Lemma line_B_pos : 0 < line_B.
  Proof. destruct line_thr as (a & b & c & T). exact (B_pos mi mj mk m0 sg a b T). Qed.
  Lemma line_sg_pos : 0 < sg.
  Proof. destruct line_thr as (a & b & c & T). exact (sg_pos mi mj mk m0 sg a b T). Qed.

  Lemma line_physical x : physical (line_env x) <-> line_N x * line_N x <= line_A * line_B.
  Proof.
    pose proof line_A_pos as HA. pose proof line_B_pos as HB. pose proof line_sg_pos as HS.
    split.
    - intros (p1 & p2 & p3 & M). apply physical_facts in M.
      destruct M as [Md G X0 X1 X2 X3 Y1 Y2 Y3].
      destruct Cy as [E|[E|[E|[]]]]; injection E as <- <- <-.
      + pose proof (id_theta12 _ _ _ _ _ _ _ Md) as I. cbv zeta in I. apply Rcomplements.Rminus_le_0.
        refine (eq_ind_r (fun t => 0 <= t) _ I). apply Rmult_le_pos; [lra|exact G].
      + pose proof (id_theta23 _ _ _ _ _ _ _ Md) as I. cbv zeta in I. apply Rcomplements.Rminus_le_0.
        refine (eq_ind_r (fun t => 0 <= t) _ I). apply Rmult_le_pos; [lra|exact G].
      + pose proof (id_theta31 _ _ _ _ _ _ _ Md) as I. cbv zeta in I. apply Rcomplements.Rminus_le_0.
        refine (eq_ind_r (fun t => 0 <= t) _ I). apply Rmult_le_pos; [lra|exact G].
    - intros NN. destruct line_thr as (a & b & c & T).
      destruct (frame_shell mi mj mk m0 sg x a b c T NN) as (O1 & O2 & O3).
      pose proof (frame_total mi mj mk m0 sg x a b c T NN) as O0.
      pose proof (frame_sigma_k mi mj mk m0 sg x a b T) as Sk.
      pose proof (frame_sigma_j mi mj mk m0 sg x a b c T NN) as Sj.
      pose proof (frame_sigma_i mi mj mk m0 sg x a b c T NN) as Si.
      set (pi := frame_i mi mj mk m0 sg x) in *. set (pj := frame_j mi mj mk m0 sg x) in *.
      set (pk := frame_k mk m0 sg) in *. clearbody pi pj pk.
      assert (Cyc : forall p q r, add4 p (add4 q r) = add4 r (add4 p q)).
      { intros [e1 [a1 b1 c1]] [e2 [a2 b2 c2]] [e3 [a3 b3 c3]]. unfold add4, add3. cbn [vE vp vx vy vz].
        f_equal; [ring|]. f_equal; ring. }
      destruct Cy as [E|[E|[E|[]]]]; injection E as <- <- <-.
      + exists pi, pj, pk. repeat split; try apply O1; try apply O2; try apply O3; try apply O0;
          [|symmetry; exact Sj|symmetry; exact Sk].
        rewrite Si. change (at_s1 (ObsKin.line_env base 1 2 3 x)) with
          (square_at base 0 + square_at base 1 + square_at base 2 + square_at base 3 - Re (base (sigma_at 3)) - x).
        unfold square_at. ring.
      + exists pk, pi, pj. rewrite (Cyc pi pj pk) in O0.
        repeat split; try apply O1; try apply O2; try apply O3; try apply O0;
          [symmetry; exact Sk| |symmetry; exact Sj].
        rewrite Si. change (at_s2 (ObsKin.line_env base 2 3 1 x)) with
          (square_at base 0 + square_at base 1 + square_at base 2 + square_at base 3 - Re (base (sigma_at 1)) - x).
        unfold square_at. ring.
      + exists pj, pk, pi. rewrite (Cyc pi pj pk), (Cyc pk pi pj) in O0.
        repeat split; try apply O1; try apply O2; try apply O3; try apply O0;
          [symmetry; exact Sj|symmetry; exact Sk|].
        rewrite Si. change (at_s3 (ObsKin.line_env base 3 1 2 x)) with
          (square_at base 0 + square_at base 1 + square_at base 2 + square_at base 3 - Re (base (sigma_at 2)) - x).
        unfold square_at. ring.
  Qed.

  Lemma line_root_pos : 0 < line_root.
  Proof. apply Rmult_lt_0_compat; apply sqrt_lt_R0; [exact line_A_pos|exact line_B_pos]. Qed.
  Lemma line_root_sq : line_root * line_root = line_A * line_B.
  Proof.
    unfold ObsKin.line_root. transitivity (sqrt line_A * sqrt line_A * (sqrt line_B * sqrt line_B)); [ring|].
    pose proof line_A_pos. pose proof line_B_pos. rewrite !sqrt_sqrt by lra. reflexivity.
  Qed.
  Lemma line_N_lin x : line_N x = 2 * sg * x + line_N 0.
  Proof. unfold ObsKin.line_N, n_theta. ring. Qed.
  Lemma line_ends x : line_N x * line_N x <= line_A * line_B <-> line_end (-1) <= x <= line_end 1.
  Proof.
    pose proof line_root_pos as R0. rewrite <- line_root_sq. pose proof line_sg_pos as S. rewrite line_N_lin. unfold ObsKin.line_end.
    set (n0 := line_N 0). clearbody n0. set (r := line_root) in *. clearbody r.
    assert (X : forall e, (e * r - n0) / (2 * sg) * (2 * sg) = e * r - n0) by (intros; field; lra).
    pose proof (X (-1)) as X1. pose proof (X 1) as X2. clear X.
    set (u := (-1 * r - n0) / (2 * sg)) in *. set (v := (1 * r - n0) / (2 * sg)) in *. clearbody u v.
    split.
    - intros H. assert (- r <= 2 * sg * x + n0 <= r) by (split; nra). split; nra.
    - intros [H1 H2]. assert (- r <= 2 * sg * x + n0 <= r) by (split; nra). nra.
  Qed.
  Lemma line_range_ex : exists a b, a < b /\ dalitz_range base i j k a b.
  Proof.
    exists (line_end (-1)), (line_end 1). split.
    - pose proof line_root_pos. pose proof line_sg_pos. unfold ObsKin.line_end. apply Rmult_lt_compat_r; [|lra].
      apply Rinv_0_lt_compat. lra.
    - intros x. change (fun y => Re (dalitz_line base i j k x y)) with (line_env x).
      rewrite line_physical. apply line_ends.
  Qed.
  Lemma line_range_unique a b : dalitz_range base i j k a b -> a = line_end (-1) /\ b = line_end 1.
  Proof.
    intros Rg.
    assert (E : forall x, line_end (-1) <= x <= line_end 1 <-> a <= x <= b).
    { intros x. rewrite <- line_ends, <- line_physical. apply Rg. }
    assert (L : line_end (-1) < line_end 1).
    { pose proof line_root_pos. pose proof line_sg_pos. unfold ObsKin.line_end. apply Rmult_lt_compat_r; [|lra].
      apply Rinv_0_lt_compat. lra. }
    pose proof (proj1 (E (line_end (-1))) ltac:(lra)). pose proof (proj1 (E (line_end 1)) ltac:(lra)).
    pose proof (proj2 (E a) ltac:(lra)). pose proof (proj2 (E b) ltac:(lra)). lra.
  Qed.
  (** the cosine of the scattering angle is linear along the line *)
  Lemma line_theta x : rv (line_env x) (formulate_scattering_angle i j) = acos (line_N x / line_root).
  Proof.
    destruct Cy as [E|[E|[E|[]]]]; injection E as <- <- <-; reflexivity.
  Qed.
  Lemma line_cos a b x : dalitz_range base i j k a b -> line_N x / line_root = 2 / (b - a) * x + - (a + b) / (b - a).
  Proof.
    intros Rg. destruct (line_range_unique _ _ Rg) as [-> ->]. rewrite line_N_lin. unfold ObsKin.line_end.
    pose proof line_root_pos. pose proof line_sg_pos. field. repeat split; try lra.
  Qed.
  Lemma line_lt a b : dalitz_range base i j k a b -> a < b.
  Proof.
    intros Rg. destruct (line_range_unique _ _ Rg) as [-> ->]. destruct line_range_ex as (a & b & L & Rg').
    destruct (line_range_unique _ _ Rg') as [-> ->]. exact L.
  Qed.
  Lemma line_integral a b (F : R -> R) v : dalitz_range base i j k a b ->
    is_RInt F (-1) 1 v -> is_RInt (fun x => F (line_N x / line_root)) a b ((b - a) / 2 * v).
  Proof.
    intros Rg I. pose proof (line_lt _ _ Rg) as L.
    assert (J : is_RInt F (2 / (b - a) * a + - (a + b) / (b - a)) (2 / (b - a) * b + - (a + b) / (b - a)) v).
    { replace (2 / (b - a) * a + - (a + b) / (b - a)) with (-1) by (field; lra).
      replace (2 / (b - a) * b + - (a + b) / (b - a)) with 1 by (field; lra). exact I. }
    pose proof (is_RInt_comp_lin F (2 / (b - a)) (- (a + b) / (b - a)) a b v J) as K.
    apply (is_RInt_scal _ _ _ ((b - a) / 2)) in K. unfold scal in K; cbn in K; unfold mult in K; cbn in K.
    eapply is_RInt_ext; [|exact K]. intros x _. cbn beta. rewrite (line_cos a b x Rg).
    match goal with |- @eq _ ?l ?r => change (@eq R l r) end. field. lra.
  Qed.
End line.
