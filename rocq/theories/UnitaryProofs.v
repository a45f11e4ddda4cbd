(** Unitarity and widths of the lineshapes (proofs for C128 and C129) *)
From Coq Require Import String ZArith QArith Qcanon Qreals List Bool Reals Lia Lra Psatz.
From Coquelicot Require Import Hierarchy RInt RInt_analysis Derive AutoDerive Continuity Complex.
From Verif Require Import Prelude Decay Expr Sums CExpr Builder SpecDPD Dynamics SpecDynamics CExprFacts LineshapeFacts LineshapeProofs FiniteShapes
  SpecHankel HankelFacts SpecUnitary.
Import ListNotations.
Local Open Scope R_scope.

Lemma mod2 (t : C) : Cmod t ^ 2 = Re t * Re t + Im t * Im t.
Proof. unfold Cmod, Re, Im. rewrite pow2_sqrt; [ring|]. apply Rplus_le_le_0_compat; apply pow2_ge_0. Qed.
Lemma elastic_core m w t : Im t = m * w * Cmod t ^ 2 -> elastic m w t.
Proof.
  intros H. split; [exact H|]. rewrite mod2 in H. destruct t as [x y]. cbn [Re Im fst snd] in H.
  unfold Cmod. split.
  - apply sqrt_lem_1; [apply Rplus_le_le_0_compat; apply pow2_ge_0|lra|].
    unfold Cplus, Cmult, RtoC, Ci. cbn [fst snd].
    replace (((1 + ((2 * 0 - 0 * 1) * (m * w) - (2 * 1 + 0 * 0) * 0) * x - ((2 * 0 - 0 * 1) * 0 + (2 * 1 + 0 * 0) * (m * w)) * y)) ^ 2)
      with ((1 - 2 * (m * w) * y) ^ 2) by ring.
    transitivity (1 + 4 * (m * w) * (m * w * (x * x + y * y) - y)); [rewrite <- H; ring|ring].
  - apply sqrt_lem_1; [apply Rplus_le_le_0_compat; apply pow2_ge_0|lra|].
    unfold Cminus, Cdiv, Cinv, Copp, Cplus, Cmult, RtoC, Ci. cbn [fst snd].
    transitivity (/ 4 + (m * w) * (m * w * (x * x + y * y) - y)); [rewrite <- H; field|field].
Qed.
Lemma kron_sum n i f : (i < n)%nat -> Csum (seq 0 n) (fun k => RtoC (kronecker i k) * f k)%C = f i.
Proof.
  intros H. rewrite (Csum_single (seq 0 n) i).
  - unfold kronecker. rewrite Nat.eqb_refl. apply Cmult_1_l.
  - apply seq_NoDup.
  - apply in_seq. lia.
  - intros k _ N. unfold kronecker. destruct (Nat.eqb_spec i k) as [->|_]; [contradiction|]. apply Cmult_0_l.
Qed.
Lemma unitary_core m g n t : (forall k, (k < n)%nat -> 0 <= g k) -> Im t = m * Rsum (seq 0 n) g * Cmod t ^ 2 ->
  unitary n (s_matrix m g t).
Proof.
  intros P H i j Hi Hj.
  set (u := fun k => RtoC (sqrt (g k))).
  assert (E : forall k, In k (seq 0 n) -> (s_matrix m g t i k * Cconj (s_matrix m g t j k) =
    (RtoC (kronecker i k) * RtoC (kronecker j k) + RtoC (kronecker j k) * (RtoC 2 * Ci * RtoC m * u i * t * u k))
    + (RtoC (kronecker i k) * (- (RtoC 2 * Ci) * RtoC m * u j * Cconj t * u k)
    + (RtoC 4 * RtoC m * RtoC m * u i * u j * (t * Cconj t)) * RtoC (g k)))%C).
  { intros k Hk. apply in_seq in Hk. unfold s_matrix, u. destruct t as [x y].
    assert (S : g k = sqrt (g k) * sqrt (g k)) by (symmetry; apply sqrt_sqrt, P; lia).
    replace (RtoC (g k)) with (RtoC (sqrt (g k) * sqrt (g k))) by (f_equal; symmetry; exact S). clear S.
    generalize (sqrt (g k)) as a, (sqrt (g i)) as b, (sqrt (g j)) as c, (kronecker i k) as d, (kronecker j k) as e. intros.
    apply injective_projections; cbn [fst snd RtoC Cplus Cmult Copp Cconj Ci]; ring. }
  rewrite (Csum_ext _ _ _ E), !Csum_plus, Csum_scal_l, Csum_RtoC.
  rewrite (kron_sum n i (fun k => RtoC (kronecker j k)) Hi), (kron_sum n j (fun k => RtoC 2 * Ci * RtoC m * u i * t * u k)%C Hj),
    (kron_sum n i (fun k => - (RtoC 2 * Ci) * RtoC m * u j * Cconj t * u k)%C Hi).
  assert (K : kronecker j i = kronecker i j) by (unfold kronecker; rewrite Nat.eqb_sym; reflexivity). rewrite K.
  set (G := Rsum (seq 0 n) g) in *. rewrite mod2 in H. destruct t as [x y]. cbn [Re Im fst snd] in H. unfold u.
  set (a := sqrt (g i)). set (b := sqrt (g j)).
  apply injective_projections; cbn [fst snd RtoC Cplus Cmult Copp Cconj Ci].
  - transitivity (kronecker i j + 4 * m * a * b * (m * G * (x * x + y * y) - y)); [ring|]. rewrite <- H. ring.
  - ring.
Qed.
Lemma bw_d m G s : s <> m * m \/ m * G <> 0 -> 0 < (m * m - s) * (m * m - s) + (m * G) * (m * G).
Proof.
  intros [H|H].
  - pose proof (Rsqr_pos_lt (m * m - s) ltac:(lra)) as A. pose proof (Rle_0_sqr (m * G)) as B. unfold Rsqr in *. lra.
  - pose proof (Rle_0_sqr (m * m - s)) as A. pose proof (Rsqr_pos_lt (m * G) H) as B. unfold Rsqr in *. lra.
Qed.
Lemma bw_elastic s m G : s <> m * m \/ m * G <> 0 -> elastic m G (bw_simple (RtoC s) (RtoC m) (RtoC G)).
Proof. intros H. apply elastic_core. apply bw_im. apply bw_d. exact H. Qed.
Lemma bw_unitary s m g n : (forall k, (k < n)%nat -> 0 <= g k) -> s <> m * m \/ m * Rsum (seq 0 n) g <> 0 ->
  unitary n (s_matrix m g (bw_simple (RtoC s) (RtoC m) (RtoC (Rsum (seq 0 n) g)))).
Proof. intros P H. apply unitary_core; [exact P|]. apply bw_im. apply bw_d. exact H. Qed.

(** ** The multichannel Breit-Wigner *)
Lemma bsq_0 z : bsq 0 z = 1.
Proof. unfold bsq. cbn [pow]. replace (pa z 0 1) with (pa 1 0 1) by (unfold pa; cbn [seq Rsum pow]; reflexivity). pose proof (pa_pos 1 0 ltac:(lra)). field. lra. Qed.
Lemma bsq_nonneg n z : 0 <= z -> 0 <= bsq n z.
Proof.
  intros H. unfold bsq. apply Rle_mult_inv_pos; [|apply pa_pos; auto]. apply Rmult_le_pos; [apply pow_le; auto|apply Rlt_le, pa_pos; lra].
Qed.
Lemma bsq_pos n z : 0 < z -> 0 < bsq n z.
Proof.
  intros H. unfold bsq. apply Rdiv_lt_0_compat; [|apply pa_pos; lra]. apply Rmult_lt_0_compat; [apply pow_lt; auto|apply pa_pos; lra].
Qed.
(** The square of the form factor *)
Definition ff2 (L : Z) (s a b r : R) : R := if (L <=? 0)%Z then 1 else bsq (Z.to_nat L) (rbreakup s a b * (r * r)).
Lemma ff2_value L s a b r : 0 <= a -> 0 <= b -> 0 < s -> (L <= 0)%Z \/ (a + b) * (a + b) <= s ->
  (form_factor L (RtoC s) (RtoC a) (RtoC b) (RtoC r) * form_factor L (RtoC s) (RtoC a) (RtoC b) (RtoC r) = RtoC (ff2 L s a b r))%C
  /\ 0 <= ff2 L s a b r.
Proof.
  intros Ha Hb Hs O. unfold ff2. destruct (Z.leb_spec L 0) as [HL|HL].
  - assert (E : form_factor L (RtoC s) (RtoC a) (RtoC b) (RtoC r) = RtoC 1).
    { rewrite <- (form_factor_zero (RtoC s) (RtoC a) (RtoC b) (RtoC r)). unfold form_factor. replace (Z.to_nat L) with (Z.to_nat 0) by lia. reflexivity. }
    rewrite E, <- RtoC_mult, Rmult_1_l. split; [reflexivity|lra].
  - destruct O as [O|O]; [lia|]. pose proof (proj1 (rbreakup_sign s a b Ha Hb Hs) O) as Q.
    assert (Z0 : 0 <= rbreakup s a b * (r * r)) by (apply Rmult_le_pos; [lra|]; pose proof (Rle_0_sqr r) as X; unfold Rsqr in X; exact X).
    rewrite form_factor_bsq by exact Z0. rewrite <- RtoC_mult, sqrt_sqrt by (apply bsq_nonneg; exact Z0). split; [reflexivity|apply bsq_nonneg; exact Z0].
Qed.
Lemma channel_real ev h s m c : 0 < s -> 0 < m -> real_channel ev h s m c -> exists g, 0 <= g /\ channel_value ev h c = RtoC g.
Proof.
  intros Hs Hm (w & a & b & r & Es & Em & Ew & Ea & Eb & Er & Hw & Ha & Hb & O). unfold channel_value. rewrite Es, Em, Ew, Ea, Eb, Er.
  destruct (ff2_value (cn_L c) s a b r Ha Hb Hs) as [F P]; [destruct O as [-> |O]; [left; lia|right; exact O]|].
  rewrite F, csqrt_nonneg by lra. unfold Cdiv. rewrite Cinv_RtoC, <- !RtoC_mult. eexists. split; [|reflexivity].
  pose proof (sqrt_lt_R0 s Hs) as S. pose proof (Rinv_0_lt_compat _ S). repeat apply Rmult_le_pos; lra.
Qed.
Lemma channels_real ev h s m cs : 0 < s -> 0 < m -> (forall c, In c cs -> real_channel ev h s m c) ->
  exists g : nat -> R, (forall i c, nth_error cs i = Some c -> channel_value ev h c = RtoC (g i)) /\ (forall i, 0 <= g i) /\
    Csum cs (channel_value ev h) = RtoC (Rsum (seq 0 (length cs)) g).
Proof.
  intros Hs Hm. induction cs as [|c cs IH]; intros H.
  - exists (fun _ => 0). split; [intros [|i] c E; discriminate E|]. split; [intros; lra|reflexivity].
  - destruct (channel_real ev h s m c Hs Hm (H c (or_introl eq_refl))) as (g0 & G0 & E0).
    destruct IH as (g & G1 & G2 & G3); [intros c' I; apply H; right; exact I|].
    exists (fun i => match i with O => g0 | S i => g i end). split; [|split].
    + intros [|i] c' E; cbn in E; [injection E as <-; exact E0|apply G1; exact E].
    + intros [|i]; auto.
    + rewrite Csum_eq_cons, E0, G3, <- RtoC_plus. cbn [length]. rewrite Rsum_head. reflexivity.
Qed.
Theorem multichannel_unitary ev h s m cs xs xm : ceval ev h s = RtoC xs -> ceval ev h m = RtoC xm -> 0 < xs -> 0 < xm ->
  (forall c, In c cs -> real_channel ev h xs xm c) -> xs <> xm * xm \/ (exists c, In c cs /\ channel_value ev h c <> RtoC 0) ->
  exists g : nat -> R, (forall i c, nth_error cs i = Some c -> 0 <= g i /\ channel_value ev h c = RtoC (g i)) /\
    elastic xm (Rsum (seq 0 (length cs)) g) (ceval ev h (multichannel_breit_wigner s m cs)) /\
    unitary (length cs) (s_matrix xm g (ceval ev h (multichannel_breit_wigner s m cs))).
Proof.
  intros Es Em Hs Hm H N. destruct (channels_real ev h xs xm cs Hs Hm H) as (g & G1 & G2 & G3). exists g.
  split; [intros i c E; split; [apply G2|apply G1; exact E]|]. rewrite c38_multichannel, Es, Em, G3.
  assert (N' : xs <> xm * xm \/ xm * Rsum (seq 0 (length cs)) g <> 0).
  { destruct N as [N|(c & I & Nc)]; [left; exact N|]. right. apply In_nth_error in I. destruct I as (i & Ei).
    pose proof (G1 i c Ei) as V. assert (Gi : 0 < g i).
    { destruct (G2 i) as [P|Z]; [exact P|]. exfalso. apply Nc. rewrite V, <- Z. reflexivity. }
    assert (Li : (i < length cs)%nat) by (apply nth_error_Some; congruence).
    assert (P : 0 < Rsum (seq 0 (length cs)) g).
    { assert (S : forall l, In i l -> 0 < Rsum l g).
      { induction l as [|j l IH]; intros X; [destruct X|]. cbn [Rsum]. destruct X as [->|X].
        - pose proof (Rsum_nonneg l g (fun k _ => G2 k)). lra.
        - specialize (IH X). pose proof (G2 j). lra. }
      apply S. apply in_seq. lia. }
    assert (0 < xm * Rsum (seq 0 (length cs)) g) by (apply Rmult_lt_0_compat; auto). lra. }
  split; [apply bw_elastic; exact N'|]. apply bw_unitary; [intros; apply G2|exact N'].
Qed.

(** ** The energy-dependent width *)
Section Width.
  Context (L : Z) (m G a b r : R) (Ha : 0 <= a) (Hb : 0 <= b) (Hab : 0 < a + b) (Hr : 0 < r) (HG : 0 < G) (Hm : a + b < m).
  Let rho (s : R) : R := 2 * sqrt (rbreakup s a b) / sqrt s.
  Definition width_at (s : R) : R := G * (ff2 L s a b r / ff2 L (m * m) a b r) * (rho s / rho (m * m)).
  Let Thr : 0 < (a + b) * (a + b). Proof. apply Rmult_lt_0_compat; auto. Qed.
  Let Mass : (a + b) * (a + b) < m * m. Proof. clear -Ha Hb Hab Hm. nra. Qed.
  Lemma rho_value s : (a + b) * (a + b) <= s -> two_body_phsp (RtoC s) (RtoC a) (RtoC b) = RtoC (rho s).
  Proof.
    intros Hs. pose proof (proj1 (rbreakup_sign s a b Ha Hb ltac:(lra)) Hs) as Q. unfold two_body_phsp, rho.
    rewrite breakup_real, !csqrt_nonneg by lra. unfold Cdiv, Rdiv. rewrite Cinv_RtoC, <- !RtoC_mult. reflexivity.
  Qed.
  Lemma rho_pos s : (a + b) * (a + b) < s -> 0 < rho s.
  Proof.
    intros Hs. pose proof (proj2 (rbreakup_sign s a b Ha Hb ltac:(lra)) Hs) as Q. unfold rho.
    pose proof (sqrt_lt_R0 _ Q). pose proof (sqrt_lt_R0 s ltac:(lra)). apply Rdiv_lt_0_compat; lra.
  Qed.
  Lemma ff2_pos s : (a + b) * (a + b) < s -> 0 < ff2 L s a b r.
  Proof.
    intros Hs. pose proof (proj2 (rbreakup_sign s a b Ha Hb ltac:(lra)) Hs) as Q. unfold ff2. destruct (Z.leb_spec L 0); [lra|].
    apply bsq_pos. apply Rmult_lt_0_compat; [exact Q|]. apply Rmult_lt_0_compat; auto.
  Qed.
  Lemma width_value s : (a + b) * (a + b) <= s ->
    running_width two_body_phsp L (RtoC s) (RtoC m) (RtoC G) (RtoC a) (RtoC b) (RtoC r) = RtoC (width_at s).
  Proof.
    intros Hs. unfold running_width, width_at. rewrite <- RtoC_mult. 
    rewrite (proj1 (ff2_value L s a b r Ha Hb ltac:(lra) (or_intror Hs))), (proj1 (ff2_value L (m * m) a b r Ha Hb ltac:(lra) (or_intror (Rlt_le _ _ Mass)))).
    rewrite (rho_value s Hs), (rho_value (m * m)) by lra. unfold Cdiv, Rdiv. rewrite !Cinv_RtoC, <- !RtoC_mult. reflexivity.
  Qed.
  Lemma width_at_mass : width_at (m * m) = G.
  Proof. unfold width_at. pose proof (rho_pos _ Mass). pose proof (ff2_pos _ Mass). field. split; lra. Qed.
  Lemma width_at_threshold : width_at ((a + b) * (a + b)) = 0.
  Proof.
    unfold width_at. assert (E : rho ((a + b) * (a + b)) = 0).
    { unfold rho. replace (rbreakup ((a + b) * (a + b)) a b) with 0 by (unfold rbreakup, Rdiv; ring). rewrite sqrt_0. unfold Rdiv. ring. }
    rewrite E. unfold Rdiv. ring.
  Qed.
  Lemma rho_sq s : (a + b) * (a + b) <= s -> rho s = sqrt ((1 - (a + b) * (a + b) / s) * (1 - (a - b) * (a - b) / s)).
  Proof.
    intros Hs. pose proof (proj1 (rbreakup_sign s a b Ha Hb ltac:(lra)) Hs) as Q. unfold rho.
    pose proof (sqrt_lt_R0 s ltac:(lra)) as S. symmetry. apply sqrt_lem_1.
    - assert (X : (a - b) * (a - b) <= (a + b) * (a + b)) by (clear -Ha Hb; nra).
      apply Rmult_le_pos; apply Rmult_le_reg_r with s; try lra; unfold Rdiv; rewrite Rmult_0_l, Rmult_minus_distr_r, Rmult_assoc, Rinv_l by lra; lra.
    - apply Rmult_le_pos; [|left; apply Rinv_0_lt_compat; exact S]. pose proof (sqrt_pos (rbreakup s a b)). lra.
    - replace (2 * sqrt (rbreakup s a b) / sqrt s * (2 * sqrt (rbreakup s a b) / sqrt s))
        with (4 * (sqrt (rbreakup s a b) * sqrt (rbreakup s a b)) / (sqrt s * sqrt s)) by (field; lra).
      rewrite !sqrt_sqrt by lra. unfold rbreakup. field. lra.
  Qed.
  Lemma rho_mono s t : (a + b) * (a + b) <= s -> s < t -> rho s < rho t.
  Proof.
    intros Hs Ht. rewrite (rho_sq s Hs), (rho_sq t) by lra.
    set (A := (a + b) * (a + b)) in *. set (B := (a - b) * (a - b)).
    assert (BA : B <= A) by (unfold A, B; clear -Ha Hb; nra). assert (B0 : 0 <= B) by apply Rle_0_sqr.
    assert (I : / t < / s) by (apply Rinv_lt_contravar; [apply Rmult_lt_0_compat; lra|lra]).
    assert (It : 0 < / t) by (apply Rinv_0_lt_compat; lra).
    assert (As : A * / s <= 1) by (apply Rmult_le_reg_r with s; [lra|]; rewrite Rmult_assoc, Rinv_l by lra; lra).
    assert (At : A * / t < A * / s) by (apply Rmult_lt_compat_l; lra).
    assert (Bt : B * / t <= B * / s) by (apply Rmult_le_compat_l; lra).
    assert (Bs : B * / s <= A * / s) by (apply Rmult_le_compat_r; lra).
    unfold Rdiv. apply sqrt_lt_1.
    - apply Rmult_le_pos; lra.
    - apply Rmult_le_pos; lra.
    - apply Rle_lt_trans with ((1 - A * / s) * (1 - B * / t)); [apply Rmult_le_compat_l; lra|apply Rmult_lt_compat_r].
      + assert (B * / t <= A * / t) by (apply Rmult_le_compat_r; lra). lra.
      + lra.
  Qed.
  Lemma width_mono s t : (a + b) * (a + b) <= s -> s < t -> 0 <= width_at s < width_at t.
  Proof.
    intros Hs Ht. unfold width_at. pose proof (rho_pos _ Mass) as Rm. pose proof (ff2_pos _ Mass) as Fm.
    pose proof (rho_mono s t Hs Ht) as Rst. pose proof (rho_pos t ltac:(lra)) as Rt. pose proof (ff2_pos t ltac:(lra)) as Ft.
    assert (R0 : 0 <= rho s).
    { destruct Hs as [Hs|Hs]; [left; apply rho_pos; exact Hs|]. rewrite <- Hs. unfold rho.
      apply Rmult_le_pos; [pose proof (sqrt_pos (rbreakup ((a + b) * (a + b)) a b)); lra|]. left. apply Rinv_0_lt_compat. apply sqrt_lt_R0. exact Thr. }
    destruct (ff2_value L s a b r Ha Hb ltac:(lra) (or_intror Hs)) as [_ F0].
    assert (Fst : ff2 L s a b r <= ff2 L t a b r).
    { unfold ff2. destruct (Z.leb_spec L 0) as [_|HL]; [lra|].
      pose proof (proj1 (rbreakup_sign s a b Ha Hb ltac:(lra)) Hs) as Q. pose proof (rbreakup_mono a b s t Ha Hb ltac:(lra) Hs Ht) as M.
      assert (R2 : 0 < r * r) by (apply Rmult_lt_0_compat; auto).
      left. apply bsq_mono; [apply Rmult_le_pos; lra|apply Rmult_lt_compat_r; lra|lia]. }
    pose proof (Rinv_0_lt_compat _ Rm) as Im. pose proof (Rinv_0_lt_compat _ Fm) as Jm. unfold Rdiv.
    assert (X : 0 <= ff2 L s a b r * / ff2 L (m * m) a b r <= ff2 L t a b r * / ff2 L (m * m) a b r).
    { split; [apply Rmult_le_pos; lra|apply Rmult_le_compat_r; lra]. }
    assert (X' : 0 < ff2 L t a b r * / ff2 L (m * m) a b r) by (apply Rmult_lt_0_compat; lra).
    assert (Y : 0 <= rho s * / rho (m * m) < rho t * / rho (m * m)).
    { split; [apply Rmult_le_pos; lra|apply Rmult_lt_compat_r; lra]. }
    revert X X' Y. generalize (ff2 L s a b r * / ff2 L (m * m) a b r) as x1, (ff2 L t a b r * / ff2 L (m * m) a b r) as x2,
      (rho s * / rho (m * m)) as y1, (rho t * / rho (m * m)) as y2. intros x1 x2 y1 y2 X X' Y. clear -HG X X' Y.
    rewrite !Rmult_assoc. split; [apply Rmult_le_pos; [lra|apply Rmult_le_pos; lra]|]. apply Rmult_lt_compat_l; [exact HG|].
    apply Rle_lt_trans with (x2 * y1); [apply Rmult_le_compat_r; lra|apply Rmult_lt_compat_l; lra].
  Qed.
End Width.

(** The width of a Breit-Wigner function as an expression *)
Lemma eval_bw_width ev h s m G m1 m2 L d xs xm xG a b r :
  ceval ev h s = RtoC xs -> ceval ev h m = RtoC xm -> ceval ev h G = RtoC xG -> ceval ev h m1 = RtoC a -> ceval ev h m2 = RtoC b ->
  ceval ev h d = RtoC r -> 0 < a + b ->
  ceval ev h (breit_wigner_width s m G m1 m2 L d phase_space_factor) =
  running_width two_body_phsp L (RtoC xs) (RtoC xm) (RtoC xG) (RtoC a) (RtoC b) (RtoC r).
Proof.
  intros Es Em EG Ea Eb Er Hab. unfold breit_wigner_width.
  assert (Z : forall e x, is_zero e = true -> ceval ev h e = RtoC x -> x = 0).
  { intros e x. unfold is_zero. destruct e; try discriminate. destruct (eq_dec q (Spin.Qc_of_Z 0)) as [->|]; [|discriminate].
    intros _ E. change (ceval ev h (CRat (Spin.Qc_of_Z 0))) with (ceval ev h (CNum 0)) in E. rewrite CNum_value in E. injection E as <-. reflexivity. }
  destruct ((L =? 0)%Z && is_zero m1 && is_zero m2) eqn:B.
  - apply andb_prop in B. destruct B as [B B2]. apply andb_prop in B. destruct B as [_ B1]. rewrite (Z m1 a B1 Ea), (Z m2 b B2 Eb) in Hab. lra.
  - rewrite (eval_width _ _ _ _ _ _ _ _ _ _ _ phase_space_factor_value), Es, Em, EG, Ea, Eb, Er. reflexivity.
Qed.
Theorem breit_wigner_widths (ev : R -> env) h s m G m1 m2 L d xm xG a b :
  (forall x, ceval (ev x) h s = RtoC x) -> (forall x, ceval (ev x) h d = ceval (ev 0) h d) ->
  (forall x, real_resonance (ev x) h m G m1 m2 d xm xG a b) ->
  exists W : R -> R,
    (forall x, (a + b) * (a + b) <= x -> ceval (ev x) h (breit_wigner_width s m G m1 m2 L d phase_space_factor) = RtoC (W x)) /\
    W (xm * xm) = xG /\ W ((a + b) * (a + b)) = 0 /\
    (forall x y, (a + b) * (a + b) <= x -> x < y -> 0 <= W x < W y).
Proof.
  intros Es Ed H. destruct (H 0) as (r & _ & _ & _ & _ & Er & Hr & HG & Ha & Hb & Hab & Hm).
  exists (width_at L xm xG a b r). split; [|split; [|split]].
  - intros x Hx. destruct (H x) as (r' & Em & EG & Ea & Eb & Er' & _).
    rewrite (eval_bw_width (ev x) h s m G m1 m2 L d x xm xG a b r'); auto. rewrite Ed, Er in Er'. injection Er' as <-. apply width_value; auto.
  - apply width_at_mass; auto.
  - apply width_at_threshold; auto.
  - intros x y Hx Hy. apply width_mono; auto.
Qed.
Theorem breit_wigner_elastic ev h s m G m1 m2 L d xs xm xG a b :
  ceval ev h s = RtoC xs -> real_resonance ev h m G m1 m2 d xm xG a b -> (a + b) * (a + b) < xs ->
  exists w, 0 < w /\ ceval ev h (breit_wigner_width s m G m1 m2 L d phase_space_factor) = RtoC w /\
    elastic xm w (ceval ev h (breit_wigner s m G m1 m2 L d phase_space_factor)) /\
    ceval ev h (relativistic_breit_wigner s m G m1 m2 L d phase_space_factor) =
    (RtoC (xm * xG) * ceval ev h (breit_wigner s m G m1 m2 L d phase_space_factor))%C.
Proof.
  intros Es (r & Em & EG & Ea & Eb & Er & Hr & HG & Ha & Hb & Hab & Hm) Hs.
  pose proof (eval_bw_width ev h s m G m1 m2 L d xs xm xG a b r Es Em EG Ea Eb Er Hab) as V.
  exists (width_at L xm xG a b r xs).
  assert (P : 0 < width_at L xm xG a b r xs).
  { destruct (width_mono L xm xG a b r Ha Hb Hab Hr HG Hm _ xs (Rle_refl _) Hs) as [A B]. lra. }
  split; [exact P|]. rewrite (width_value L xm xG a b r) in V by (auto; lra). split; [exact V|].
  unfold breit_wigner. rewrite eval_simple, V, Es, Em. split.
  - apply bw_elastic. right. assert (0 < xm * width_at L xm xG a b r xs) by (apply Rmult_lt_0_compat; lra). lra.
  - rewrite (eval_relativistic _ _ _ _ _ _ _ _ _ _ _ phase_space_factor_value), Es, Em, EG, Ea, Eb, Er, (width_value L xm xG a b r) by (auto; lra).
    rewrite RtoC_mult. reflexivity.
Qed.

(** ** The lineshape of Flatté *)
Lemma momentum_value s a b : 0 <= a -> 0 <= b -> 0 < s -> (a + b) * (a + b) <= s ->
  csqrt (breakup_squared (RtoC s) (RtoC a) (RtoC b)) = RtoC (decay_momentum s a b) /\ 0 <= decay_momentum s a b.
Proof.
  intros Ha Hb Hs H. pose proof (proj1 (rbreakup_sign s a b Ha Hb Hs) H) as Q. rewrite breakup_real, csqrt_nonneg by exact Q.
  split; [reflexivity|apply sqrt_pos].
Qed.
Lemma momentum_pos s a b : 0 <= a -> 0 <= b -> (a + b) * (a + b) < s -> 0 < decay_momentum s a b.
Proof. intros Ha Hb H. apply sqrt_lt_R0. apply rbreakup_sign; auto. nra. Qed.
Lemma flatte_value ev h s m w1 w2 a1 b1 a2 b2 xs xm y1 y2 xa1 xb1 xa2 xb2 :
  ceval ev h s = RtoC xs -> flatte_real ev h m w1 w2 a1 b1 a2 b2 xm y1 y2 xa1 xb1 xa2 xb2 -> 0 < xs ->
  (xa1 + xb1) * (xa1 + xb1) <= xs -> (xa2 + xb2) * (xa2 + xb2) <= xs ->
  (forall i, 0 <= flatte_widths xs xm y1 y2 xa1 xb1 xa2 xb2 i) /\
  ceval ev h (flatte_s_wave s m w1 w2 a1 b1 a2 b2) =
    bw_simple (RtoC xs) (RtoC xm) (RtoC (Rsum (seq 0 2) (flatte_widths xs xm y1 y2 xa1 xb1 xa2 xb2))).
Proof.
  intros Es (Em & E1 & E2 & Ea1 & Eb1 & Ea2 & Eb2 & Y1 & Y2 & A1 & B1 & A2 & B2 & Hm) Hs T1 T2.
  assert (Mm : (xa2 + xb2) * (xa2 + xb2) < xm * xm) by (clear -A2 B2 Hm; nra).
  assert (M0 : 0 < xm * xm) by (pose proof (Rle_0_sqr (xa2 + xb2)) as X; unfold Rsqr in X; lra).
  destruct (momentum_value xs xa1 xb1 A1 B1 Hs T1) as [Q1 P1]. destruct (momentum_value xs xa2 xb2 A2 B2 Hs T2) as [Q2 P2].
  destruct (momentum_value (xm * xm) xa2 xb2 A2 B2 M0 ltac:(lra)) as [Q0 _]. pose proof (momentum_pos (xm * xm) xa2 xb2 A2 B2 Mm) as P0.
  pose proof (sqrt_lt_R0 xs Hs) as S0. split.
  - pose proof (Rinv_0_lt_compat _ P0). pose proof (Rinv_0_lt_compat _ S0).
    intros [|i]; unfold flatte_widths, Rdiv; repeat apply Rmult_le_pos; try lra.
  - rewrite (proj1 (c38_flatte ev h s m w1 w2 a1 b1 a2 b2)), Es, Em, E1, E2, Ea1, Eb1, Ea2, Eb2, <- RtoC_mult, Q1, Q2, Q0, csqrt_nonneg by lra.
    f_equal. cbn [seq Rsum flatte_widths]. unfold Cdiv, Rdiv. rewrite !Cinv_RtoC, <- !RtoC_mult, <- RtoC_plus, <- RtoC_mult. f_equal. ring.
Qed.
Theorem flatte_unitary ev h s m w1 w2 a1 b1 a2 b2 xs xm y1 y2 xa1 xb1 xa2 xb2 :
  ceval ev h s = RtoC xs -> flatte_real ev h m w1 w2 a1 b1 a2 b2 xm y1 y2 xa1 xb1 xa2 xb2 -> 0 < xs -> xs <> xm * xm ->
  (xa1 + xb1) * (xa1 + xb1) <= xs -> (xa2 + xb2) * (xa2 + xb2) <= xs ->
  unitary 2 (s_matrix xm (flatte_widths xs xm y1 y2 xa1 xb1 xa2 xb2) (ceval ev h (flatte_s_wave s m w1 w2 a1 b1 a2 b2))).
Proof.
  intros Es H Hs N T1 T2. destruct (flatte_value ev h s m w1 w2 a1 b1 a2 b2 xs xm y1 y2 xa1 xb1 xa2 xb2 Es H Hs T1 T2) as [P ->].
  apply bw_unitary; auto.
Qed.

(** ** The lineshape of Bugg *)
Lemma cexp_real x : cexp (RtoC x) = RtoC (exp x).
Proof. unfold cexp, RtoC. cbn. rewrite sin_0, cos_0. f_equal; ring. Qed.
Theorem bugg_elastic ev h s m G m1 m2 g (xs xm xG a b c : R) :
  ceval ev h s = RtoC xs -> ceval ev h m = RtoC xm -> ceval ev h G = RtoC xG -> ceval ev h m1 = RtoC a -> ceval ev h m2 = RtoC b ->
  ceval ev h g = RtoC c -> 0 < xm -> xs <> xm * xm ->
  elastic xm ((xs - (a * a - b * b / 2)) / (xm * xm - (a * a - b * b / 2)) * (xG * exp (- c * xs)))
    (ceval ev h (bugg_breit_wigner s m G m1 m2 g)).
Proof.
  intros Es Em EG Ea Eb Eg Hm N. rewrite (proj1 (c38_bugg ev h s m G m1 m2 g)), Es, Em, EG, Ea, Eb, Eg.
  replace (cexp (- RtoC c * RtoC xs)%C) with (RtoC (exp (- c * xs))) by (rewrite <- RtoC_opp, <- RtoC_mult, cexp_real; reflexivity). set (sA := a * a - b * b / 2).
  replace (RtoC a * RtoC a - RtoC b * RtoC b / RtoC 2)%C with (RtoC sA).
  2:{ unfold sA, Cdiv, Rdiv. rewrite Cinv_RtoC, <- !RtoC_mult, <- RtoC_minus. reflexivity. }
  set (w := (xs - sA) / (xm * xm - sA) * (xG * exp (- c * xs))).
  replace (RtoC 1 / _)%C with (bw_simple (RtoC xs) (RtoC xm) (RtoC w)).
  - apply bw_elastic. left. exact N.
  - unfold bw_simple, w, Rdiv, Cdiv. f_equal. f_equal. rewrite <- !RtoC_mult, <- !RtoC_minus, Cinv_RtoC, <- !RtoC_mult.
    apply injective_projections; cbn [fst snd RtoC Cplus Cminus Cmult Copp Ci]; ring.
Qed.

(** ** The peak of a Breit-Wigner function *)
Lemma half_maximum ev h s m G xs xm xG : ceval ev h s = RtoC xs -> ceval ev h m = RtoC xm -> ceval ev h G = RtoC xG -> 0 < xm -> 0 < xG ->
  (Cmod (ceval ev h (simple_breit_wigner s m G)) ^ 2 = / 2 * (/ (xm * xG)) ^ 2 <-> xs = xm * xm - xm * xG \/ xs = xm * xm + xm * xG).
Proof.
  intros Es Em EG Hm HG. rewrite eval_simple, Es, Em, EG. destruct (bw_d_pos xs xm xG Hm HG) as [P D]. rewrite bw_mod by exact D.
  assert (X : / 2 * (/ (xm * xG)) ^ 2 = / (2 * ((xm * xG) * (xm * xG)))) by (field; split; lra). rewrite X. split.
  - intros E. apply (f_equal Rinv) in E. rewrite !Rinv_inv in E.
    assert (Z : (xs - (xm * xm - xm * xG)) * (xs - (xm * xm + xm * xG)) = 0) by lra. apply Rmult_integral in Z. lra.
  - intros [-> | ->]; f_equal; ring.
Qed.
Lemma bw_area m G a b : 0 < m -> 0 < G ->
  is_RInt (fun s => m * G / PI * Cmod (bw_simple (RtoC s) (RtoC m) (RtoC G)) ^ 2) a b
    (/ PI * (atan ((b - m * m) / (m * G)) - atan ((a - m * m) / (m * G)))).
Proof.
  intros Hm HG. assert (P : 0 < m * G) by (apply Rmult_lt_0_compat; auto). pose proof PI_RGT_0 as Pi0.
  set (F := fun s => / PI * atan ((s - m * m) / (m * G))).
  assert (D : forall s, 0 < (m * m - s) * (m * m - s) + (m * G) * (m * G)) by (intros s; apply bw_d; right; lra).
  match goal with |- is_RInt _ _ _ ?v => replace v with (minus (F b) (F a)) by (unfold F, minus, plus, opp; cbn; ring) end.
  apply (is_RInt_ext (fun s => m * G / PI * / ((m * m - s) * (m * m - s) + (m * G) * (m * G)))).
  { intros s _. rewrite bw_mod by apply D. reflexivity. }
  apply (is_RInt_derive F).
  - intros x _. unfold F. auto_derive; [repeat split; auto; lra|]. specialize (D x). field. repeat split; try lra.
  - intros x _. apply (ex_derive_continuous (V := R_NormedModule)). auto_derive. specialize (D x). lra.
Qed.
Lemma atan_big e : 0 < e -> exists M, 0 < M /\ forall x, M < x -> PI / 2 - e < atan x < PI / 2.
Proof.
  intros He. pose proof PI_RGT_0 as P. set (d := Rmin e (PI / 4)).
  assert (D : 0 < d <= PI / 4) by (unfold d; split; [apply Rmin_glb_lt; lra|apply Rmin_r]).
  exists (tan (PI / 2 - d)). split; [apply tan_gt_0; lra|]. intros x Hx. split; [|apply atan_bound].
  apply Rle_lt_trans with (PI / 2 - d); [pose proof (Rmin_l e (PI / 4)); fold d in H; lra|].
  rewrite <- (atan_tan (PI / 2 - d)) by lra. apply atan_increasing. exact Hx.
Qed.
Theorem bw_normalised (ev : R -> env) h s m G xm xG : (forall x, ceval (ev x) h s = RtoC x) -> (forall x, ceval (ev x) h m = RtoC xm) ->
  (forall x, ceval (ev x) h G = RtoC xG) -> 0 < xm -> 0 < xG ->
  forall e, 0 < e -> exists M, forall a b, a < - M -> M < b -> exists v,
    is_RInt (fun x => xm * xG / PI * Cmod (ceval (ev x) h (simple_breit_wigner s m G)) ^ 2) a b v /\ 1 - e < v < 1.
Proof.
  intros Es Em EG Hm HG e He. pose proof PI_RGT_0 as Pi0. assert (P : 0 < xm * xG) by (apply Rmult_lt_0_compat; auto).
  destruct (atan_big (PI * e / 2)) as (M & M0 & HM). { apply Rmult_lt_0_compat; [apply Rmult_lt_0_compat; lra|lra]. }
  exists (M * (xm * xG) + xm * xm). intros a b Ha Hb.
  exists (/ PI * (atan ((b - xm * xm) / (xm * xG)) - atan ((a - xm * xm) / (xm * xG)))). split.
  - apply (is_RInt_ext (fun x => xm * xG / PI * Cmod (bw_simple (RtoC x) (RtoC xm) (RtoC xG)) ^ 2)); [|apply bw_area; auto].
    intros x _. rewrite eval_simple, Es, Em, EG. reflexivity.
  - assert (Xb : M < (b - xm * xm) / (xm * xG)).
    { apply Rmult_lt_reg_r with (xm * xG); auto. unfold Rdiv. rewrite Rmult_assoc, Rinv_l by lra. lra. }
    assert (Xa : M < - ((a - xm * xm) / (xm * xG))).
    { apply Rmult_lt_reg_r with (xm * xG); auto. unfold Rdiv. rewrite Ropp_mult_distr_l_reverse, Rmult_assoc, Rinv_l by lra.
      pose proof (Rle_0_sqr xm) as Q. unfold Rsqr in Q. lra. }
    pose proof (HM _ Xb) as [B1 B2]. pose proof (HM _ Xa) as [A1 A2]. rewrite atan_opp in A1, A2.
    set (u := atan ((b - xm * xm) / (xm * xG))) in *. set (v := atan ((a - xm * xm) / (xm * xG))) in *.
    split; apply Rmult_lt_reg_l with PI; auto; rewrite <- Rmult_assoc, Rinv_r by lra; lra.
Qed.
