(** Orthonormality and completeness of the Clebsch-Gordan coefficients for doubled spins, and the
    symmetry between the coupled and the first spin. *)
From Coq Require Import ZArith List Bool Reals Arith Lra Lia Permutation.
From Verif Require Import Prelude Spin Sums Wigner CG WignerFacts CGFacts CGOrth.
Import ListNotations.
Local Open Scope R_scope.

(** ** A square real matrix with orthonormal rows has orthonormal columns *)
Lemma Rsum_nonneg_zero {A} (l : list A) f : (forall x, In x l -> 0 <= f x) -> Rsum l f = 0 -> forall x, In x l -> f x = 0.
Proof.
  induction l as [|y l IH]; simpl; intros P S x [].
  - subst y. pose proof (P x (or_introl eq_refl)). assert (0 <= Rsum l f) by (apply Rsum_nonneg; auto). lra.
  - apply IH; auto. pose proof (P y (or_introl eq_refl)). assert (0 <= Rsum l f) by (apply Rsum_nonneg; auto). lra.
Qed.
Lemma Rsum_const {A} (l : list A) c : Rsum l (fun _ => c) = INR (length l) * c.
Proof. induction l; cbn [Rsum length]; [simpl; ring|]. rewrite IHl, S_INR. ring. Qed.
Section Square.
  Context {A B : Type} (eqa : forall x y : A, {x = y} + {x <> y}) (eqb : forall x y : B, {x = y} + {x <> y}).
  Definition dlt {T} (eq : forall x y : T, {x = y} + {x <> y}) (x y : T) : R := if eq x y then 1 else 0.
  Variables (la : list A) (lb : list B) (U : A -> B -> R).
  Hypothesis Na : NoDup la.
  Hypothesis Nb : NoDup lb.
  Hypothesis Len : length la = length lb.
  Hypothesis Orth : forall a a', In a la -> In a' la -> Rsum lb (fun b => U a b * U a' b) = dlt eqa a a'.
  Lemma sum_dlt_l {T} (eq : forall x y : T, {x = y} + {x <> y}) l x f : NoDup l -> In x l ->
    Rsum l (fun y => dlt eq x y * f y) = f x.
  Proof.
    intros N I. rewrite (Rsum_single l x); auto.
    - unfold dlt. destruct (eq x x); [ring|contradiction].
    - intros y _ H. unfold dlt. destruct (eq x y); [congruence|ring].
  Qed.
  Definition resid (b b' : B) : R := dlt eqb b b' - Rsum la (fun a => U a b * U a b').
  Lemma resid_sq b : In b lb ->
    Rsum lb (fun b' => resid b b' * resid b b') = 1 - Rsum la (fun a => U a b * U a b).
  Proof.
    intros Ib.
    set (s := Rsum la (fun a => U a b * U a b)).
    assert (P : Rsum lb (fun b' => Rsum la (fun a => U a b * U a b') * Rsum la (fun a => U a b * U a b')) = s).
    { transitivity (Rsum lb (fun b' => Rsum la (fun a => Rsum la (fun a' => (U a b * U a' b) * (U a b' * U a' b'))))).
      { apply Rsum_ext. intros b' _. rewrite <- Rsum_scal_r. apply Rsum_ext. intros a _.
        rewrite <- Rsum_scal_l. apply Rsum_ext. intros a' _. ring. }
      rewrite Rsum_swap. unfold s. apply Rsum_ext. intros a Ia. rewrite Rsum_swap.
      transitivity (Rsum la (fun a' => dlt eqa a a' * (U a b * U a' b))).
      { apply Rsum_ext. intros a' Ia'. rewrite Rsum_scal_l, Orth by auto. ring. }
      rewrite sum_dlt_l by auto. ring. }
    transitivity (Rsum lb (fun b' => (dlt eqb b b' * dlt eqb b b' + (dlt eqb b b' * (-2 * Rsum la (fun a => U a b * U a b'))))
      + Rsum la (fun a => U a b * U a b') * Rsum la (fun a => U a b * U a b'))).
    { apply Rsum_ext. intros b' _. unfold resid. ring. }
    rewrite !Rsum_plus, P, !sum_dlt_l by auto. unfold dlt. destruct (eqb b b); [|contradiction]. unfold s. ring.
  Qed.
  Lemma square_columns b b' : In b lb -> In b' lb -> Rsum la (fun a => U a b * U a b') = dlt eqb b b'.
  Proof.
    assert (P : forall b, In b lb -> 0 <= 1 - Rsum la (fun a => U a b * U a b)).
    { intros c Hc. rewrite <- resid_sq by auto. apply Rsum_nonneg. intros x _. apply Rle_0_sqr. }
    assert (T : Rsum lb (fun b => 1 - Rsum la (fun a => U a b * U a b)) = 0).
    { transitivity (Rsum lb (fun _ => 1) + -1 * Rsum lb (fun b => Rsum la (fun a => U a b * U a b))).
      { rewrite <- Rsum_scal_l, <- Rsum_plus. apply Rsum_ext. intros; ring. }
      rewrite Rsum_swap. rewrite (Rsum_ext la _ (fun _ => 1)).
      - rewrite !Rsum_const, Len. ring.
      - intros a Ia. rewrite Orth by auto. unfold dlt. destruct (eqa a a); [reflexivity|contradiction]. }
    intros Ib Ib'. pose proof (Rsum_nonneg_zero _ _ P T b Ib) as Z0.
    cbv beta in Z0. rewrite <- resid_sq in Z0 by auto.
    pose proof (Rsum_nonneg_zero _ _ (fun x _ => Rle_0_sqr (resid b x)) Z0 b' Ib') as R0. cbv beta in R0.
    apply Rmult_integral in R0. assert (E : resid b b' = 0) by tauto. unfold resid in E. lra.
  Qed.
End Square.

(** ** Doubled spins *)
Lemma proj_half j m : is_projection j m = true -> exists x, (m = j - 2 * x /\ 0 <= x <= j)%Z.
Proof.
  rewrite is_projection_spec. intros [H E]. apply even_half in E. destruct E as [q Hq]. exists q. lia.
Qed.
Lemma triangle_spec j1 j2 J : triangle j1 j2 J = true <->
  (Z.abs (j1 - j2) <= J <= j1 + j2)%Z /\ Z.even (j1 + j2 - J) = true.
Proof. unfold triangle. rewrite !andb_true_iff, !Z.leb_le. tauto. Qed.
Lemma couples_okn j1 j2 J M : triangle j1 j2 J = true -> is_projection J M = true ->
  exists n : nat, exists dl, (J = j1 + j2 - 2 * Z.of_nat n /\ M = j1 - j2 + 2 * dl)%Z /\ okn j1 j2 dl (Z.of_nat n).
Proof.
  rewrite triangle_spec, is_projection_spec. intros [T E] [P F]. apply even_half in E, F.
  destruct E as [n En], F as [q Fq].
  exists (Z.to_nat n), (j2 - n - q)%Z. unfold okn. rewrite Z2Nat.id by lia. lia.
Qed.
Lemma sum_over_x j1 f : (0 <= j1)%Z ->
  Rsum (spin_range2 j1) f = S0 (Z.to_nat j1) (fun x => f (j1 - 2 * x)%Z).
Proof.
  intros H. rewrite Rsum_range2 by exact H. unfold S0. rewrite Rsum_rev_seq.
  apply Rsum_ext. intros k Hk. apply seq_in in Hk. f_equal. lia.
Qed.
Lemma cg_orthonormal j1 j2 J J' M : (0 <= j1)%Z -> (0 <= j2)%Z ->
  triangle j1 j2 J = true -> triangle j1 j2 J' = true ->
  is_projection J M = true -> is_projection J' M = true ->
  Rsum (spin_range2 j1) (fun m1 => cg j1 m1 j2 (M - m1) J M * cg j1 m1 j2 (M - m1) J' M)
  = if (J =? J')%Z then 1 else 0.
Proof.
  intros H1 H2 T T' P P'.
  destruct (couples_okn _ _ _ _ T P) as (n & dl & (-> & ->) & O).
  destruct (couples_okn _ _ _ _ T' P') as (n' & dl' & (-> & Ed) & O').
  assert (dl' = dl) by lia. subst dl'. clear Ed.
  rewrite sum_over_x by auto.
  transitivity (S0 (Z.to_nat j1) (fun x => cgx j1 j2 dl (Z.of_nat n) x * cgx j1 j2 dl (Z.of_nat n') x)).
  - apply S0_ext. intros x _. unfold cgx.
    replace (j1 - j2 + 2 * dl - (j1 - 2 * x))%Z with (2 * (x + dl) - j2)%Z by lia. reflexivity.
  - rewrite cgx_orth by auto.
    destruct (Nat.eqb_spec n n'), (Z.eqb_spec (j1 + j2 - 2 * Z.of_nat n) (j1 + j2 - 2 * Z.of_nat n')); try reflexivity; lia.
Qed.

(** The spins that two spins couple to: |j1-j2|, ..., j1+j2 *)
Definition coupled (j1 j2 : Z) : list Z :=
  map (fun n => (Z.abs (j1 - j2) + 2 * Z.of_nat n)%Z) (seq 0 (Z.to_nat (Z.min j1 j2 + 1))).
Lemma coupled_In j1 j2 J : In J (coupled j1 j2) <-> triangle j1 j2 J = true.
Proof.
  unfold coupled. rewrite in_map_iff, triangle_spec. split.
  - intros (n & <- & H). apply in_seq in H. split; [lia|].
    destruct (Z.abs_spec (j1 - j2)) as [[_ ->]|[_ ->]].
    + apply (even_diff _ (j2 - Z.of_nat n)). lia.
    + apply (even_diff _ (j1 - Z.of_nat n)). lia.
  - intros [H E]. apply even_half in E. destruct E as [q Hq].
    exists (Z.to_nat (Z.min j1 j2 - q)). rewrite in_seq. lia.
Qed.
Lemma coupled_NoDup j1 j2 : NoDup (coupled j1 j2).
Proof.
  unfold coupled. apply FinFun.Injective_map_NoDup; [|apply seq_NoDup]. intros x y. lia.
Qed.
Lemma spin_range2_NoDup j : NoDup (spin_range2 j).
Proof. unfold spin_range2. apply FinFun.Injective_map_NoDup; [|apply seq_NoDup]. intros x y. lia. Qed.

Lemma filter_none {A} (p : A -> bool) l : (forall x, In x l -> p x = false) -> filter p l = [].
Proof. induction l; simpl; intros H; auto. rewrite (H a) by auto. auto. Qed.
(** as many coupled spins as pairs of projections, for each total projection *)
Lemma square_count j1 j2 M : (0 <= j1)%Z -> (0 <= j2)%Z -> 
  length (filter (fun J => is_projection J M) (coupled j1 j2))
  = length (filter (fun m1 => is_projection j2 (M - m1)) (spin_range2 j1)).
Proof.
  intros H1 H2. set (nmax := Z.min (Z.min j1 j2) (Z.min ((j1 + j2 + M) / 2) ((j1 + j2 - M) / 2))).
  destruct (Z.even (j1 + j2 - M)) eqn:E.
  - apply even_half in E. destruct E as [q Hq].
    assert (Hn : nmax = Z.min (Z.min j1 j2) (Z.min (j1 + j2 - q) q)).
    { unfold nmax. rewrite Hq, half_2. replace (j1 + j2 + M)%Z with (2 * (j1 + j2 - q))%Z by lia. rewrite half_2. reflexivity. }
    transitivity (Z.to_nat (nmax + 1)).
    + rewrite <- (seq_length (Z.to_nat (nmax + 1)) 0), <- (map_length (fun n => (j1 + j2 - 2 * Z.of_nat n)%Z)).
      apply Permutation_length, NoDup_Permutation.
      * apply NoDup_filter, coupled_NoDup.
      * apply FinFun.Injective_map_NoDup; [|apply seq_NoDup]. intros x y. lia.
      * intros J. rewrite filter_In, coupled_In, triangle_spec, is_projection_spec, in_map_iff. split.
        -- intros [[T F] [P G]]. apply even_half in F. destruct F as [u Hu].
           exists (Z.to_nat u). rewrite in_seq. lia.
        -- intros (n & <- & H). apply in_seq in H. repeat split; try lia.
           ++ apply (even_diff _ (Z.of_nat n)). lia.
           ++ apply (even_diff _ (q - Z.of_nat n)). lia.
    + symmetry. rewrite <- (seq_length (Z.to_nat (nmax + 1)) 0),
        <- (map_length (fun n => (j1 - 2 * (Z.max 0 (q - j2) + Z.of_nat n))%Z)).
      apply Permutation_length, NoDup_Permutation.
      * apply NoDup_filter, spin_range2_NoDup.
      * apply FinFun.Injective_map_NoDup; [|apply seq_NoDup]. intros x y. lia.
      * intros m. rewrite filter_In, <- is_projection_In, !is_projection_spec, in_map_iff. split.
        -- intros [[T F] [P G]]. apply even_half in F. destruct F as [u Hu].
           exists (Z.to_nat (u - Z.max 0 (q - j2))). rewrite in_seq. lia.
        -- intros (n & <- & H). apply in_seq in H. repeat split; try lia.
           ++ apply (even_diff _ (Z.max 0 (q - j2) + Z.of_nat n)). lia.
           ++ apply (even_diff _ (q - (Z.max 0 (q - j2) + Z.of_nat n) + j2 - j2)). lia.
  - rewrite (filter_none (fun J => is_projection J M)), filter_none; [reflexivity| |].
    + intros m Hm. apply is_projection_In, is_projection_spec in Hm.
      destruct (is_projection j2 (M - m)) eqn:F; [|reflexivity]. apply is_projection_spec in F.
      destruct Hm as [_ Hm], F as [_ F]. apply even_half in Hm, F. destruct Hm as [u Hu], F as [v Hv].
      rewrite (even_diff _ (u + v)) in E; [discriminate E|lia].
    + intros J HJ. apply coupled_In, triangle_spec in HJ.
      destruct (is_projection J M) eqn:F; [|reflexivity]. apply is_projection_spec in F.
      destruct HJ as [_ Hm], F as [_ F]. apply even_half in Hm, F. destruct Hm as [u Hu], F as [v Hv].
      rewrite (even_diff _ (u + v)) in E; [discriminate E|lia].
Qed.

(** Completeness *)
Lemma cg_complete j1 j2 m1 m1' M : (0 <= j1)%Z -> (0 <= j2)%Z ->
  is_projection j1 m1 = true -> is_projection j1 m1' = true ->
  is_projection j2 (M - m1) = true -> is_projection j2 (M - m1') = true ->
  Rsum (coupled j1 j2) (fun J => cg j1 m1 j2 (M - m1) J M * cg j1 m1' j2 (M - m1') J M)
  = if (m1 =? m1')%Z then 1 else 0.
Proof.
  intros H1 H2 P P' Q Q'.
  pose proof (square_columns Z.eq_dec Z.eq_dec (filter (fun J => is_projection J M) (coupled j1 j2))
    (filter (fun m1 => is_projection j2 (M - m1)) (spin_range2 j1))
    (fun J m => cg j1 m j2 (M - m) J M)) as S.
  transitivity (Rsum (filter (fun J => is_projection J M) (coupled j1 j2))
     (fun J => cg j1 m1 j2 (M - m1) J M * cg j1 m1' j2 (M - m1') J M)).
  { rewrite Rsum_filter. apply Rsum_ext. intros J _. destruct (is_projection J M) eqn:E; [reflexivity|].
    unfold cg at 1. unfold cg_couples. rewrite E, andb_false_r. simpl. ring. }
  rewrite S.
  - unfold dlt. destruct (Z.eq_dec m1 m1'), (Z.eqb_spec m1 m1'); congruence.
  - apply NoDup_filter, coupled_NoDup.
  - apply NoDup_filter, spin_range2_NoDup.
  - apply square_count; auto.
  - intros J J' IJ IJ'. apply filter_In in IJ, IJ'. rewrite coupled_In in IJ, IJ'.
    rewrite Rsum_filter. unfold dlt.
    transitivity (Rsum (spin_range2 j1) (fun m1 => cg j1 m1 j2 (M - m1) J M * cg j1 m1 j2 (M - m1) J' M)).
    + apply Rsum_ext. intros m _. destruct (is_projection j2 (M - m)) eqn:E; [reflexivity|].
      unfold cg at 1. unfold cg_couples. rewrite E, andb_false_r. simpl. ring.
    + rewrite cg_orthonormal by tauto. destruct (Z.eq_dec J J'), (Z.eqb_spec J J'); congruence.
  - apply filter_In. rewrite <- is_projection_In. auto.
  - apply filter_In. rewrite <- is_projection_In. auto.
Qed.

(** ** The symmetry between the first and the coupled spin *)
Lemma S0_tail a b f : (forall x, (Z.of_nat (min a b) < x)%Z -> f x = 0) -> S0 a f = S0 b f.
Proof.
  intros H. assert (G : forall m, (min a b <= m)%nat -> S0 m f = S0 (min a b) f).
  { induction 1; [reflexivity|]. rewrite S0_S, IHle, H by lia. ring. }
  rewrite (G a), (G b) by lia. reflexivity.
Qed.
Lemma S0_rev n f : S0 n f = S0 n (fun x => f (Z.of_nat n - x)%Z).
Proof.
  unfold S0. rewrite Rsum_rev_seq. apply Rsum_ext. intros k Hk. apply seq_in in Hk. f_equal. lia.
Qed.
Lemma couples_rotate j1 m1 j2 m2 J M : cg_couples J (- M) j2 m2 j1 (- m1) = cg_couples j1 m1 j2 m2 J M.
Proof.
  apply eq_true_iff_eq. rewrite !couples_spec, !is_projection_opp.
  assert (E : Z.even (j1 + j2 - J) = Z.even (J + j2 - j1)).
  { replace (J + j2 - j1)%Z with (j1 + j2 - J + 2 * (J - j1))%Z by lia. rewrite (Z.even_add (j1 + j2 - J)), Z.even_mul. 
    simpl. destruct (Z.even (j1 + j2 - J)); reflexivity. }
  rewrite E. intuition lia.
Qed.
Lemma cg_rotate j1 m1 j2 m2 J M : 
  sqrt (IZR (j1 + 1)) * cg j1 m1 j2 m2 J M
  = (-1) ^ Z.to_nat ((j2 + m2) / 2) * (sqrt (IZR (J + 1)) * cg J (- M) j2 m2 j1 (- m1)).
Proof.
  unfold cg. rewrite couples_rotate. destruct (cg_couples j1 m1 j2 m2 J M) eqn:E; [|ring].
  apply couples_spec in E. destruct E as (P1 & P2 & P3 & HM & T & V).
  apply even_half in V. destruct V as [n Hn].
  apply is_projection_spec in P1, P2, P3. destruct P1 as [B1 E1], P2 as [B2 E2], P3 as [B3 E3].
  apply even_half in E1, E2. destruct E1 as [x Hx], E2 as [y' Hy].
  set (y := (j2 - y')%Z). clear E3.
  assert (m1 = j1 - 2 * x)%Z by lia. assert (m2 = 2 * y - j2)%Z by (unfold y; lia). 
  assert (J = j1 + j2 - 2 * n)%Z by lia. subst m1 m2 J M.
  assert (Hy0 : (0 <= y)%Z) by (unfold y; lia). clearbody y. clear y' Hy Hx Hn.
  set (J := (j1 + j2 - 2 * n)%Z) in *.
  (* the sums *)
  assert (S1 : Rsum (seq 0 (S (Z.to_nat ((j1 + j2 - J) / 2)))) (racah_term j1 (j1 - 2 * x) j2 (2 * y - j2) J)
    = S0 (Z.to_nat y) (fun k => (-1) ^ Z.to_nat k * beta n k * g j1 j2 (y - x) n (x - k))).
  { replace (j1 + j2 - J)%Z with (2 * n)%Z by (unfold J; lia). rewrite half_2.
    transitivity (S0 (Z.to_nat n) (fun k => (-1) ^ Z.to_nat k * beta n k * g j1 j2 (y - x) n (x - k))).
    - unfold S0. apply Rsum_ext. intros k _. rewrite Nat2Z.id, <- racah_g. f_equal. lia.
    - apply S0_tail. intros k Hk. destruct (Z.lt_ge_cases n k).
      + rewrite (beta_out n k) by lia. ring.
      + unfold g. rewrite (rf_neg (x - k + (y - x))) by lia. ring. }
  assert (S2 : Rsum (seq 0 (S (Z.to_nat ((J + j2 - j1) / 2)))) (racah_term J (- (j1 - 2 * x + (2 * y - j2))) j2 (2 * y - j2) j1)
    = S0 (Z.to_nat y) (fun k => (-1) ^ Z.to_nat k * beta (j2 - n) k * g J j2 (x - (j1 - n)) (j2 - n) (j1 - n - x + y - k))).
  { replace (J + j2 - j1)%Z with (2 * (j2 - n))%Z by (unfold J; lia). rewrite half_2.
    transitivity (S0 (Z.to_nat (j2 - n)) (fun k => (-1) ^ Z.to_nat k * beta (j2 - n) k * g J j2 (x - (j1 - n)) (j2 - n) (j1 - n - x + y - k))).
    - unfold S0. apply Rsum_ext. intros k _. rewrite Nat2Z.id, <- racah_g. f_equal; unfold J; lia.
    - apply S0_tail. intros k Hk. destruct (Z.lt_ge_cases (j2 - n) k).
      + rewrite (beta_out (j2 - n) k) by lia. ring.
      + unfold g. rewrite (rf_neg (j1 - n - x + y - k + (x - (j1 - n)))) by lia. ring. }
  assert (S3 : S0 (Z.to_nat y) (fun k => (-1) ^ Z.to_nat k * beta n k * g j1 j2 (y - x) n (x - k))
    = (-1) ^ Z.to_nat y * S0 (Z.to_nat y) (fun k => (-1) ^ Z.to_nat k * beta (j2 - n) k * g J j2 (x - (j1 - n)) (j2 - n) (j1 - n - x + y - k))).
  { rewrite (S0_rev _ (fun k => _ * g J _ _ _ _)). rewrite <- S0_scal. apply S0_ext. intros k Hk.
    rewrite Z2Nat.id in * by lia.
    assert (Sg : (-1) ^ Z.to_nat y * (-1) ^ Z.to_nat (y - k) = (-1) ^ Z.to_nat k).
    { rewrite <- pow_add. apply minus_one_pow_parity. apply Nat.even_spec. exists (Z.to_nat y). lia. }
    rewrite <- Sg. unfold beta, g.
    replace (j2 - n - (y - k))%Z with (j2 - (y - x) - n - (x - k))%Z by lia.
    replace (j1 - n - x + y - (y - k))%Z with (j1 - n - (x - k))%Z by lia.
    replace (j1 - n - (x - k) + (x - (j1 - n)))%Z with k by lia.
    replace (J - (j2 - n) - (j1 - n - (x - k)))%Z with (x - k)%Z by (unfold J; lia).
    replace (j2 - (x - (j1 - n)) - (j2 - n) - (j1 - n - (x - k)))%Z with (n - k)%Z by lia.
    replace (x - k + (y - x))%Z with (y - k)%Z by lia. ring. }
  rewrite S1, S2, S3. clear S1 S2 S3.
  set (SS := S0 _ _).
  replace (j2 + (2 * y - j2))%Z with (2 * y)%Z by lia.
  rewrite half_2. set (M := (j1 - 2 * x + (2 * y - j2))%Z). set (m1 := (j1 - 2 * x)%Z). set (m2 := (2 * y - j2)%Z).
  replace (j1 + J - j2)%Z with (J + j1 - j2)%Z by lia.
  replace (j1 - J + j2)%Z with (j1 + j2 - J)%Z by lia.
  replace (J + j2 - j1)%Z with (J - j1 + j2)%Z by lia.
  replace (J + j2 + j1)%Z with (j1 + j2 + J)%Z by lia.
  replace (j1 + - m1)%Z with (j1 - m1)%Z by lia. replace (j1 - - m1)%Z with (j1 + m1)%Z by lia.
  replace (J + - M)%Z with (J - M)%Z by lia. replace (J - - M)%Z with (J + M)%Z by lia.
  set (A := fz ((J + j1 - j2) / 2) * fz ((J - j1 + j2) / 2) * fz ((j1 + j2 - J) / 2) / fz ((j1 + j2 + J) / 2 + 1)).
  set (B := fz ((J + M) / 2) * fz ((J - M) / 2) * fz ((j1 - m1) / 2) * fz ((j1 + m1) / 2) * fz ((j2 - m2) / 2) * fz y).
  assert (HA : 0 <= A).
  { unfold A. repeat apply Rmult_le_pos; try (left; apply fz_pos). left; apply Rinv_0_lt_compat, fz_pos. }
  assert (HJ : 0 <= IZR (J + 1)) by (apply IZR_le; unfold J; lia).
  assert (H1 : 0 <= IZR (j1 + 1)) by (apply IZR_le; lia).
  match goal with |- _ * (sqrt ?a * sqrt ?b * _) = _ * (_ * (sqrt ?a' * sqrt ?b' * _)) =>
    replace a with (IZR (J + 1) * A) by (unfold A, Rdiv; ring); try replace b with B by (unfold B; ring);
    replace a' with (IZR (j1 + 1) * A) by (unfold A, Rdiv; ring); try replace b' with B by (unfold B; ring) end.
  rewrite !sqrt_mult by auto. ring.
Qed.
