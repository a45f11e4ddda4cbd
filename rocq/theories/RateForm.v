(** Rates of superpositions and of sums of parts, for any distributions (proofs for C146) *)
From Coq Require Import String ZArith List Bool Reals Lra Lia Psatz Permutation.
From Coquelicot Require Import Coquelicot.
From Verif Require Import Prelude Decay Expr Sums CExpr Angles SpecKin SpecDPD Builder SpecObs SpecBounded SpecNormal SpecFractions FractionProofs RateFacts RateProofs.
Import ListNotations.
Local Open Scope R_scope.

Lemma pairs_In {A} (l : list A) pq : In pq (pairs l) -> In (fst pq) l /\ In (snd pq) l.
Proof.
  induction l as [|x l IH]; intros Hq; cbn [pairs] in Hq; [destruct Hq|]. apply in_app_or in Hq. destruct Hq as [Hq|Hq].
  - apply in_map_iff in Hq. destruct Hq as (y & <- & Hy). cbn [fst snd]. split; [left; reflexivity|right; exact Hy].
  - destruct (IH Hq). split; right; assumption.
Qed.
Lemma Re_Csum {A} (l : list A) f : Re (Csum l f) = Rsum l (fun x => Re (f x)).
Proof. induction l as [|x l IH]; cbn [Csum Rsum]; [reflexivity|]. rewrite <- IH. reflexivity. Qed.

Section Sum.
  Variables (base : symbol -> C) (i j k : Z).
  Hypothesis (Cy : cyclic i j k) (Op : open_phase_space base).
  Theorem rate_interference {A} (ps : list A) (I0 : (symbol -> C) -> R) (I : A -> (symbol -> C) -> R) N0 N :
    (forall p pt, In p ps -> 0 <= I p pt) ->
    (forall pt, exists g : A -> A -> R, (forall p q, In p ps -> In q ps -> g p q ^ 2 <= I p pt * I q pt) /\
       I0 pt = Rsum ps (fun p => I p pt) + Rsum (pairs ps) (fun pq => 2 * g (fst pq) (snd pq))) ->
    (forall pt, I0 pt <= INR (length ps) * Rsum ps (fun p => I p pt)) ->
    integrates_to base I0 i j k N0 -> (forall p, In p ps -> integrates_to base (I p) i j k (N p)) ->
    Rabs (N0 - Rsum ps N) <= Rsum (pairs ps) (fun pq => 2 * sqrt (N (fst pq) * N (snd pq))) /\
    N0 <= INR (length ps) * Rsum ps N.
  Proof.
    intros Inn Gr Lb H0 H.
    assert (Nn : forall p, In p ps -> 0 <= N p).
    { intros p Hp. apply (rate_nonneg base i j k Cy Op (I p)); [intros pt; apply Inn, Hp|exact (H p Hp)]. }
    pose proof (rate_sum base i j k Cy Op ps I N H) as HS.
    assert (B : forall (t : A * A -> R), (forall x, 0 < t x) -> forall pt,
      Rabs (I0 pt - Rsum ps (fun p => I p pt)) <= Rsum (pairs ps) (fun pq => t pq * I (fst pq) pt + I (snd pq) pt / t pq)).
    { intros t T pt. destruct (Gr pt) as (g & Gb & ->).
      replace (Rsum ps (fun p => I p pt) + Rsum (pairs ps) (fun pq => 2 * g (fst pq) (snd pq)) - Rsum ps (fun p => I p pt))
        with (Rsum (pairs ps) (fun pq => 2 * g (fst pq) (snd pq))) by ring.
      assert (Q : forall l, (forall pq, In pq l -> In (fst pq) ps /\ In (snd pq) ps) ->
        Rabs (Rsum l (fun pq => 2 * g (fst pq) (snd pq))) <= Rsum l (fun pq => t pq * I (fst pq) pt + I (snd pq) pt / t pq)).
      { induction l as [|pq l IH]; intros Hl; cbn [Rsum]; [rewrite Rabs_R0; lra|]. eapply Rle_trans; [apply Rabs_triang|].
        destruct (Hl pq (or_introl eq_refl)) as [Hp Hq]. apply Rplus_le_compat; [|apply IH; intros; apply Hl; right; assumption].
        rewrite Rabs_mult, (Rabs_pos_eq 2) by lra. apply bound_mean; [apply Inn, Hp|apply Inn, Hq|apply T|exact (Gb _ _ Hp Hq)]. }
      apply Q. apply pairs_In. }
    split.
    - apply (mean_bound_list (pairs ps) (fun pq => N (fst pq)) (fun pq => N (snd pq))).
      { intros pq Hq. destruct (pairs_In ps pq Hq). auto. }
      intros t T.
      assert (HB : integrates_to base (fun pt => Rsum (pairs ps) (fun pq => t pq * I (fst pq) pt + I (snd pq) pt / t pq)) i j k
        (Rsum (pairs ps) (fun pq => t pq * N (fst pq) + N (snd pq) / t pq))).
      { apply (rate_sum base i j k Cy Op (pairs ps) (fun pq pt => t pq * I (fst pq) pt + I (snd pq) pt / t pq)). intros pq Hq. destruct (pairs_In ps pq Hq) as [Hp Hq'].
        apply (rate_plus base i j k Cy Op (fun pt => t pq * I (fst pq) pt) (fun pt => I (snd pq) pt / t pq)).
        - exact (rate_scal base i j k Cy Op (t pq) _ _ (H _ Hp)).
        - unfold Rdiv. rewrite (Rmult_comm (N (snd pq))). pose proof (rate_scal base i j k Cy Op (/ t pq) _ _ (H _ Hq')) as X.
          refine (rate_same base i j k _ _ _ _ X). intros pt. apply Rmult_comm. }
      apply Rabs_le. split.
      + assert (Rsum ps N <= N0 + Rsum (pairs ps) (fun pq => t pq * N (fst pq) + N (snd pq) / t pq)); [|lra].
        refine (rate_le base i j k Cy Op _ _ _ _ _ HS (rate_plus base i j k Cy Op _ _ _ _ H0 HB)).
        intros pt. cbn beta. pose proof (B t T pt) as Q. apply Rabs_le_between in Q. lra.
      + assert (N0 <= Rsum ps N + Rsum (pairs ps) (fun pq => t pq * N (fst pq) + N (snd pq) / t pq)); [|lra].
        refine (rate_le base i j k Cy Op _ _ _ _ _ H0 (rate_plus base i j k Cy Op _ _ _ _ HS HB)).
        intros pt. cbn beta. pose proof (B t T pt) as Q. apply Rabs_le_between in Q. lra.
    - exact (rate_le base i j k Cy Op _ _ _ _ Lb H0 (rate_scal base i j k Cy Op (INR (length ps)) _ _ HS)).
  Qed.
End Sum.

(** ** Superpositions: if at every point the distribution is a Hermitian form, so is the rate. *)
Section Form.
  Variables (base : symbol -> C) (i j k : Z).
  Hypothesis (Cy : cyclic i j k) (Op : open_phase_space base).
  Variables (V : Type) (ok : V -> Prop) (sup : list (C * V) -> V -> Prop) (comb : C -> C -> V -> V -> V).
  Variables (I : V -> (symbol -> C) -> R) (N : V -> R).
  Hypothesis (Ok : forall a b v v', ok v -> ok v' -> ok (comb a b v v') /\ sup [(a, v); (b, v')] (comb a b v v')).
  Hypothesis (Rt : forall v, ok v -> integrates_to base (I v) i j k (N v)).
  Hypothesis (Nn : forall v pt, 0 <= I v pt).
  Hypothesis (Gr : forall pt, exists G : V -> V -> C, (forall v v', G v' v = Cconj (G v v')) /\ (forall v, ok v -> G v v = RtoC (I v pt)) /\
    (forall xs v, ok v -> (forall u, In u xs -> ok (snd u)) -> sup xs v ->
       RtoC (I v pt) = Csum xs (fun u => Csum xs (fun u' => fst u * Cconj (fst u') * G (snd u) (snd u'))%C))).

  Definition entry (f : V -> R) (v v' : V) : C :=
    ((f (comb (RtoC 1) (RtoC 1) v v') - f v - f v') / 2, (f (comb (RtoC 1) Ci v v') - f v - f v') / 2).
  Lemma two_terms (G : V -> V -> C) a b v v' : (forall v v', G v' v = Cconj (G v v')) -> Im (G v v) = 0 -> Im (G v' v') = 0 ->
    Csum [(a, v); (b, v')] (fun u => Csum [(a, v); (b, v')] (fun u' => fst u * Cconj (fst u') * G (snd u) (snd u'))%C) =
    RtoC (Cmod a ^ 2 * Re (G v v) + Cmod b ^ 2 * Re (G v' v') + 2 * Re (a * Cconj b * G v v')%C).
  Proof.
    intros Hm Z1 Z2. cbn [Csum fst snd]. rewrite (Hm v v').
    assert (M : forall z, Cmod z ^ 2 = fst z * fst z + snd z * snd z).
    { intros [p q]. unfold Cmod. cbn [fst snd]. rewrite <- (Rsqr_pow2 (sqrt _)), Rsqr_sqrt; [ring|]. pose proof (pow2_ge_0 p). pose proof (pow2_ge_0 q). lra. }
    rewrite !M. destruct a as [a1 a2], b as [b1 b2], (G v v) as [g1 g2], (G v' v') as [h1 h2], (G v v') as [x y].
    unfold Im in Z1, Z2. cbn [snd] in Z1, Z2. subst g2 h2. unfold Re. apply injective_projections; cbn [fst snd RtoC Cplus Cmult Cconj]; ring.
  Qed.
  Lemma two_values pt (G : V -> V -> C) a b v v' : (forall v v', G v' v = Cconj (G v v')) -> (forall v, ok v -> G v v = RtoC (I v pt)) ->
    (forall xs v, ok v -> (forall u, In u xs -> ok (snd u)) -> sup xs v ->
       RtoC (I v pt) = Csum xs (fun u => Csum xs (fun u' => fst u * Cconj (fst u') * G (snd u) (snd u'))%C)) -> ok v -> ok v' ->
    I (comb a b v v') pt = Cmod a ^ 2 * I v pt + Cmod b ^ 2 * I v' pt + 2 * Re (a * Cconj b * G v v')%C.
  Proof.
    intros Hm Dg Su O O'. destruct (Ok a b v v' O O') as [O2 S2].
    assert (Ox : forall u, In u [(a, v); (b, v')] -> ok (snd u)) by (intros u [<-|[<-|[]]]; assumption).
    pose proof (Su _ _ O2 Ox S2) as E.
    rewrite (two_terms G a b v v' Hm) in E by (first [rewrite (Dg v O); reflexivity|rewrite (Dg v' O'); reflexivity]).
    rewrite (Dg _ O), (Dg _ O') in E. injection E as E. exact E.
  Qed.
  Lemma mod_i : Cmod Ci ^ 2 = 1.
  Proof. unfold Cmod, Ci. cbn [fst snd]. replace (0 ^ 2 + 1 ^ 2) with 1 by ring. rewrite sqrt_1. ring. Qed.
  Lemma entry_at pt (G : V -> V -> C) v v' : (forall v v', G v' v = Cconj (G v v')) -> (forall v, ok v -> G v v = RtoC (I v pt)) ->
    (forall xs v, ok v -> (forall u, In u xs -> ok (snd u)) -> sup xs v ->
       RtoC (I v pt) = Csum xs (fun u => Csum xs (fun u' => fst u * Cconj (fst u') * G (snd u) (snd u'))%C)) -> ok v -> ok v' ->
    G v v' = entry (fun v => I v pt) v v'.
  Proof.
    intros Hm Dg Su O O'. unfold entry. rewrite !(two_values pt G _ _ v v' Hm Dg Su O O'), mod_i, Cmod_1.
    destruct (G v v') as [x y]. unfold Re, Ci. apply injective_projections; cbn [fst snd RtoC Cmult Cconj]; field.
  Qed.
  (** Any real combination of the entries has a rate. *)
  Lemma entry_rate z v v' : ok v -> ok v' -> integrates_to base (fun pt => Re (z * entry (fun v => I v pt) v v')%C) i j k (Re (z * entry N v v')%C).
  Proof.
    intros O O'. destruct z as [p q].
    pose proof (Rt _ (proj1 (Ok (RtoC 1) (RtoC 1) v v' O O'))) as R1. pose proof (Rt _ (proj1 (Ok (RtoC 1) Ci v v' O O'))) as R2.
    set (v1 := comb (RtoC 1) (RtoC 1) v v') in *. set (v2 := comb (RtoC 1) Ci v v') in *.
    pose proof (rate_plus base i j k Cy Op _ _ _ _ (rate_plus base i j k Cy Op _ _ _ _ (rate_plus base i j k Cy Op _ _ _ _
      (rate_scal base i j k Cy Op (p / 2) _ _ R1) (rate_scal base i j k Cy Op (- (q / 2)) _ _ R2))
      (rate_scal base i j k Cy Op ((q - p) / 2) _ _ (Rt _ O))) (rate_scal base i j k Cy Op ((q - p) / 2) _ _ (Rt _ O'))) as X.
    match type of X with integrates_to _ _ _ _ _ ?n => replace n with (Re ((p, q) * entry N v v')%C) in X end.
    - refine (rate_same base i j k _ _ _ _ X). intros pt. unfold entry. fold v1 v2. unfold Re, Cmult. cbn [fst snd]. field.
    - unfold entry. fold v1 v2. unfold Re, Cmult. cbn [fst snd]. field.
  Qed.
  Lemma form_re xs v : ok v -> (forall u, In u xs -> ok (snd u)) -> sup xs v ->
    N v = Re (Csum xs (fun u => Csum xs (fun u' => fst u * Cconj (fst u') * entry N (snd u) (snd u'))%C)).
  Proof.
    intros O Ox Sx. rewrite Re_Csum.
    transitivity (Rsum xs (fun u => Rsum xs (fun u' => Re (fst u * Cconj (fst u') * entry N (snd u) (snd u'))%C))).
    2:{ apply Rsum_ext. intros u _. symmetry. apply Re_Csum. }
    refine (rate_ext base i j k Cy Op (I v) _ _ _ _ (Rt v O) (rate_sum base i j k Cy Op xs
      (fun u pt => Rsum xs (fun u' => Re (fst u * Cconj (fst u') * entry (fun v => I v pt) (snd u) (snd u'))%C)) _ _)).
    - intros pt. destruct (Gr pt) as (G & Hm & Dg & Su). pose proof (Su xs v O Ox Sx) as E. apply (f_equal Re) in E. rewrite Re_Csum in E. cbn [RtoC Re fst] in E. rewrite E.
      apply Rsum_ext. intros u Hu. rewrite Re_Csum. apply Rsum_ext. intros u' Hu'.
      rewrite (entry_at pt G _ _ Hm Dg Su (Ox u Hu) (Ox u' Hu')). reflexivity.
    - intros u Hu. apply (rate_sum base i j k Cy Op xs (fun u' pt => Re (fst u * Cconj (fst u') * entry (fun v => I v pt) (snd u) (snd u'))%C)).
      intros u' Hu'. apply entry_rate; auto.
  Qed.
  Lemma form_pair a b v v' : ok v -> ok v' -> N (comb a b v v') = Cmod a ^ 2 * N v + Cmod b ^ 2 * N v' + 2 * Re (a * Cconj b * entry N v v')%C.
  Proof.
    intros O O'.
    pose proof (rate_plus base i j k Cy Op _ _ _ _ (rate_plus base i j k Cy Op _ _ _ _ (rate_scal base i j k Cy Op (Cmod a ^ 2) _ _ (Rt v O))
      (rate_scal base i j k Cy Op (Cmod b ^ 2) _ _ (Rt v' O'))) (rate_scal base i j k Cy Op 2 _ _ (entry_rate (a * Cconj b)%C v v' O O'))) as X.
    refine (rate_ext base i j k Cy Op _ _ _ _ _ (Rt _ (proj1 (Ok a b v v' O O'))) X). intros pt. cbn beta.
    destruct (Gr pt) as (G & Hm & Dg & Su). rewrite (two_values pt G a b v v' Hm Dg Su O O'), (entry_at pt G _ _ Hm Dg Su O O'). reflexivity.
  Qed.
  Lemma form_hermitian v v' : ok v -> ok v' -> entry N v' v = Cconj (entry N v v').
  Proof.
    intros O O'.
    assert (Q : forall z, Re (z * entry N v' v)%C = Re (z * Cconj (entry N v v'))%C).
    { intros z. rewrite <- (Cconj_conj z). rewrite <- Cconj_mult. set (z' := Cconj z).
      replace (Re (Cconj (z' * entry N v v')%C)) with (Re (z' * entry N v v')%C) by reflexivity.
      refine (rate_ext base i j k Cy Op _ _ _ _ _ (entry_rate (Cconj z') v' v O' O) (entry_rate z' v v' O O')). intros pt. cbn beta.
      destruct (Gr pt) as (G & Hm & Dg & Su). rewrite <- (entry_at pt G _ _ Hm Dg Su O O'), <- (entry_at pt G _ _ Hm Dg Su O' O), (Hm v v'), <- Cconj_mult. reflexivity. }
    pose proof (Q (RtoC 1)) as Q1. pose proof (Q Ci) as Q2. destruct (entry N v' v) as [a b], (entry N v v') as [c d].
    unfold Re, Ci, RtoC, Cmult, Cconj in Q1, Q2. cbn [fst snd] in Q1, Q2. unfold Cconj. apply injective_projections; cbn [fst snd]; lra.
  Qed.
  Lemma form_diagonal v : ok v -> entry N v v = RtoC (N v).
  Proof.
    intros O.
    assert (Q : forall z, Re (z * entry N v v)%C = Re z * N v).
    { intros z. refine (rate_ext base i j k Cy Op _ _ _ _ _ (entry_rate z v v O O) (rate_scal base i j k Cy Op (Re z) _ _ (Rt v O))). intros pt. cbn beta.
      destruct (Gr pt) as (G & Hm & Dg & Su). rewrite <- (entry_at pt G _ _ Hm Dg Su O O), (Dg v O). destruct z. unfold Re, Cmult, RtoC. cbn [fst snd]. ring. }
    pose proof (Q (RtoC 1)) as Q1. pose proof (Q Ci) as Q2. destruct (entry N v v) as [a b].
    unfold Re, Ci, RtoC, Cmult in Q1, Q2. cbn [fst snd] in Q1, Q2. apply injective_projections; cbn [fst snd RtoC]; lra.
  Qed.
  Lemma form_bound v v' : ok v -> ok v' -> Cmod (entry N v v') ^ 2 <= N v * N v'.
  Proof.
    intros O O'.
    assert (P : forall u, ok u -> 0 <= N u) by (intros u Ou; exact (rate_nonneg base i j k Cy Op (I u) _ (Nn u) (Rt u Ou))).
    apply hermitian_bound; auto. intros x y. rewrite <- (form_pair x y v v' O O'). apply P, Ok; assumption.
  Qed.
  Theorem rate_form : exists H : V -> V -> C,
    (forall v, ok v -> H v v = RtoC (N v)) /\ (forall v v', ok v -> ok v' -> H v' v = Cconj (H v v')) /\
    (forall v v', ok v -> ok v' -> Cmod (H v v') ^ 2 <= N v * N v') /\
    (forall xs v, ok v -> (forall u, In u xs -> ok (snd u)) -> sup xs v ->
       RtoC (N v) = Csum xs (fun u => Csum xs (fun u' => fst u * Cconj (fst u') * H (snd u) (snd u'))%C)).
  Proof.
    exists (entry N). split; [exact form_diagonal|]. split; [exact form_hermitian|]. split; [exact form_bound|].
    intros xs v O Ox Sx. rewrite (form_re xs v O Ox Sx). set (T := Csum xs _).
    assert (E : Cconj T = T).
    { unfold T. rewrite Csum_conj. rewrite Csum_swap. apply Csum_ext. intros u Hu. rewrite Csum_conj. apply Csum_ext. intros u' Hu'.
      rewrite (form_hermitian (snd u') (snd u)) by auto. rewrite !Cconj_mult, !Cconj_conj. ring. }
    destruct T as [a b]. injection E as E. apply injective_projections; cbn [fst snd RtoC Re]; lra.
  Qed.
End Form.
