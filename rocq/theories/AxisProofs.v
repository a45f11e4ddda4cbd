(** The integral over the Dalitz plot does not depend on the order of integration (proofs for C142) *)
From Coq Require Import String ZArith List Bool Reals Lra Lia Psatz.
From Coquelicot Require Import Coquelicot.
From Verif Require Import Prelude Decay Expr CExpr Angles SpecKin KinFacts AnglesFacts SpecDPD Builder SpecObs ObsKin SpecBounded SpecSmooth SpecNormal
  BoundedFacts IntegralFacts FubiniFacts NormalKin NormalFacts AxisFacts.
Import ListNotations.
Local Open Scope R_scope.

(** The inside of the Dalitz plot in terms of the invariant masses *)
Definition region (base : symbol -> C) (s1 s2 s3 : R) : Prop :=
  lower_limit base 1 < s1 < upper_limit base 1 /\ lower_limit base 2 < s2 < upper_limit base 2 /\ lower_limit base 3 < s3 < upper_limit base 3 /\
  0 < gram_at (at_sigmas base s1 s2 s3).
Definition region_dec base s1 s2 s3 : {region base s1 s2 s3} + {~ region base s1 s2 s3}.
Proof.
  unfold region. generalize (lower_limit base 1), (upper_limit base 1), (lower_limit base 2), (upper_limit base 2), (lower_limit base 3), (upper_limit base 3), (gram_at (at_sigmas base s1 s2 s3)).
  intros a b c d e f g. destruct (Rlt_dec a s1); [|right; tauto]. destruct (Rlt_dec s1 b); [|right; tauto]. destruct (Rlt_dec c s2); [|right; tauto].
  destruct (Rlt_dec s2 d); [|right; tauto]. destruct (Rlt_dec e s3); [|right; tauto]. destruct (Rlt_dec s3 f); [|right; tauto]. destruct (Rlt_dec 0 g); [left; tauto|right; tauto].
Defined.
(** The distribution, continued with zero *)
Definition extended (base : symbol -> C) (I : (symbol -> C) -> R) (s1 s2 s3 : R) : R :=
  if region_dec base s1 s2 s3 then I (at_sigmas base s1 s2 s3) else 0.
Definition extended_line base I (j k : Z) (s x : R) : R :=
  extended base I (line_sigma base j k s x 1) (line_sigma base j k s x 2) (line_sigma base j k s x 3).
Definition soft_line base I (j k : Z) (n s x : R) : R := extended_line base I j k s x * soft n (gram_line base j k s x).

(** The same point on a line of another direction *)
Lemma line_sigma_turn base i j k s x n : cyclic i j k -> In n [1; 2; 3]%Z -> line_sigma base i j x (line_total base - x - s) n = line_sigma base j k s x n.
Proof.
  intros Cy Hn. unfold line_sigma. destruct Cy as [E|[E|[E|[]]]]; injection E as <- <- <-; destruct Hn as [<-|[<-|[<-|[]]]]; cbn [Z.eqb Pos.eqb]; ring.
Qed.
Lemma extended_turn base I i j k s x : cyclic i j k -> extended_line base I i j x (line_total base - x - s) = extended_line base I j k s x.
Proof. intros Cy. unfold extended_line. rewrite !(line_sigma_turn base i j k) by (assumption || (cbn; tauto)). reflexivity. Qed.

Section Order.
  Variables (base : symbol -> C) (I : (symbol -> C) -> R) (B : R).
  Hypothesis (Op : open_phase_space base).
  Hypothesis HB : forall s1 s2 s3, on_dalitz_plot base s1 s2 s3 -> 0 <= I (at_sigmas base s1 s2 s3) <= B.
  Hypothesis HC : forall (p : R * R) (f1 f2 f3 : R * R -> R), continuous f1 p -> continuous f2 p -> continuous f3 p ->
    on_dalitz_plot base (f1 p) (f2 p) (f3 p) -> continuous (fun t => I (at_sigmas base (f1 t) (f2 t) (f3 t))) p.

  Section Slices.
    Variables (i j k : Z).
    Hypothesis Cy : cyclic i j k.
    Let lo := lower_limit base k. Let hi := upper_limit base k.
    Let L := lower_limit base j. Let U := upper_limit base j.
    Notation J := (extended_line base I j k).
    Notation g := (gram_line base j k).
    Notation Jn := (soft_line base I j k).
    Notation a s := (line_at base i j k s (-1)). Notation b s := (line_at base i j k s 1).
    Lemma region_line s x : region base (line_sigma base j k s x 1) (line_sigma base j k s x 2) (line_sigma base j k s x 3) <->
      lo < s < hi /\ 0 < g s x.
    Proof.
      split.
      - intros (H1 & H2 & H3 & G). split; [|exact G]. clear G. unfold lo, hi. destruct Cy as [E|[E|[E|[]]]]; injection E as <- <- <-; [exact H3|exact H1|exact H2].
      - intros [Hs G]. pose proof (gram_line_limits base i j k Cy Op s x Hs G) as Lm. unfold region.
        assert (H3 : forall n, In n [1; 2; 3]%Z -> In n [i; j; k]). { intros n Hn. clear - Cy Hn. destruct Cy as [E|[E|[E|[]]]]; injection E as <- <- <-; cbn in *; tauto. }
        repeat split; try exact G; apply Lm, H3; cbn; tauto.
    Qed.
    Lemma J_in s x : lo < s < hi -> 0 < g s x -> J s x = I (line_point base j k s x).
    Proof.
      intros Hs G. unfold extended_line, extended. destruct (region_dec _ _ _ _) as [R0|R0]; [reflexivity|]. exfalso. apply R0, region_line. exact (conj Hs G).
    Qed.
    Lemma J_out s x : ~ (lo < s < hi /\ 0 < g s x) -> J s x = 0.
    Proof.
      intros Ho. unfold extended_line, extended. destruct (region_dec _ _ _ _) as [R0|R0]; [|reflexivity]. exfalso. apply Ho. exact (proj1 (region_line s x) R0).
    Qed.
    Lemma line_plot s x : lo < s < hi -> 0 < g s x -> on_dalitz_plot base (line_sigma base j k s x 1) (line_sigma base j k s x 2) (line_sigma base j k s x 3).
    Proof.
      intros Hs G. apply (proj1 (gram_line_pos base i j k Cy Op s x Hs)) in G. destruct (line_z base i j k Cy Op s x Hs) as (z & -> & Q).
      exact (line_inside base i j k Cy Op s z Hs (proj1 Q G)).
    Qed.
    Lemma B_nonneg : 0 <= B.
    Proof.
      pose proof (line_open base i j k Cy Op) as O. pose proof (HB _ _ _ (line_inside base i j k Cy Op ((lo + hi) / 2) 0 ltac:(unfold lo, hi; lra) ltac:(lra))). lra.
    Qed.
    Lemma in_dec s x : {lo < s < hi /\ 0 < g s x} + {~ (lo < s < hi /\ 0 < g s x)}.
    Proof. destruct (Rlt_dec lo s); [|right; tauto]. destruct (Rlt_dec s hi); [|right; tauto]. destruct (Rlt_dec 0 (g s x)); [left; tauto|right; tauto]. Qed.
    Lemma J_range s x : 0 <= J s x <= B.
    Proof.
      destruct (in_dec s x) as [[Hs G]|Ho]; [rewrite (J_in s x Hs G); exact (HB _ _ _ (line_plot s x Hs G))|rewrite (J_out s x Ho)].
      pose proof B_nonneg. lra.
    Qed.
    Lemma Jn_range n s x : 0 < n -> 0 <= Jn n s x <= J s x.
    Proof. intros Hn. unfold soft_line. pose proof (soft_range n (g s x) Hn). pose proof (J_range s x). split; nra. Qed.
    Lemma Jn_continuous n : 0 < n -> forall s x, continuity_2d_pt (Jn n) s x.
    Proof.
      intros Hn s x. apply (proj2 (continuity_2d_pt_filterlim (Jn n) s x)).
      change (continuous (fun t : R * R => Jn n (fst t) (snd t)) (s, x)).
      pose proof (gram_line_continuous base j k s x) as Cg.
      assert (Cs : continuous (fun t : R * R => soft n (g (fst t) (snd t))) (s, x)).
      { apply (continuous_comp (fun t : R * R => g (fst t) (snd t)) (soft n)); [exact Cg|]. apply soft_continuous, Hn. }
      destruct (Rlt_or_le 0 (g s x)) as [G|G].
      - assert (Lg : locally (s, x) (fun t : R * R => 0 < g (fst t) (snd t))) by exact (Cg (fun u => 0 < u) (open_gt 0 _ G)).
        assert (Cf : continuous (fun t : R * R => fst t) (s, x)) by apply continuous_fst.
        destruct (Rlt_or_le lo s) as [S1|S1].
        + destruct (Rlt_or_le s hi) as [S2|S2].
          * assert (L1 : locally (s, x) (fun t : R * R => lo < fst t)) by exact (Cf (fun u => lo < u) (open_gt lo s S1)).
            assert (L2 : locally (s, x) (fun t : R * R => fst t < hi)) by exact (Cf (fun u => u < hi) (open_lt hi s S2)).
            apply (continuous_ext_loc _ (fun t : R * R => I (line_point base j k (fst t) (snd t)) * soft n (g (fst t) (snd t)))).
            -- generalize (filter_and _ _ Lg (filter_and _ _ L1 L2)). apply filter_imp. intros t (G0 & T1 & T2). unfold soft_line. rewrite (J_in _ _ (conj T1 T2) G0). reflexivity.
            -- apply (continuous_mult (fun t : R * R => I (line_point base j k (fst t) (snd t))) (fun t : R * R => soft n (g (fst t) (snd t)))); [|exact Cs].
               exact (HC (s, x) _ _ _ (line_sigma_continuous base j k s x 1) (line_sigma_continuous base j k s x 2) (line_sigma_continuous base j k s x 3)
                 (line_plot s x (conj S1 S2) G)).
          * destruct S2 as [S2|S2]; [|exfalso; pose proof (gram_line_end base i j k Cy Op s x (or_intror (eq_sym S2))); lra].
            apply (continuous_ext_loc _ (fun _ => 0)); [|apply continuous_const].
            assert (L2 : locally (s, x) (fun t : R * R => hi < fst t)) by exact (Cf (fun u => hi < u) (open_gt hi s S2)).
            revert L2. apply filter_imp. intros t T. unfold soft_line. rewrite J_out by lra. symmetry. apply Rmult_0_l.
        + destruct S1 as [S1|S1]; [|exfalso; pose proof (gram_line_end base i j k Cy Op s x (or_introl S1)); lra].
          apply (continuous_ext_loc _ (fun _ => 0)); [|apply continuous_const].
          assert (L2 : locally (s, x) (fun t : R * R => fst t < lo)) by exact (Cf (fun u => u < lo) (open_lt lo s S1)).
          revert L2. apply filter_imp. intros t T. unfold soft_line. rewrite J_out by lra. symmetry. apply Rmult_0_l.
      - assert (Z : Jn n s x = 0) by (unfold soft_line; rewrite soft_zero by exact G; ring).
        assert (Cb : continuous (fun t : R * R => B * soft n (g (fst t) (snd t))) (s, x)).
        { apply (continuous_mult (fun _ => B) (fun t : R * R => soft n (g (fst t) (snd t)))); [apply continuous_const|exact Cs]. }
        intros P [e HP].
        assert (Lb : locally (s, x) (fun t : R * R => B * soft n (g (fst t) (snd t)) < e)).
        { apply (Cb (fun u => u < e)). cbn [fst snd]. apply (open_lt e). rewrite (soft_zero n _ G), Rmult_0_r. apply cond_pos. }
        revert Lb. unfold filtermap. apply filter_imp. intros t T. apply HP. cbn [fst snd]. rewrite Z.
        change (Rabs (Jn n (fst t) (snd t) - 0) < e). pose proof (Jn_range n (fst t) (snd t) Hn) as R0. rewrite Rminus_0_r, Rabs_pos_eq by lra.
        apply Rle_lt_trans with (2 := T). unfold soft_line. apply Rmult_le_compat_r; [apply soft_range, Hn|apply J_range].
    Qed.
    Lemma ends s : lo < s < hi -> a s < b s /\ L <= a s /\ b s <= U.
    Proof.
      intros Hs. pose proof (line_range_limits base i j k Cy Op s Hs) as (H1 & H2 & _). pose proof (proj1 (line_ends_at base i j k Cy Op s Hs)). unfold L, U. auto.
    Qed.
    Lemma J_ends s x : lo < s < hi -> ~ a s < x < b s -> J s x = 0.
    Proof. intros Hs Hx. apply J_out. intros [_ G]. exact (Hx (proj1 (gram_line_pos base i j k Cy Op s x Hs) G)). Qed.
    Variable P : R -> R.
    Hypothesis HP : projects_to base I i j k P.
    Lemma J_slice s : lo < s < hi -> is_RInt (J s) (a s) (b s) (P s).
    Proof.
      intros Hs. destruct (HP s Hs) as (a' & b' & _ & Rg & X). destruct (line_range_unique _ i j k Cy (line_between base i j k Cy Op s Hs) a' b' Rg) as [-> ->].
      rewrite !(line_end_at base i j k Cy s _ Hs) in X. eapply is_RInt_ext; [|exact X]. intros x. destruct (ends s Hs) as (H0 & _).
      rewrite Rmin_left, Rmax_right by lra. intros Hx. cbn beta. rewrite (line_is_point base i j k Cy). symmetry. apply (J_in s x Hs).
      exact (proj2 (gram_line_pos base i j k Cy Op s x Hs) Hx).
    Qed.
    Lemma J_slice_wide s L' U' : lo < s < hi -> L' <= a s -> b s <= U' -> is_RInt (J s) L' U' (P s).
    Proof.
      intros Hs H1 H2. destruct (ends s Hs) as (H0 & _). apply (is_RInt_vanish (J s) L' U' (a s) (b s)); try lra; [| |exact (J_slice s Hs)].
      - intros x Hx. apply (J_ends s x Hs). lra.
      - intros x Hx. apply (J_ends s x Hs). lra.
    Qed.
    Lemma slice_defect n s c e : 0 < n -> lo < s < hi -> 0 < c -> c <= gram_scale base i j k s -> 0 < e < 1 ->
      P s - RInt (Jn n s) L U <= 2 * (e * (U - L)) * B + (U - L) * (B * / (n * (c * e))).
    Proof.
      intros Hn Hs Hc Hg He. destruct (ends s Hs) as (H0 & H1 & H2).
      assert (Xn : forall u v, ex_RInt (Jn n s) u v) by (intros u v; exact (ex_slice_1 (Jn n) (Jn_continuous n Hn) s u v)).
      pose proof (is_RInt_minus _ _ _ _ _ _ (J_slice s Hs) (RInt_correct _ _ _ (Xn (a s) (b s)))) as D.
      assert (E : RInt (Jn n s) L U = RInt (Jn n s) (a s) (b s)).
      { apply is_RInt_unique. apply (is_RInt_vanish _ L U (a s) (b s)); try lra; [| |exact (RInt_correct _ _ _ (Xn (a s) (b s)))].
        - intros x Hx. unfold soft_line. rewrite (J_ends s x Hs) by lra. ring.
        - intros x Hx. unfold soft_line. rewrite (J_ends s x Hs) by lra. ring. }
      change (is_RInt (fun x => J s x - Jn n s x) (a s) (b s) (P s - RInt (Jn n s) (a s) (b s))) in D.
      rewrite E, <- (is_RInt_unique _ _ _ _ D). clear E.
      pose proof (line_half_pos base i j k Cy Op s Hs) as Hh. pose proof (line_half_bound base i j k Cy Op s Hs) as Hb. fold L U in Hb.
      set (h := line_half base i j k s) in *. pose proof B_nonneg as B0.
      assert (Ba : b s - a s = 2 * h) by (unfold line_at; fold h; ring).
      assert (I0 : 0 < / (n * (c * e))) by (apply Rinv_0_lt_compat; repeat apply Rmult_lt_0_compat; lra).
      assert (X : RInt (fun x => J s x - Jn n s x) (a s) (b s) <= 2 * (e * h) * B + (b s - a s) * (B * / (n * (c * e)))).
      { apply RInt_margins; [exists (P s - RInt (Jn n s) (a s) (b s)); exact D|nra|nra|nra| |].
        - intros x _. pose proof (Jn_range n s x Hn). pose proof (J_range s x). lra.
        - intros x Hx. unfold soft_line. replace (J s x - J s x * soft n (g s x)) with (J s x * (1 - soft n (g s x))) by ring.
          pose proof (J_range s x) as JR. pose proof (soft_range n (g s x) Hn) as SR. apply Rmult_le_compat; try lra. clear JR SR.
          apply soft_near; [exact Hn|nra|]. unfold line_at in Hx. fold h in Hx.
          set (z := (x - line_centre base i j k s) / h). assert (Ex : x = line_centre base i j k s + z * h) by (unfold z; field; lra).
          replace x with (line_at base i j k s z) by (unfold line_at; fold h; lra). rewrite (gram_line_z base i j k Cy Op s z Hs).
          assert (Hz : -1 + e < z < 1 - e) by (rewrite Ex in Hx; clear - Hx Hh; split; nra).
          apply Rmult_le_compat; try lra. clear - Hz He. nra. }
      apply Rle_trans with (1 := X). apply Rplus_le_compat.
      - apply Rmult_le_compat_r; [exact B0|]. nra.
      - apply Rmult_le_compat_r; [nra|]. lra.
    Qed.
    Lemma slice_defect_any n s : 0 < n -> lo < s < hi -> P s - RInt (Jn n s) L U <= (U - L) * B.
    Proof.
      intros Hn Hs. destruct (ends s Hs) as (H0 & H1 & H2).
      pose proof (J_slice_wide s L U Hs H1 H2) as X.
      pose proof (ex_slice_1 (Jn n) (Jn_continuous n Hn) s L U) as Xn.
      pose proof (RInt_le (J s) (fun _ => B) L U ltac:(lra) ltac:(exists (P s); exact X) (ex_RInt_const _ _ _) ltac:(intros; apply J_range)) as Q.
      rewrite RInt_const in Q. change (RInt (J s) L U <= (U - L) * B) in Q. rewrite (is_RInt_unique _ _ _ _ X) in Q.
      pose proof (RInt_ge_0 (Jn n s) L U ltac:(lra) Xn ltac:(intros; apply Jn_range, Hn)). lra.
    Qed.
    Lemma gram_scale_continuous s : lo < s < hi -> continuity_pt (gram_scale base i j k) s.
    Proof.
      intros Hs. pose proof (line_pos base i j k Cy s Hs). apply (proj2 (continuity_pt_filterlim _ _)).
      apply (ex_derive_continuous (gram_scale base i j k)). unfold gram_scale, kallen. auto_derive. lra.
    Qed.
    (** The integral is at most the integral of the softened distribution, up to small corrections *)
    Lemma soft_below N : is_RInt P lo hi N -> forall d, 0 < d < (hi - lo) / 2 -> exists c, 0 < c /\ forall n e, 0 < n -> 0 < e < 1 ->
      N <= RInt (fun s => RInt (Jn n s) L U) lo hi + (2 * d * ((U - L) * B) + (hi - lo) * (2 * (e * (U - L)) * B + (U - L) * (B * / (n * (c * e))))).
    Proof.
      intros HN d Hd.
      destruct (continuity_ab_min (gram_scale base i j k) (lo + d) (hi - d) ltac:(lra)) as (s0 & Min & Hs0).
      { intros s Hs. apply gram_scale_continuous. lra. }
      pose proof (gram_scale_pos base i j k Cy Op s0 ltac:(fold lo hi; lra)) as C0. exists (gram_scale base i j k s0). split; [exact C0|].
      intros n e Hn He. set (c := gram_scale base i j k s0) in *.
      assert (LU : L < U). { destruct (ends ((lo + hi) / 2) ltac:(fold lo hi; lra)) as (H0 & H1 & H2). fold L U in H1, H2. lra. }
      pose proof (B_nonneg) as B0.
      assert (I0 : 0 < / (n * (c * e))) by (apply Rinv_0_lt_compat; apply Rmult_lt_0_compat; [lra|apply Rmult_lt_0_compat; lra]).
      assert (Xn : ex_RInt (fun s => RInt (Jn n s) L U) lo hi).
      { apply (ex_RInt_continuous (fun s => RInt (Jn n s) L U)). intros s _. exact (param_continuous (fun x s => Jn n s x) (swap_2d (Jn n) (Jn_continuous n Hn)) L U s). }
      pose proof (is_RInt_minus _ _ _ _ _ _ HN (RInt_correct _ _ _ Xn)) as D.
      change (is_RInt (fun s => P s - RInt (Jn n s) L U) lo hi (N - RInt (fun s => RInt (Jn n s) L U) lo hi)) in D.
      pose proof (RInt_margins (fun s => P s - RInt (Jn n s) L U) lo hi d ((U - L) * B) (2 * (e * (U - L)) * B + (U - L) * (B * / (n * (c * e)))) ltac:(eexists; exact D)) as X.
      rewrite (is_RInt_unique _ _ _ _ D) in X.
      assert (N - RInt (fun s => RInt (Jn n s) L U) lo hi <= 2 * d * ((U - L) * B) + (hi - lo) * (2 * (e * (U - L)) * B + (U - L) * (B * / (n * (c * e))))); [|lra].
      apply X; [lra|lra| | |].
      - apply Rplus_le_le_0_compat; repeat apply Rmult_le_pos; lra.
      - intros s Hs. exact (slice_defect_any n s Hn Hs).
      - intros s Hs. apply (slice_defect n s c e Hn); [fold lo hi; lra|exact C0|apply Min; lra|exact He].
    Qed.
  End Slices.

  (** The softened distribution, integrated in the other order, is below the other integral *)
  Lemma soft_above i j k P2 N2 n : cyclic i j k -> 0 < n -> projects_to base I k i j P2 -> is_RInt P2 (lower_limit base j) (upper_limit base j) N2 ->
    RInt (fun s => RInt (soft_line base I j k n s) (lower_limit base j) (upper_limit base j)) (lower_limit base k) (upper_limit base k) <= N2.
  Proof.
    intros Cy Hn H2 HN. assert (Cy2 : cyclic k i j). { clear - Cy. destruct Cy as [E|[E|[E|[]]]]; injection E as <- <- <-; cbn; tauto. }
    pose proof (Jn_continuous i j k Cy n Hn) as Cn.
    set (L := lower_limit base j) in *. set (U := upper_limit base j) in *. set (lo := lower_limit base k). set (hi := upper_limit base k).
    pose proof (fubini (soft_line base I j k n) lo hi L U Cn) as Fu.
    change (RInt (fun s => RInt (fun x => soft_line base I j k n s x) L U) lo hi <= N2). rewrite Fu, <- (is_RInt_unique _ _ _ _ HN).
    pose proof (line_open base k i j Cy2 Op) as O2. fold L U in O2. pose proof (line_open base i j k Cy Op) as O1. fold lo hi in O1.
    apply RInt_le; [lra| |exists N2; exact HN|].
    - apply (ex_RInt_continuous (fun x => RInt (fun s => soft_line base I j k n s x) lo hi)). intros x _. exact (param_continuous (soft_line base I j k n) Cn lo hi x).
    - intros x Hx.
      assert (J2 : is_RInt (fun s => extended_line base I j k s x) lo hi (P2 x)).
      { destruct (line_range_limits base k i j Cy2 Op x Hx) as (_ & _ & Q1 & Q2). fold lo hi in Q1, Q2.
        pose proof (J_slice_wide k i j Cy2 P2 H2 x (line_total base - x - hi) (line_total base - x - lo) Hx ltac:(lra) ltac:(lra)) as W.
        apply is_RInt_swap in W.
        pose proof (is_RInt_comp_lin (extended_line base I i j x) (-1) (line_total base - x) lo hi (opp (P2 x))) as V.
        replace (-1 * lo + (line_total base - x)) with (line_total base - x - lo) in V by ring.
        replace (-1 * hi + (line_total base - x)) with (line_total base - x - hi) in V by ring. specialize (V W).
        apply is_RInt_opp in V. rewrite opp_opp in V. eapply is_RInt_ext; [|exact V]. intros s _. cbn beta.
        change (- (-1 * extended_line base I i j x (-1 * s + (line_total base - x))) = extended_line base I j k s x).
        rewrite <- (extended_turn base I i j k s x Cy). replace (-1 * s + (line_total base - x)) with (line_total base - x - s) by ring. ring. }
      rewrite <- (is_RInt_unique _ _ _ _ J2). apply RInt_le; [lra|exact (ex_slice_2 (soft_line base I j k n) Cn x lo hi)|exists (P2 x); exact J2|].
      intros s _. exact (proj2 (Jn_range i j k Cy n s x Hn)).
  Qed.
  Theorem order_le i j k N N2 : cyclic i j k -> integrates_to base I i j k N -> integrates_to base I k i j N2 -> N <= N2.
  Proof.
    intros Cy (P & HP & HN) (P2 & HP2 & HN2).
    pose proof (line_open base i j k Cy Op) as O1. set (lo := lower_limit base k) in *. set (hi := upper_limit base k) in *.
    assert (LU : lower_limit base j < upper_limit base j).
    { destruct (ends i j k Cy ((lo + hi) / 2) ltac:(fold lo hi; lra)) as (H0 & H1 & H2). lra. }
    set (D := upper_limit base j - lower_limit base j) in *. pose proof (B_nonneg i j k Cy) as B0. assert (D0 : 0 < D) by (unfold D; lra).
    apply (small_le N N2 (2 * (D * B)) ((hi - lo) / 2)); [lra|nra|]. intros d Hd.
    destruct (soft_below i j k Cy P HP N HN d Hd) as (c & C0 & Q). fold lo hi D in Q.
    replace (N2 + 2 * (D * B) * d) with (N2 + 2 * d * (D * B)) by ring.
    apply (small_le N _ ((hi - lo) * (2 * D * B)) 1); [lra|repeat apply Rmult_le_pos; lra|]. intros e He.
    apply (small_le N _ ((hi - lo) * (D * (B * / (c * e)))) 1); [lra| |].
    { assert (0 < / (c * e)) by (apply Rinv_0_lt_compat; apply Rmult_lt_0_compat; lra). repeat apply Rmult_le_pos; lra. }
    intros t Ht. assert (T0 : 0 < / t) by (apply Rinv_0_lt_compat; lra). specialize (Q (/ t) e T0 He).
    pose proof (soft_above i j k P2 N2 (/ t) Cy T0 HP2 HN2) as A. fold lo hi in A.
    replace (/ (/ t * (c * e))) with (/ (c * e) * t) in Q by (field; lra). 
    set (w := / (c * e)) in *. clearbody w. set (S0 := RInt _ lo hi) in *. clearbody S0. lra.
  Qed.
  Theorem order_irrelevant i j k i' j' k' N N' : cyclic i j k -> cyclic i' j' k' -> integrates_to base I i j k N -> integrates_to base I i' j' k' N' -> N = N'.
  Proof.
    assert (Ex : forall i j k, cyclic i j k -> exists N, integrates_to base I i j k N).
    { intros a b c Cy. destruct (rate_exists base a b c I B Cy Op HB HC) as (M & HM & _). exists M. exact HM. }
    assert (Cc : forall i j k, cyclic i j k -> cyclic k i j). { intros a b c Cy. destruct Cy as [E|[E|[E|[]]]]; injection E as <- <- <-; cbn; tauto. }
    (* once around *)
    assert (Step : forall i j k N N2, cyclic i j k -> integrates_to base I i j k N -> integrates_to base I k i j N2 -> N = N2).
    { intros a b c M M2 Cy H1 H2. destruct (Ex b c a (Cc _ _ _ (Cc _ _ _ Cy))) as (M3 & H3). apply Rle_antisym.
      - exact (order_le a b c M M2 Cy H1 H2).
      - apply Rle_trans with M3; [exact (order_le c a b M2 M3 (Cc _ _ _ Cy) H2 H3)|exact (order_le b c a M3 M (Cc _ _ _ (Cc _ _ _ Cy)) H3 H1)]. }
    intros Cy Cy' H H'.
    assert (X : (i', j', k') = (i, j, k) \/ (i', j', k') = (k, i, j) \/ (i', j', k') = (j, k, i)).
    { clear - Cy Cy'. destruct Cy as [E|[E|[E|[]]]]; injection E as <- <- <-; destruct Cy' as [E|[E|[E|[]]]]; injection E as <- <- <-; tauto. }
    destruct X as [X|[X|X]]; injection X as -> -> ->.
    - exact (rate_unique base I i j k N N' Cy Op H H').
    - exact (Step i j k N N' Cy H H').
    - symmetry. exact (Step j k i N' N Cy' H' H).
  Qed.
End Order.
