(** C123: the suggestions in the KeyError of [get_function_definition] *)
From Coq Require Import String Ascii ZArith QArith Qcanon List Bool Arith Lia Sorted Permutation.
From Verif Require Import Prelude SerFormat Difflib SpecSuggest.
Import ListNotations.
Local Open Scope nat_scope.
Local Open Scope list_scope.

(** ** Slices *)
Section Slices.
  Context {A : Type}.
  Definition slice (l : list A) (lo hi : nat) : list A := firstn (hi - lo) (skipn lo l).
  Lemma firstn_add n m (l : list A) : firstn (n + m) l = firstn n l ++ firstn m (skipn n l).
  Proof. revert l. induction n as [|n IH]; intros [|x l]; cbn; [reflexivity|reflexivity|now rewrite firstn_nil|]. now rewrite IH. Qed.
  Lemma skipn_add n m (l : list A) : skipn m (skipn n l) = skipn (n + m) l.
  Proof. revert l. induction n as [|n IH]; intros [|x l]; cbn; [reflexivity|reflexivity|now rewrite skipn_nil|]. apply IH. Qed.
  Lemma slice_split l lo m hi : lo <= m -> m <= hi -> slice l lo hi = slice l lo m ++ slice l m hi.
  Proof.
    intros P Q. unfold slice. replace (hi - lo) with ((m - lo) + (hi - m)) by lia.
    rewrite firstn_add, skipn_add. replace (lo + (m - lo)) with m by lia. reflexivity.
  Qed.
  Lemma slice_one l i x : nth_error l i = Some x -> slice l i (i + 1) = [x].
  Proof.
    unfold slice. replace (i + 1 - i) with 1 by lia. revert l. induction i as [|i IH]; intros [|y l] E; cbn in *; try discriminate.
    - now injection E as ->.
    - apply IH. exact E.
  Qed.
  Lemma slice_empty l i : slice l i i = [].
  Proof. unfold slice. now rewrite Nat.sub_diag. Qed.
  Lemma slice_all l : slice l 0 (length l) = l.
  Proof. unfold slice. rewrite Nat.sub_0_r. cbn. apply firstn_all. Qed.
End Slices.

(** ** Subsequences *)
Section Sub.
  Context {A : Type}.
  Implicit Types l c : list A.
  Lemma sub_refl l : subsequence l l.
  Proof. induction l; constructor; auto. Qed.
  Lemma sub_app c c' l l' : subsequence c l -> subsequence c' l' -> subsequence (c ++ c') (l ++ l').
  Proof.
    intros P Q. revert c P. induction l as [|x l IH]; intros c P.
    - inversion P; subst. exact Q.
    - inversion P; subst; cbn.
      + apply sub_skip. apply (IH []). constructor.
      + apply sub_take. apply IH. assumption.
      + apply sub_skip. apply IH. assumption.
  Qed.
  Lemma sub_length c l : subsequence c l -> length c <= length l.
  Proof. induction 1; cbn; lia. Qed.
  Lemma sub_tail x c l : subsequence (x :: c) l -> subsequence c l.
  Proof.
    intros P. remember (x :: c) as d eqn:E. revert x c E. induction P as [l|y d l P IH|y d l P IH]; intros x c E.
    - discriminate.
    - injection E as -> ->. apply sub_skip. exact P.
    - apply sub_skip. apply (IH x c E).
  Qed.
  Lemma sub_trans c d l : subsequence c d -> subsequence d l -> subsequence c l.
  Proof.
    intros P Q. revert c P. induction Q as [l|y d l Q IH|y d l Q IH]; intros c P.
    - inversion P; subst. constructor.
    - inversion P; subst; [constructor|apply sub_take; apply IH; assumption|apply sub_skip; apply IH; assumption].
    - apply sub_skip. apply IH. exact P.
  Qed.
End Sub.

Section Matcher.
  Context {A : Type} `{EqDec A}.
  Variables a b : list A.

  (** [a[i:i+k] == b[j:j+k]] *)
  Definition common (i j k : nat) : Prop :=
    forall t, t < k -> exists x, nth_error a (i + t) = Some x /\ nth_error b (j + t) = Some x.
  Definition unpopular (j k : nat) : Prop := forall t x, t < k -> nth_error b (j + t) = Some x -> popular b x = false.
  Lemma common_slices i j k : common i j k -> slice a i (i + k) = slice b j (j + k) /\ length (slice a i (i + k)) = k.
  Proof.
    induction k as [|k IH]; intros C.
    - rewrite !Nat.add_0_r, !slice_empty. auto.
    - destruct IH as [E L]; [intros t T; apply C; lia|].
      destruct (C k) as (x & X & Y); [lia|].
      rewrite (slice_split a i (i + k) (i + S k)) by lia. rewrite (slice_split b j (j + k) (j + S k)) by lia.
      replace (i + S k) with (i + k + 1) by lia. replace (j + S k) with (j + k + 1) by lia.
      rewrite (slice_one a (i + k) x X), (slice_one b (j + k) x Y), E. split; [reflexivity|].
      rewrite app_length. cbn. rewrite <- E, L. lia.
  Qed.

  Lemma positions_In elt j : In j (positions b elt) <-> nth_error b j = Some elt.
  Proof.
    unfold positions. rewrite filter_In, in_seq. split.
    - intros [_ P]. destruct (nth_error b j) as [x|]; [|discriminate]. apply (proj1 (Prelude.eqb_eq _ _)) in P. now subst.
    - intros P. rewrite P. split; [|apply Prelude.eqb_refl]. split; [lia|]. cbn. apply nth_error_Some. congruence.
  Qed.
  Lemma filter_sorted {B} (R : B -> B -> Prop) f l : StronglySorted R l -> StronglySorted R (filter f l).
  Proof.
    induction 1 as [|x l S IH F]; cbn; [constructor|]. destruct (f x); [|exact IH]. constructor; [exact IH|].
    rewrite Forall_forall in *. intros y Y. apply filter_In in Y. apply F, Y.
  Qed.
  Lemma seq_sorted n s : StronglySorted lt (seq s n).
  Proof.
    revert s. induction n as [|n IH]; intros s; cbn; constructor; [apply IH|].
    rewrite Forall_forall. intros x X. apply in_seq in X. lia.
  Qed.
  Lemma positions_sorted elt : StronglySorted lt (positions b elt).
  Proof. apply filter_sorted, seq_sorted. Qed.

  Section Window.
    Variables alo ahi blo bhi : nat.
    Hypothesis Wa : alo <= ahi.
    Hypothesis Wb : blo <= bhi.
    Definition valid (m : block) : Prop :=
      alo <= bl_i m /\ bl_i m + bl_k m <= ahi /\ blo <= bl_j m /\ bl_j m + bl_k m <= bhi /\ common (bl_i m) (bl_j m) (bl_k m).

    Lemma inner_facts i j2len js : StronglySorted lt js -> forall new best,
      let r := inner_loop blo bhi i j2len js new best in
      (forall j, In j js -> blo <= j -> j < bhi ->
         dget j (fst r) = Some (previous j2len j + 1) /\ previous j2len j + 1 <= bl_k (snd r)) /\
      (forall j, ~ (In j js /\ blo <= j /\ j < bhi) -> dget j (fst r) = dget j new) /\
      bl_k best <= bl_k (snd r) /\
      (snd r = best \/ exists j, In j js /\ blo <= j /\ j < bhi /\
         snd r = Block (i + 1 - (previous j2len j + 1)) (j + 1 - (previous j2len j + 1)) (previous j2len j + 1)).
    Proof.
      induction 1 as [|j js S IH F]; intros new best; cbn [inner_loop].
      { cbn. split; [intros j []|]. split; [auto|]. split; [lia|auto]. }
      rewrite Forall_forall in F.
      destruct (Nat.ltb_spec j blo) as [L|L].
      { destruct (IH new best) as (P & Q & M & B). cbn zeta. split; [|split; [|split; [exact M|]]].
        - intros x [<-|X] X1 X2; [lia|]. apply P; auto.
        - intros x X. apply Q. intros (X1 & X2 & X3). apply X. cbn. auto.
        - destruct B as [B|(x & X & B)]; [auto|right]. exists x. cbn. tauto. }
      destruct (Nat.leb_spec bhi j) as [G|G].
      { cbn. split; [|split; [auto|split; [lia|auto]]].
        intros x [<-|X] X1 X2; [lia|]. apply F in X. lia. }
      set (k := previous j2len j + 1). set (best' := if bl_k best <? k then Block (i + 1 - k) (j + 1 - k) k else best).
      destruct (IH (dset j k new) best') as (P & Q & M & B). cbn zeta.
      assert (K : k <= bl_k best' /\ bl_k best <= bl_k best').
      { unfold best'. destruct (Nat.ltb_spec (bl_k best) k); cbn; lia. }
      assert (NJ : ~ In j js). { intros I. apply F in I. lia. }
      split; [|split; [|split; [lia|]]].
      - intros x [<-|X] X1 X2.
        + rewrite Q by tauto. rewrite dget_dset. destruct (eq_dec j j); [|contradiction]. fold k. split; [reflexivity|lia].
        + apply P; auto.
      - intros x X. rewrite Q by (intros (X1 & X2 & X3); apply X; cbn; auto).
        rewrite dget_dset. destruct (eq_dec x j) as [->|]; [|reflexivity]. exfalso. apply X. cbn. auto.
      - destruct B as [B|(x & X & B)].
        + rewrite B. unfold best'. destruct (Nat.ltb_spec (bl_k best) k); [|auto]. right. exists j. cbn. fold k. auto.
        + right. exists x. cbn. tauto.
    Qed.

    (** before row [i]: the lengths of the matches that end with row [i - 1] *)
    Definition good (i : nat) (j2len : dict nat nat) : Prop := forall j n, dget j j2len = Some n ->
      alo + n <= i /\ blo + n <= j + 1 /\ j < bhi /\ common (i - n) (j + 1 - n) n.
    Definition complete (i : nat) (j2len : dict nat nat) : Prop := forall j k, 1 <= k -> alo + k <= i -> blo + k <= j + 1 ->
      j < bhi -> common (i - k) (j + 1 - k) k -> unpopular (j + 1 - k) k -> exists n, dget j j2len = Some n /\ k <= n.
    Definition longest (i : nat) (best : block) : Prop := forall i' j' k, alo <= i' -> i' + k <= i -> blo <= j' ->
      j' + k <= bhi -> common i' j' k -> unpopular j' k -> k <= bl_k best.

    Lemma previous_spec i j2len j : good i j2len -> blo <= j -> alo <= i ->
      let p := previous j2len j in alo + p <= i /\ blo + p <= j /\ common (i - p) (j - p) p.
    Proof.
      intros G L I. cbn zeta. unfold previous. destruct j as [|j].
      - split; [lia|]. split; [lia|]. intros t T. lia.
      - destruct (dget j j2len) as [n|] eqn:E.
        + destruct (G j n E) as (P & Q & R & Cm). split; [lia|]. split; [lia|].
          replace (S j - n) with (j + 1 - n) by lia. exact Cm.
        + split; [lia|]. split; [lia|]. intros t T. lia.
    Qed.

    Lemma b2j_In x j : In j (b2j b x) -> nth_error b j = Some x.
    Proof. unfold b2j. destruct (popular b x); [intros []|]. apply positions_In. Qed.
    Lemma b2j_sorted x : StronglySorted lt (b2j b x).
    Proof. unfold b2j. destruct (popular b x); [constructor|apply positions_sorted]. Qed.

    Lemma row i j2len best x : nth_error a i = Some x -> alo <= i -> i < ahi ->
      good i j2len -> complete i j2len -> valid best -> longest i best ->
      let r := inner_loop blo bhi i j2len (b2j b x) [] best in
      good (i + 1) (fst r) /\ complete (i + 1) (fst r) /\ valid (snd r) /\ longest (i + 1) (snd r).
    Proof.
      intros X I1 I2 G C V Lg r. destruct (inner_facts i j2len (b2j b x) (b2j_sorted x) [] best) as (P & Q & M & B).
      fold r in P, Q, M, B. clearbody r.
      assert (New : forall j, In j (b2j b x) -> blo <= j ->
        common (i + 1 - (previous j2len j + 1)) (j + 1 - (previous j2len j + 1)) (previous j2len j + 1)).
      { intros j J L. destruct (previous_spec i j2len j G L I1) as (P1 & P2 & P3). set (p := previous j2len j) in *.
        intros t T. destruct (Nat.eq_dec t p) as [->|].
        - exists x. replace (i + 1 - (p + 1) + p) with i by lia. replace (j + 1 - (p + 1) + p) with j by lia.
          split; [exact X|]. apply b2j_In. exact J.
        - destruct (P3 t) as (y & Y1 & Y2); [lia|]. exists y.
          replace (i + 1 - (p + 1)) with (i - p) by lia. replace (j + 1 - (p + 1)) with (j - p) by lia. auto. }
      assert (C' : complete (i + 1) (fst r)).
      { intros j k K1 K2 K3 K4 K5 K6.
        assert (Ij : In j (b2j b x)).
        { destruct (K5 (k - 1)) as (y & Y1 & Y2); [lia|].
          replace (i + 1 - k + (k - 1)) with i in Y1 by lia. assert (y = x) by congruence. subst y.
          assert (U : popular b x = false) by (apply (K6 (k - 1)); [lia|exact Y2]).
          replace (j + 1 - k + (k - 1)) with j in Y2 by lia. unfold b2j. rewrite U. apply positions_In. exact Y2. }
        destruct (P j Ij) as [P1 P2]; [lia|lia|]. exists (previous j2len j + 1). split; [exact P1|].
        destruct (Nat.eq_dec k 1) as [->|Kn]; [lia|].
        destruct j as [|j]; [lia|]. cbn [previous].
        destruct (C j (k - 1)) as (n & N1 & N2); [lia|lia|lia|lia| | |].
        - intros t T. destruct (K5 t) as (y & Y1 & Y2); [lia|]. exists y.
          replace (i - (k - 1)) with (i + 1 - k) by lia. replace (j + 1 - (k - 1)) with (S j + 1 - k) by lia. auto.
        - intros t y T Y. apply (K6 t y); [lia|]. replace (S j + 1 - k) with (j + 1 - (k - 1)) by lia. exact Y.
        - rewrite N1. lia. }
      split; [|split; [exact C'|split]].
      - intros j n E. destruct (in_dec Nat.eq_dec j (b2j b x)) as [J|J].
        + destruct (le_dec blo j) as [L|L]; [destruct (lt_dec j bhi) as [L'|L']|].
          * destruct (P j J L L') as [P1 _]. assert (n = previous j2len j + 1) by congruence. subst n.
            destruct (previous_spec i j2len j G L I1) as (P2 & P3 & _).
            split; [lia|]. split; [lia|]. split; [exact L'|]. apply New; assumption.
          * rewrite Q in E by tauto. discriminate E.
          * rewrite Q in E by tauto. discriminate E.
        + rewrite Q in E by tauto. discriminate E.
      - destruct B as [->|(j & J & L & L' & ->)]; [exact V|]. unfold valid. cbn [bl_i bl_j bl_k].
        destruct (previous_spec i j2len j G L I1) as (P2 & P3 & _).
        split; [lia|]. split; [lia|]. split; [lia|]. split; [lia|]. apply New; assumption.
      - intros i' j' k H1 H2 H3 H4 H5 H6. destruct (Nat.eq_dec (i' + k) (i + 1)) as [E|E].
        + destruct k as [|k]; [lia|]. destruct (C' (j' + k) (S k)) as (n & N1 & N2); [lia|lia|lia|lia| | |].
          * replace (i + 1 - S k) with i' by lia. replace (j' + k + 1 - S k) with j' by lia. exact H5.
          * replace (j' + k + 1 - S k) with j' by lia. exact H6.
          * destruct (in_dec Nat.eq_dec (j' + k) (b2j b x)) as [J|J].
            -- destruct (P (j' + k) J) as [P1 P2]; [lia|lia|]. assert (n = previous j2len (j' + k) + 1) by congruence. lia.
            -- rewrite Q in N1 by tauto. discriminate N1.
        + assert (k <= bl_k best) by (apply (Lg i' j' k); auto; lia). lia.
    Qed.
    Lemma outer n : forall i j2len best, alo <= i -> i + n <= ahi -> i + n <= length a ->
      good i j2len -> complete i j2len -> valid best -> longest i best ->
      let m := outer_loop a b blo bhi (seq i n) j2len best in valid m /\ longest (i + n) m.
    Proof.
      induction n as [|n IH]; intros i j2len best I1 I2 I3 G C V L; cbn [seq outer_loop].
      - rewrite Nat.add_0_r. auto.
      - destruct (nth_error a i) as [x|] eqn:X.
        + destruct (row i j2len best x X I1 ltac:(lia) G C V L) as (G' & C' & V' & L').
          replace (i + S n) with (S i + n) by lia. replace (i + 1) with (S i) in * by lia. apply IH; auto; lia.
        + apply nth_error_None in X. lia.
    Qed.

    Lemma same_at_spec i j : same_at a b i j = true -> exists x, nth_error a i = Some x /\ nth_error b j = Some x.
    Proof.
      unfold same_at. destruct (nth_error a i) as [x|]; [|discriminate]. destruct (nth_error b j) as [y|]; [|discriminate].
      intros E. apply (proj1 (Prelude.eqb_eq _ _)) in E. subst. eauto.
    Qed.
    Lemma left_facts n : forall m, valid m -> valid (extend_left a b alo blo n m) /\ bl_k m <= bl_k (extend_left a b alo blo n m).
    Proof.
      induction n as [|n IH]; intros m V; cbn [extend_left]; [auto|].
      destruct ((alo <? bl_i m) && (blo <? bl_j m) && same_at a b (bl_i m - 1) (bl_j m - 1)) eqn:E; [|auto].
      apply andb_true_iff in E. destruct E as [E S]. apply andb_true_iff in E. destruct E as [E1 E2].
      apply Nat.ltb_lt in E1, E2. apply same_at_spec in S. destruct S as (x & X & Y).
      destruct V as (V1 & V2 & V3 & V4 & V5).
      destruct (IH (Block (bl_i m - 1) (bl_j m - 1) (bl_k m + 1))) as [P Q].
      { unfold valid. cbn [bl_i bl_j bl_k]. split; [lia|]. split; [lia|]. split; [lia|]. split; [lia|].
        intros [|t] T.
        - rewrite !Nat.add_0_r. eauto.
        - destruct (V5 t) as (y & Y1 & Y2); [lia|]. exists y.
          replace (bl_i m - 1 + S t) with (bl_i m + t) by lia. replace (bl_j m - 1 + S t) with (bl_j m + t) by lia. auto. }
      split; [exact P|]. cbn in Q. lia.
    Qed.
    Lemma right_facts n : forall m, valid m -> valid (extend_right a b ahi bhi n m) /\ bl_k m <= bl_k (extend_right a b ahi bhi n m).
    Proof.
      induction n as [|n IH]; intros m V; cbn [extend_right]; [auto|].
      destruct ((bl_i m + bl_k m <? ahi) && (bl_j m + bl_k m <? bhi) && same_at a b (bl_i m + bl_k m) (bl_j m + bl_k m)) eqn:E; [|auto].
      apply andb_true_iff in E. destruct E as [E S]. apply andb_true_iff in E. destruct E as [E1 E2].
      apply Nat.ltb_lt in E1, E2. apply same_at_spec in S. destruct S as (x & X & Y).
      destruct V as (V1 & V2 & V3 & V4 & V5).
      destruct (IH (Block (bl_i m) (bl_j m) (bl_k m + 1))) as [P Q].
      { unfold valid. cbn [bl_i bl_j bl_k]. split; [lia|]. split; [lia|]. split; [lia|]. split; [lia|].
        intros t T. destruct (Nat.eq_dec t (bl_k m)) as [->|]; [eauto|]. apply V5. lia. }
      split; [exact P|]. cbn in Q. lia.
    Qed.
    Lemma match_facts : ahi <= length a ->
      let m := find_longest_match a b alo ahi blo bhi in valid m /\ longest ahi m.
    Proof.
      intros La. unfold find_longest_match.
      destruct (outer (ahi - alo) alo [] (Block alo blo 0)) as [V L]; [lia|lia|lia| | | | |].
      - intros j n E. discriminate E.
      - intros j k P Q. lia.
      - unfold valid. cbn. split; [lia|]. split; [lia|]. split; [lia|]. split; [lia|]. intros t T. lia.
      - intros i' j' k P Q. lia.
      - replace (alo + (ahi - alo)) with ahi in L by lia.
        set (m0 := outer_loop _ _ _ _ _ _ _) in *. clearbody m0.
        destruct (left_facts (length a) m0 V) as [V1 K1]. set (m1 := extend_left _ _ _ _ _ m0) in *. clearbody m1.
        destruct (right_facts (length a) m1 V1) as [V2 K2]. cbn zeta. split; [exact V2|].
        intros i' j' k P1 P2 P3 P4 P5 P6. specialize (L i' j' k P1 P2 P3 P4 P5 P6). lia.
    Qed.
  End Window.

  (** ** The sum of the sizes *)
  Definition window := (nat * nat * nat * nat)%type.
  Definition in_range (w : window) : Prop :=
    let '(alo, ahi, blo, bhi) := w in alo <= ahi /\ ahi <= length a /\ blo <= bhi /\ bhi <= length b.
  Definition common_sub (w : window) (n : nat) : Prop :=
    let '(alo, ahi, blo, bhi) := w in
    exists c, subsequence c (slice a alo ahi) /\ subsequence c (slice b blo bhi) /\ length c = n.
  Fixpoint total (ns : list nat) : nat := match ns with [] => 0 | n :: ns => n + total ns end.
  Definition size (w : window) : nat := let '(alo, ahi, _, _) := w in 2 * (ahi - alo) + 1.
  Lemma common_sub_0 w : common_sub w 0.
  Proof. destruct w as [[[alo ahi] blo] bhi]. exists []. repeat split; constructor. Qed.

  Lemma loop_total fuel : forall queue sum, Forall in_range queue -> total (map size queue) <= fuel ->
    exists n, matches_loop a b fuel queue sum = Ok n.
  Proof.
    induction fuel as [|fuel IH]; intros [|[[[alo ahi] blo] bhi] queue] sum F T; cbn [matches_loop]; try (eexists; reflexivity).
    - cbn in T. lia.
    - inversion F as [|? ? R F']; subst. cbn [in_range] in R. destruct R as (R1 & R2 & R3 & R4). cbn [map total size] in T.
      destruct (match_facts alo ahi blo bhi R1 R3 R2) as [(V1 & V2 & V3 & V4 & _) _].
      set (m := find_longest_match a b alo ahi blo bhi) in *. clearbody m.
      destruct (Nat.eqb_spec (bl_k m) 0) as [K|K]; [apply IH; [exact F'|lia]|].
      destruct ((alo <? bl_i m) && (blo <? bl_j m)) eqn:E1; destruct ((bl_i m + bl_k m <? ahi) && (bl_j m + bl_k m <? bhi)) eqn:E2;
        apply IH; repeat (apply Forall_cons; [cbn [in_range]; lia|]); try exact F'; cbn [map total size]; lia.
  Qed.
  Lemma loop_sum fuel : forall queue sum n, Forall in_range queue -> matches_loop a b fuel queue sum = Ok n ->
    exists ns, n = sum + total ns /\ Forall2 common_sub queue ns.
  Proof.
    induction fuel as [|fuel IH]; intros [|[[[alo ahi] blo] bhi] queue] sum n F E; cbn [matches_loop] in E.
    - injection E as <-. exists []. split; [cbn; lia|constructor].
    - discriminate E.
    - injection E as <-. exists []. split; [cbn; lia|constructor].
    - inversion F as [|? ? R F']; subst. cbn [in_range] in R. destruct R as (R1 & R2 & R3 & R4).
      destruct (match_facts alo ahi blo bhi R1 R3 R2) as [(V1 & V2 & V3 & V4 & V5) _].
      set (m := find_longest_match a b alo ahi blo bhi) in *. clearbody m.
      destruct (Nat.eqb_spec (bl_k m) 0) as [K|K].
      { destruct (IH _ _ _ F' E) as (ns & -> & N). exists (0 :: ns). split; [reflexivity|]. constructor; [|exact N].
        apply (common_sub_0 (alo, ahi, blo, bhi)). }
      assert (Join : forall n1 n2, common_sub (alo, bl_i m, blo, bl_j m) n1 ->
        common_sub (bl_i m + bl_k m, ahi, bl_j m + bl_k m, bhi) n2 -> common_sub (alo, ahi, blo, bhi) (bl_k m + n1 + n2)).
      { intros n1 n2 (c1 & P1 & Q1 & L1) (c2 & P2 & Q2 & L2). destruct (common_slices _ _ _ V5) as [SE SL].
        exists (c1 ++ slice a (bl_i m) (bl_i m + bl_k m) ++ c2). split; [|split].
        - rewrite (slice_split a alo (bl_i m) ahi) by lia. rewrite (slice_split a (bl_i m) (bl_i m + bl_k m) ahi) by lia.
          apply sub_app; [exact P1|]. apply sub_app; [apply sub_refl|exact P2].
        - rewrite (slice_split b blo (bl_j m) bhi) by lia. rewrite (slice_split b (bl_j m) (bl_j m + bl_k m) bhi) by lia.
          apply sub_app; [exact Q1|]. apply sub_app; [rewrite SE; apply sub_refl|exact Q2].
        - rewrite !app_length, SL. lia. }
      assert (Z1 := common_sub_0 (alo, bl_i m, blo, bl_j m)).
      assert (Z2 := common_sub_0 (bl_i m + bl_k m, ahi, bl_j m + bl_k m, bhi)).
      destruct ((alo <? bl_i m) && (blo <? bl_j m)) eqn:E1; destruct ((bl_i m + bl_k m <? ahi) && (bl_j m + bl_k m <? bhi)) eqn:E2;
        (apply IH in E; [|repeat (apply Forall_cons; [cbn [in_range]; lia|]); exact F']); destruct E as (ns & -> & N).
      + inversion N as [|? n2 ? ? N2 N']; subst. inversion N' as [|? n1 ? ? N1 N'']; subst.
        eexists (_ :: _). split; [|constructor; [apply (Join n1 n2 N1 N2)|exact N'']]. cbn [total]. lia.
      + inversion N as [|? n1 ? ? N1 N'']; subst.
        eexists (_ :: _). split; [|constructor; [apply (Join n1 0 N1 Z2)|exact N'']]. cbn [total]. lia.
      + inversion N as [|? n2 ? ? N2 N'']; subst.
        eexists (_ :: _). split; [|constructor; [apply (Join 0 n2 Z1 N2)|exact N'']]. cbn [total]. lia.
      + eexists (_ :: _). split; [|constructor; [apply (Join 0 0 Z1 Z2)|exact N]]. cbn [total]. lia.
  Qed.

  Lemma whole_range : Forall in_range [(0, length a, 0, length b)].
  Proof. constructor; [|constructor]. cbn. lia. Qed.
  Lemma matches_ok : exists n, matches a b = Ok n.
  Proof. unfold matches. apply loop_total; [exact whole_range|]. cbn [map total size]. lia. Qed.
  Lemma matches_sub n : matches a b = Ok n -> exists c, subsequence c a /\ subsequence c b /\ length c = n.
  Proof.
    unfold matches. intros E. apply loop_sum in E; [|exact whole_range]. destruct E as (ns & -> & N).
    inversion N as [|? n ? ? X N']; subst. inversion N'; subst. destruct X as (c & P & Q & L). cbn [total].
    exists c. rewrite slice_all in P, Q. split; [exact P|]. split; [exact Q|]. lia.
  Qed.
  (** A common part of the two is found *)
  Lemma matches_part i j k n : matches a b = Ok n -> i + k <= length a -> j + k <= length b -> common i j k -> unpopular j k -> k <= n.
  Proof.
    unfold matches. intros E P Q C U. cbn [matches_loop] in E. replace (2 * length a + 2) with (S (2 * length a + 1)) in E by lia.
    cbn [matches_loop] in E.
    destruct (match_facts 0 (length a) 0 (length b) (Nat.le_0_l _) (Nat.le_0_l _) (le_n _)) as [(V1 & V2 & V3 & V4 & V5) L].
    set (m := find_longest_match a b 0 (length a) 0 (length b)) in *. clearbody m.
    specialize (L i j k (Nat.le_0_l _) P (Nat.le_0_l _) Q C U).
    destruct (Nat.eqb_spec (bl_k m) 0) as [K|K]; [lia|].
    match type of E with matches_loop _ _ _ ?q _ = _ => assert (F : Forall in_range q) end.
    { destruct ((0 <? bl_i m) && (0 <? bl_j m)); destruct ((bl_i m + bl_k m <? length a) && (bl_j m + bl_k m <? length b));
        repeat (apply Forall_cons; [cbn [in_range]; lia|]); constructor. }
    apply loop_sum in E; [|exact F]. destruct E as (ns & -> & _). lia.
  Qed.

  (** ** The quick tests exclude nothing *)
  Definition count (x : A) (l : list A) : nat := length (filter (fun y => eqb y x) l).
  Lemma remove_one x (c l : list A) : subsequence c l -> exists d, subsequence d l /\ length c <= S (length d) /\
    count x d <= count x c - 1 /\ forall y, count y d <= count y c.
  Proof.
    intros P. induction P as [l|y c l P IH|y c l P IH].
    - exists []. split; [constructor|]. cbn. repeat split; lia.
    - unfold count in *. cbn [filter]. destruct (Prelude.eqb y x) eqn:E.
      + exists c. split; [apply sub_skip; exact P|]. cbn [length]. split; [lia|]. split; [lia|].
        intros z. destruct (Prelude.eqb y z); cbn [length]; lia.
      + destruct IH as (d & D1 & D2 & D3 & D4). exists (y :: d). split; [apply sub_take; exact D1|].
        cbn [filter length]. rewrite E. split; [lia|]. split; [exact D3|].
        intros z. specialize (D4 z). destruct (Prelude.eqb y z); cbn [length]; lia.
    - destruct IH as (d & D1 & D2 & D3 & D4). exists d. split; [apply sub_skip; exact D1|]. auto.
  Qed.
  Lemma quick_bound l : forall avail c, subsequence c l -> (forall x, Z.of_nat (count x c) <= Z.max 0 (avail x))%Z ->
    length c <= quick_loop l avail.
  Proof.
    induction l as [|x l IH]; intros avail c P B.
    - inversion P; subst. cbn. lia.
    - cbn [quick_loop].
      assert (Use : forall d, subsequence d l -> (forall y, Z.of_nat (count y d) <= Z.max 0 (avail y))%Z ->
        (Z.of_nat (count x d) <= Z.max 0 (avail x - 1))%Z ->
        length d <= quick_loop l (fun y => if eqb y x then (avail x - 1)%Z else avail y)).
      { intros d D1 D2 D3. apply IH; [exact D1|]. intros y. destruct (Prelude.eqb y x) eqn:E; [|apply D2].
        apply (proj1 (Prelude.eqb_eq _ _)) in E. subst. exact D3. }
      inversion P as [|? c' ? P'|? ? ? P']; subst.
      + cbn. lia.
      + assert (Bx := B x). unfold count in Bx. cbn [filter] in Bx. rewrite Prelude.eqb_refl in Bx. cbn [length] in Bx.
        assert (U : length c' <= quick_loop l (fun y => if eqb y x then (avail x - 1)%Z else avail y)).
        { apply Use; [exact P'| |unfold count; lia]. intros y. specialize (B y). unfold count in *. cbn [filter] in B.
          destruct (Prelude.eqb x y); cbn [length] in B; lia. }
        cbn [length]. destruct (Z.ltb_spec 0 (avail x)); lia.
      + destruct (Z.ltb_spec 0 (avail x)) as [L|L].
        * destruct (remove_one x c l P') as (d & D1 & D2 & D3 & D4).
          assert (U : length d <= quick_loop l (fun y => if eqb y x then (avail x - 1)%Z else avail y)).
          { apply Use; [exact D1| |specialize (B x); lia]. intros y. specialize (B y). specialize (D4 y). lia. }
          lia.
        * apply Use; [exact P'|exact B|]. specialize (B x). lia.
  Qed.
  Lemma sub_count x (c l : list A) : subsequence c l -> count x c <= count x l.
  Proof. unfold count. induction 1 as [l|y c l P IH|y c l P IH]; cbn [filter]; [cbn; lia| |]; destruct (Prelude.eqb y x); cbn [length]; lia. Qed.
  Lemma quick_matches n : matches a b = Ok n -> n <= quick_loop a (fullbcount b) /\ n <= Nat.min (length a) (length b).
  Proof.
    intros E. apply matches_sub in E. destruct E as (c & P & Q & <-). split.
    - apply quick_bound; [exact P|]. intros x. apply (sub_count x) in Q. unfold fullbcount. unfold count in *. lia.
    - apply sub_length in P. apply sub_length in Q. lia.
  Qed.
End Matcher.
