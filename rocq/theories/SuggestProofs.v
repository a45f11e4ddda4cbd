(** C123: the suggestions in the KeyError of [get_function_definition] *)
From Coq Require Import String Ascii ZArith QArith Qcanon List Bool Arith Lia Sorted Permutation NArith.
From Verif Require Import Prelude SerFormat Difflib SpecSuggest DifflibFacts.
Import ListNotations.
Local Open Scope nat_scope.
Local Open Scope list_scope.

Lemma Qc_leb_Qle a b : Qc_leb a b = true <-> (a <= b)%Qc.
Proof.
  unfold Qc_leb, Qccompare, Qcle. rewrite Qle_alt. destruct (this a ?= this b)%Q; split; intros E; try discriminate; try reflexivity.
  now contradiction E.
Qed.
Lemma ratio_cutoff m n : Qc_leb cutoff (calculate_ratio m n) = true <-> n = 0 \/ 3 * n <= 10 * m.
Proof.
  rewrite Qc_leb_Qle. unfold calculate_ratio, cutoff. destruct n as [|n].
  - split; [auto|]. intros _. unfold Qcle. cbn. discriminate.
  - unfold Qcle, Q2Qc, this. rewrite !Qred_correct. unfold Qle. cbn [Qnum Qden].
    rewrite !Zpos_P_of_succ_nat. lia.
Qed.
Global Instance CmpLaws_score : CmpLaws Qc.
Proof.
  split; unfold cmp, Cmp_score, Qccompare; intros.
  - split.
    + intros E. injection E as E. apply Qc_is_canon. apply Qeq_alt. exact E.
    + intros ->. f_equal. apply Qeq_alt. reflexivity.
  - injection H as <-. f_equal. symmetry. apply Qcompare_antisym.
  - injection H as E. injection H0 as E'. f_equal. apply Qlt_alt. apply Qlt_trans with (this b); apply Qlt_alt; assumption.
Qed.
Lemma all_comparable (l : list (Qc * string)) : comparable l.
Proof.
  intros [q x] [q' x'] _ _. unfold cmp, Cmp_prod, cmp_then. cbn. unfold cmp, Cmp_score, Cmp_string.
  destruct (q ?= q')%Qc; eexists; reflexivity.
Qed.
Lemma strings_comparable (l : list string) : comparable l.
Proof. intros x y _ _. eexists; reflexivity. Qed.

Definition chars := list_ascii_of_string.
Lemma chars_length s : length (chars s) = String.length s.
Proof. induction s; cbn; auto. Qed.
(** The value of [matches] and the names above the cutoff *)
Definition found (x word : string) : nat := match matches (chars x) (chars word) with Ok n => n | Err _ => 0 end.
Lemma found_ok x word : matches (chars x) (chars word) = Ok (found x word).
Proof. unfold found. destruct (matches_ok (chars x) (chars word)) as (n & ->). reflexivity. Qed.
Definition above (word x : string) : bool :=
  Qc_leb cutoff (calculate_ratio (found x word) (length (chars x) + length (chars word))).
Definition score (word x : string) : Qc := calculate_ratio (found x word) (length (chars x) + length (chars word)).
Lemma above_spec word x : above word x = true <->
  String.length x + String.length word = 0 \/ 3 * (String.length x + String.length word) <= 10 * found x word.
Proof. unfold above. rewrite ratio_cutoff, !chars_length. reflexivity. Qed.

Lemma scores_value word ps : scores word ps = Ok (map (fun x => (score word x, x)) (filter (above word) ps)).
Proof.
  induction ps as [|x ps IH]; cbn [scores filter map]; [reflexivity|]. fold (chars x) (chars word).
  unfold ratio. rewrite found_ok. cbn [bind]. rewrite IH. cbn [bind]. fold (score word x).
  destruct (quick_matches _ _ _ (found_ok x word)) as [Q1 Q2].
  assert (Mono : forall m, found x word <= m -> above word x = true ->
    Qc_leb cutoff (calculate_ratio m (length (chars x) + length (chars word))) = true).
  { intros m L E. unfold above in E. apply ratio_cutoff in E. apply ratio_cutoff. lia. }
  fold (above word x). destruct (above word x) eqn:E.
  - unfold real_quick_ratio, quick_ratio. rewrite (Mono _ Q2 eq_refl), (Mono _ Q1 eq_refl). cbn [andb].
    unfold score. unfold above in E. rewrite E. reflexivity.
  - unfold score. unfold above in E. rewrite E. destruct (_ && _); reflexivity.
Qed.

Lemma firstn_In {A} n (l : list A) x : In x (firstn n l) -> In x l.
Proof. intros I. rewrite <- (firstn_skipn n l). apply in_app_iff. auto. Qed.
Lemma firstn_NoDup {A} n (l : list A) : NoDup l -> NoDup (firstn n l).
Proof.
  intros N. revert n. induction N as [|x l X N IH]; intros [|n]; cbn; constructor; [|apply IH].
  intros I. apply firstn_In in I. contradiction.
Qed.
Lemma sorted_split {A} (R : A -> A -> Prop) l l' : StronglySorted R (l ++ l') -> forall x y, In x l -> In y l' -> R x y.
Proof.
  induction l as [|z l IH]; cbn; intros S x y [] Y; inversion S as [|? ? S' F]; subst.
  - rewrite Forall_forall in F. apply F, in_app_iff. auto.
  - apply IH; assumption.
Qed.
Lemma cle_score (p q : Qc * string) : cle p q -> (fst p <= fst q)%Qc.
Proof.
  intros [E| ->]; [|apply Qcle_refl]. unfold cmp, Cmp_prod, cmp_then in E. unfold cmp, Cmp_score in E.
  apply Qcle_alt. unfold Qccompare in *. destruct (this (fst p) ?= this (fst q))%Q; discriminate.
Qed.
Lemma close_matches word ps : NoDup ps -> exists cs, get_close_matches word ps = Ok cs /\ NoDup cs /\ length cs <= 3 /\
  (forall c, In c cs -> In c ps /\ above word c = true) /\
  (forall c, In c ps -> above word c = true -> In c cs \/ length cs = 3) /\
  (forall c d, In c cs -> In d ps -> ~ In d cs -> (score word d <= score word c)%Qc).
Proof.
  intros N. unfold get_close_matches. rewrite scores_value. cbn [bind]. set (l := map _ _).
  destruct (sorted_ok l (all_comparable l)) as [r R]. rewrite R. cbn [bind].
  assert (P := sorted_perm _ _ R).
  assert (S : map snd l = filter (above word) ps) by (unfold l; rewrite map_map; cbn; apply map_id).
  assert (P' : Permutation (filter (above word) ps) (map snd (rev r))).
  { rewrite <- S. apply Permutation_map. rewrite P. apply Permutation_rev. }
  exists (map snd (firstn 3 (rev r))). split; [reflexivity|].
  assert (Best : forall c d, In c (map snd (firstn 3 (rev r))) -> In d ps -> ~ In d (map snd (firstn 3 (rev r))) ->
    (score word d <= score word c)%Qc).
  { assert (In_r : forall p, In p (rev r) -> p = (score word (snd p), snd p) /\ In (snd p) ps /\ above word (snd p) = true).
    { intros p I. apply in_rev in I. apply (Permutation_in _ (Permutation_sym P)) in I. apply in_map_iff in I.
      destruct I as (x & <- & I). apply filter_In in I. auto. }
    intros c d C D ND. apply in_map_iff in C. destruct C as (p & <- & C).
    assert (Ip := C). apply firstn_In in Ip. destruct (In_r p Ip) as (Ep & _ & Ac).
    destruct (above word d) eqn:Ad.
    - assert (Id : In (score word d, d) (rev r)).
      { apply in_rev. rewrite rev_involutive. apply (Permutation_in _ P). apply in_map_iff. exists d. split; [reflexivity|].
        apply filter_In. auto. }
      rewrite <- (firstn_skipn 3 (rev r)) in Id. apply in_app_iff in Id. destruct Id as [Id|Id].
      { exfalso. apply ND. apply in_map_iff. exists (score word d, d). auto. }
      assert (So := sorted_sorted _ _ R).
      assert (E : r = rev (skipn 3 (rev r)) ++ rev (firstn 3 (rev r))).
      { rewrite <- rev_app_distr, firstn_skipn, rev_involutive. reflexivity. }
      rewrite E in So. assert (Q := sorted_split _ _ _ So (score word d, d) p).
      rewrite <- !in_rev in Q. specialize (Q Id C). apply cle_score in Q. rewrite Ep in Q. exact Q.
    - unfold above in Ad, Ac. fold (score word d) in Ad. fold (score word (snd p)) in Ac. apply Qc_leb_Qle in Ac.
      apply Qcle_trans with cutoff; [|exact Ac]. apply Qclt_le_weak, Qcnot_le_lt. intros B. apply Qc_leb_Qle in B. congruence. }
  revert Best. rewrite <- firstn_map. set (names := map snd (rev r)) in *. clearbody names. intros Best.
  assert (Nn : NoDup names) by (apply (Permutation_NoDup P'), NoDup_filter, N).
  split; [|split; [|split; [|split; [|exact Best]]]].
  - apply firstn_NoDup. exact Nn.
  - apply firstn_le_length.
  - intros c C. apply firstn_In in C. apply (Permutation_in _ (Permutation_sym P')) in C. apply filter_In in C. exact C.
  - intros c C A. assert (I : In c names) by (apply (Permutation_in _ P'), filter_In; auto).
    destruct (le_lt_dec 3 (length names)) as [L|L]; [right; apply firstn_length_le; exact L|left].
    rewrite firstn_all2 by lia. exact I.
Qed.
Lemma close_matches_perm word ps ps' : Permutation ps ps' -> get_close_matches word ps = get_close_matches word ps'.
Proof.
  intros P. unfold get_close_matches. rewrite !scores_value. cbn [bind]. set (l := map _ (filter _ ps)). set (l' := map _ (filter _ ps')).
  assert (PL : Permutation l l').
  { apply Permutation_map. clear l l'. induction P; cbn; [constructor| | |].
    - destruct (above word x); auto.
    - destruct (above word x), (above word y); auto using perm_swap.
    - etransitivity; eauto. }
  destruct (sorted_ok l (all_comparable l)) as [r R]. destruct (sorted_ok l' (all_comparable l')) as [r' R'].
  rewrite R, R'. cbn [bind]. rewrite (sorted_unique l l' r r' R R' PL). reflexivity.
Qed.

(** ** The text *)
Lemma compare_scmp s : forall t, scmp s t = String.compare s t.
Proof.
  induction s as [|x s IH]; intros [|y t]; cbn; try reflexivity. rewrite IH.
  unfold Ascii.compare, ascii_code. rewrite N2Z.inj_compare. reflexivity.
Qed.
Lemma sjoin_concat sep l : sjoin sep l = String.concat sep l.
Proof. induction l as [|x [|y l] IH]; cbn [sjoin String.concat] in *; [reflexivity|reflexivity|]. rewrite IH. reflexivity. Qed.
Lemma sapp_nil s : (s ++ "")%string = s.
Proof. induction s; cbn; congruence. Qed.
Lemma sapp_assoc s t u : ((s ++ t) ++ u)%string = (s ++ t ++ u)%string.
Proof. induction s; cbn; congruence. Qed.
Lemma repr_char_plain c : 32 <= nat_of_ascii c -> nat_of_ascii c < 127 -> c <> "'"%char -> c <> "\"%char ->
  repr_char single_quote c = String c EmptyString.
Proof.
  intros L U Q B. unfold repr_char. change single_quote with "'"%char. change backslash with "\"%char.
  apply Ascii.eqb_neq in Q, B. rewrite Q, B. cbn [orb].
  set (n := nat_of_ascii c) in *. clearbody n.
  destruct (Nat.eqb_spec n 9); [lia|]. destruct (Nat.eqb_spec n 10); [lia|]. destruct (Nat.eqb_spec n 13); [lia|].
  unfold not_printable. destruct (Nat.ltb_spec n 32); [lia|]. destruct (Nat.leb_spec 127 n); [lia|].
  destruct (Nat.eqb_spec n 173); [lia|]. reflexivity.
Qed.
Lemma repr_plain name : plain name -> repr_text name = ("'" ++ name ++ "'")%string.
Proof.
  intros P. unfold repr_text. fold (chars name).
  assert (NQ : existsb (Ascii.eqb single_quote) (chars name) = false).
  { apply not_true_is_false. intros E. apply existsb_exists in E. destruct E as (c & I & E). apply Ascii.eqb_eq in E. subst c.
    destruct (P _ I) as (_ & _ & Q & _). apply Q. reflexivity. }
  rewrite NQ. cbn [andb]. change single_quote with "'"%char at 1 3.
  assert (M : sjoin "" (map (repr_char single_quote) (chars name)) = name).
  { rewrite (map_ext_in _ (fun c => String c EmptyString)).
    - clear. induction name as [|c s IH]; [reflexivity|]. cbn [chars list_ascii_of_string map]. fold (chars s).
      destruct s as [|d s]; [reflexivity|]. cbn [chars list_ascii_of_string map sjoin] in *. fold (chars s) in *.
      cbn [String.append]. f_equal. exact IH.
    - intros c I. destruct (P c I) as (P1 & P2 & P3 & P4). apply repr_char_plain; assumption. }
  rewrite M. reflexivity.
Qed.

(** ** Parts of a text *)
Lemma chars_app x y : chars (x ++ y) = chars x ++ chars y.
Proof. unfold chars. induction x as [|c x IH]; cbn; [reflexivity|]. rewrite IH. reflexivity. Qed.
Lemma short_unpopular b j k : length b < 200 -> @unpopular ascii _ b j k.
Proof. intros L t x _ _. unfold popular. destruct (Nat.leb_spec 200 (length b)); [lia|reflexivity]. Qed.
Lemma part_found x word : String.length word < 200 -> part_of x word -> String.length x <= found x word.
Proof.
  intros L (u & v & ->). rewrite <- chars_length in *. apply (matches_part _ _ 0 (length (chars u)) _ _ (found_ok _ _)).
  - lia.
  - rewrite !chars_app, !app_length. lia.
  - intros t T. rewrite !chars_app. cbn [Nat.add]. destruct (nth_error (chars x) t) as [c|] eqn:E.
    + exists c. split; [reflexivity|]. rewrite nth_error_app2 by lia. replace (length (chars u) + t - length (chars u)) with t by lia.
      rewrite nth_error_app1; assumption.
    + apply nth_error_None in E. lia.
  - apply short_unpopular. exact L.
Qed.
Lemma whole_found x word : String.length word < 200 -> part_of word x -> String.length word <= found x word.
Proof.
  intros L (u & v & ->). rewrite <- chars_length in *. apply (matches_part _ _ (length (chars u)) 0 _ _ (found_ok _ _)).
  - rewrite !chars_app, !app_length. lia.
  - lia.
  - intros t T. rewrite !chars_app. cbn [Nat.add]. destruct (nth_error (chars word) t) as [c|] eqn:E.
    + exists c. split; [|reflexivity]. rewrite nth_error_app2 by lia. replace (length (chars u) + t - length (chars u)) with t by lia.
      rewrite nth_error_app1; assumption.
    + apply nth_error_None in E. lia.
  - apply short_unpopular. exact L.
Qed.
Lemma above_similar word x : above word x = true -> similar x word.
Proof.
  intros A. apply above_spec in A. destruct (matches_sub _ _ _ (found_ok x word)) as (c & P & Q & L).
  exists c. split; [exact P|]. split; [exact Q|]. lia.
Qed.

(** ** Literals *)
Lemma repr_char_reads q c l v : q = "'"%char \/ q = """"%char -> reads q l v -> reads q (list_ascii_of_string (repr_char q c) ++ l) (c :: v).
Proof.
  intros Hq H.
  assert (P : forall d, printable d -> d <> q -> d <> "\"%char -> reads q (d :: l) (d :: v)) by (intros; apply reads_plain; assumption).
  assert (X : forall a b x y, hex_value a x -> hex_value b y -> reads q ("\"%char :: "x"%char :: a :: b :: l) (ascii_of_nat (16 * x + y) :: v)) by (intros; apply reads_hex; assumption).
  destruct Hq as [-> | ->]; destruct c as [[] [] [] [] [] [] [] []];
  first
   [ apply reads_tab; exact H | apply reads_newline; exact H | apply reads_return; exact H
   | apply reads_escaped; [left; reflexivity|exact H] | apply reads_escaped; [right; reflexivity|exact H]
   | apply P; [vm_compute; lia|discriminate|discriminate]
   | match goal with |- reads _ _ (?c :: _) => apply (X (hex_digit (nat_of_ascii c / 16)) (hex_digit (nat_of_ascii c mod 16)) (nat_of_ascii c / 16) (nat_of_ascii c mod 16)); reflexivity end ].
Qed.
Lemma repr_chars_reads q cs : q = "'"%char \/ q = """"%char ->
  reads q (chars (sjoin "" (map (repr_char q) cs)) ++ [q]) cs.
Proof.
  intros Hq. induction cs as [|c cs IH]; [apply reads_end|].
  assert (E : sjoin "" (map (repr_char q) (c :: cs)) = (repr_char q c ++ sjoin "" (map (repr_char q) cs))%string).
  { cbn [map]. destruct cs as [|d cs]; [cbn [map sjoin]; symmetry; apply sapp_nil|reflexivity]. }
  rewrite E, chars_app, <- app_assoc. apply repr_char_reads; assumption.
Qed.
Lemma has_char c s : existsb (Ascii.eqb c) s = true <-> In c s.
Proof.
  rewrite existsb_exists. split; [intros (x & I & E); apply Ascii.eqb_eq in E; subst x; exact I|intros I; exists c; split; [exact I|apply Ascii.eqb_refl]].
Qed.
Lemma repr_literal name : literal (repr_text name) name.
Proof.
  unfold literal, repr_text. fold (chars name). set (q := if existsb (Ascii.eqb single_quote) (chars name) && negb (existsb (Ascii.eqb double_quote) (chars name)) then double_quote else single_quote).
  assert (Q : (q = """"%char /\ In "'"%char (chars name) /\ ~ In """"%char (chars name)) \/ (q = "'"%char /\ (In "'"%char (chars name) -> In """"%char (chars name)))).
  { unfold q. rewrite <- !has_char. change single_quote with "'"%char. change double_quote with """"%char.
    destruct (existsb (Ascii.eqb "'") (chars name)), (existsb (Ascii.eqb """") (chars name)); cbn [andb negb].
    - right. split; [reflexivity|auto].
    - left. repeat split; auto.
    - right. split; [reflexivity|auto].
    - right. split; [reflexivity|auto]. }
  exists q, (chars (sjoin "" (map (repr_char q) (chars name))) ++ [q]). split; [|split; [|exact Q]].
  - fold (chars (String q (sjoin "" (map (repr_char q) (chars name))) ++ String q EmptyString)). rewrite chars_app. reflexivity.
  - apply repr_chars_reads. destruct Q as [[E _]|[E _]]; auto.
Qed.

Theorem c123_text name m names : lists_functions names m ->
  exists lit suggestions, missing_function_message name names = Ok (missing_text lit suggestions) /\
    literal lit name /\ (plain name -> lit = ("'" ++ name ++ "'")%string) /\
    length suggestions <= 3 /\ StronglySorted (fun x y => String.ltb x y = true) suggestions /\
    (forall x, In x suggestions -> (exists f, In f (md_functions m) /\ fd_name f = x) /\ similar x name) /\
    (forall f, In f (md_functions m) -> String.length name < 200 ->
       (part_of name (fd_name f) /\ 3 * String.length (fd_name f) <= 7 * String.length name) \/
       (part_of (fd_name f) name /\ 3 * String.length name <= 7 * String.length (fd_name f)) ->
       In (fd_name f) suggestions \/ length suggestions = 3) /\
    (forall x f q q', In x suggestions -> In f (md_functions m) -> ~ In (fd_name f) suggestions ->
       ratio (list_ascii_of_string x) (list_ascii_of_string name) = Ok q ->
       ratio (list_ascii_of_string (fd_name f)) (list_ascii_of_string name) = Ok q' -> (q' <= q)%Qc).
Proof.
  intros [N F]. destruct (close_matches name names N) as (cs & C & Nc & L & S & K & Best).
  destruct (sorted_ok cs (strings_comparable cs)) as [r R]. assert (Pr := sorted_perm _ _ R).
  exists (repr_text name), r. unfold missing_function_message. rewrite C. cbn [bind].
  rewrite <- (Permutation_length Pr). split; [|split; [apply repr_literal|split; [apply repr_plain|split; [exact L|split; [|split; [|split]]]]]].
  - unfold missing_text. destruct cs as [|c cs].
    + apply Permutation_nil in Pr. subst r. rewrite ?sapp_assoc. reflexivity.
    + rewrite R. cbn [bind]. destruct r as [|d r]; [apply Permutation_sym, Permutation_nil in Pr; discriminate|].
      rewrite sjoin_concat, ?sapp_assoc. reflexivity.
  - assert (Q : StronglySorted clt r).
    { apply sorted_NoDup_strict; [eapply sorted_sorted; exact R|apply (Permutation_NoDup Pr Nc)]. }
    clear -Q. induction Q as [|x l Q IH Fx]; constructor; [exact IH|]. rewrite Forall_forall in *. intros y Y. specialize (Fx y Y).
    unfold clt, cmp, Cmp_string in Fx. injection Fx as Fx. rewrite compare_scmp in Fx. unfold String.ltb. rewrite Fx. reflexivity.
  - intros x X. apply (Permutation_in _ (Permutation_sym Pr)) in X. apply S in X. destruct X as [X A].
    split; [apply F; exact X|apply above_similar; exact A].
  - intros f I L' H. assert (In (fd_name f) names) by (apply F; eauto).
    destruct (K (fd_name f)) as [I'|E]; [assumption| |left; apply (Permutation_in _ Pr); exact I'|right; exact E].
    apply above_spec. destruct H as [[H B]|[H B]].
    + apply whole_found in H; [|exact L']. lia.
    + apply part_found in H; [|exact L']. lia.
  - intros x f q q' X I NI. fold (chars x) (chars name) (chars (fd_name f)). unfold ratio. rewrite !found_ok. cbn [bind].
    intros E E'. injection E as <-. injection E' as <-. apply Best.
    + apply (Permutation_in _ (Permutation_sym Pr)). exact X.
    + apply F. eauto.
    + intros X'. apply NI. apply (Permutation_in _ Pr). exact X'.
Qed.

Theorem c123_order name m m' names names' : lists_functions names m -> lists_functions names' m' ->
  (forall n, (exists f, In f (md_functions m) /\ fd_name f = n) <-> (exists f, In f (md_functions m') /\ fd_name f = n)) ->
  missing_function_message name names = missing_function_message name names'.
Proof.
  intros [N F] [N' F'] E. unfold missing_function_message. rewrite (close_matches_perm name names names'); [reflexivity|].
  apply NoDup_Permutation; [exact N|exact N'|]. intros x. rewrite F, F'. apply E.
Qed.
