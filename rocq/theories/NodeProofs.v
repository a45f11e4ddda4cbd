(** Proofs of C90 (LaTeX of nodes and chains) and C91 (construction of particles, couplings and nodes) *)
From Coq Require Import String Ascii ZArith QArith Qcanon List Bool Lia.
From Verif Require Import Prelude Spin Decay IO SpecIO IOProofs IOFloat IOTables IOLatex SpecNodes QrulesConvert SpecQrules.
Import ListNotations.
Local Open Scope list_scope.
Local Open Scope string_scope.
Local Open Scope Z_scope.

(** ** C91 *)
Lemma halves_spec z (q : Qc) : q = halves z <-> (Qc_of_Z z = Qc_of_Z 2 * q)%Qc.
Proof.
  unfold halves. split.
  - intros ->. apply Qc_is_canon. unfold Qcmult, Qc_of_Z, Q2Qc. cbn [this]. rewrite !Qred_correct.
    unfold Qeq, Qmult, inject_Z. cbn [Qnum Qden]. lia.
  - intros E. apply (f_equal this) in E.
    assert (F : (Qc_of_Z z == Qc_of_Z 2 * q)%Q) by (rewrite E; unfold Qcmult, Q2Qc; cbn [this]; apply Qred_correct).
    apply Qc_is_canon. unfold Q2Qc. cbn [this]. rewrite Qred_correct.
    unfold Qc_of_Z, Q2Qc in F. cbn [this] in F. rewrite !Qred_correct in F.
    unfold Qeq, Qmult, inject_Z in F |- *. cbn [Qnum Qden] in F |- *.
    revert F. generalize (Qnum q) (Qden q). intros n d. lia.
Qed.
Lemma halves_inj a b : halves a = halves b -> a = b.
Proof.
  intros E. apply halves_spec in E. assert (F := proj1 (halves_spec a _) eq_refl). rewrite <- E in F.
  apply (f_equal this) in F. unfold Qc_of_Z, Q2Qc in F. cbn [this] in F.
  assert (X : (inject_Z a == inject_Z b)%Q) by (rewrite <- (Qred_correct (inject_Z a)), <- (Qred_correct (inject_Z b)), F; reflexivity).
  unfold Qeq, inject_Z in X. cbn [Qnum Qden] in X. lia.
Qed.
Lemma spin_cases q : (exists z, q = halves z /\ spin_value q = Ok z) \/ (~ spin_number q /\ spin_value q = Err ValueError).
Proof.
  destruct (spin_value q) as [z|e] eqn:E.
  - left. exists z. split; [|reflexivity]. apply halves_spec, spin_value_spec. exact E.
  - right. split.
    + intros (z & H). apply halves_spec, spin_value_spec in H. congruence.
    + revert E. unfold spin_value. destruct (Qden q =? 1)%positive; [discriminate|]. destruct (Qden q =? 2)%positive; [discriminate|].
      intros E. injection E as <-. reflexivity.
Qed.
Theorem c91_particle name latex q parity mass width :
  (spin_number q -> exists z, halves z = q /\
     mk_particle name latex q parity mass width = Ok (Particle name latex z parity mass width)) /\
  (~ spin_number q -> mk_particle name latex q parity mass width = Err ValueError).
Proof.
  unfold mk_particle. destruct (spin_cases q) as [(z & -> & ->)|[N ->]]; cbn [bind]; split; intros H.
  - exists z. auto.
  - destruct H. exists z. reflexivity.
  - destruct (N H).
  - reflexivity.
Qed.
Theorem c91_coupling L q :
  (spin_number q -> exists c, mk_ls L q = Ok c /\ ls_L c = L /\ halves (ls_S c) = q) /\
  (~ spin_number q -> mk_ls L q = Err ValueError).
Proof.
  unfold mk_ls. destruct (spin_cases q) as [(z & -> & ->)|[N ->]]; cbn [bind]; split; intros H.
  - eexists. split; [reflexivity|]. auto.
  - destruct H. exists z. reflexivity.
  - destruct (N H).
  - reflexivity.
Qed.
Theorem c91_node parent c1 c2 a :
  (forall t, mk_node parent c1 c2 a = Ok t <-> exists i, stands_for a i /\ t = Node parent c1 c2 i) /\
  (forall e, mk_node parent c1 c2 a = Err e <->
     (e = TypeError /\ a = ArgOther) \/
     (e = ValueError /\ ((exists n, a = ArgTupleN n) \/ exists L q, a = ArgTuple L q /\ ~ spin_number q))).
Proof.
  unfold mk_node. destruct a as [|c|L q|n|]; cbn [to_ls bind stands_for].
  - split.
    + intros t. split; [intros E; injection E as <-; eauto|]. intros (i & -> & ->). reflexivity.
    + intros e. split; [discriminate|]. intros [[_ X]|[_ [[n X]|(L & q & X & _)]]]; discriminate X.
  - split.
    + intros t. split; [intros E; injection E as <-; eauto|]. intros (i & -> & ->). reflexivity.
    + intros e. split; [discriminate|]. intros [[_ X]|[_ [[n X]|(L & q & X & _)]]]; discriminate X.
  - destruct (c91_coupling L q) as [P N]. unfold mk_ls in *.
    destruct (spin_cases q) as [(z & E & V)|[M V]]; rewrite V in *; cbn [bind] in *; split.
    + intros t. split.
      * intros X; injection X as <-. exists (Some (LS L z)). split; [|reflexivity]. exists (LS L z). auto.
      * intros (i & (c & -> & <- & F) & ->). destruct c as [l s]. cbn [ls_L ls_S] in *. rewrite E in F. apply halves_inj in F. subst z. reflexivity.
    + intros e. split; [discriminate|]. intros [[_ X]|[_ [[n X]|(L' & q' & X & M)]]]; [discriminate X..|].
      injection X as <- <-. destruct M. exists z. exact E.
    + intros t. split; [discriminate|]. intros (i & (c & _ & _ & F) & _). destruct M. exists (ls_S c). auto.
    + intros e. split; [intros X; injection X as <-; right; split; [reflexivity|right; eauto]|].
      intros [[_ X]|[-> _]]; [discriminate X|reflexivity].
  - split.
    + intros t. split; [discriminate|]. intros (i & [] & _).
    + intros e. split; [intros X; injection X as <-; right; eauto|]. intros [[_ X]|[-> _]]; [discriminate X|reflexivity].
  - split.
    + intros t. split; [discriminate|]. intros (i & [] & _).
    + intros e. split; [intros X; injection X as <-; auto|].
      intros [[-> _]|[_ [[n X]|(L & q & X & _)]]]; [reflexivity|discriminate X..].
Qed.

(** ** C90 *)
Lemma app_assoc_s a b c : (a ++ b) ++ c = a ++ (b ++ c).
Proof. induction a as [|x a IH]; [reflexivity|]. cbn [append]. rewrite IH. reflexivity. Qed.
Lemma app_head a b c : a ++ b = a ++ c -> b = c.
Proof. induction a as [|x a IH]; [auto|]. cbn [append]. intros E. injection E as E. auto. Qed.
(** Texts without a character, up to its first occurrence *)
Lemma cut (x : ascii) a b s t : ~ In x (characters a) -> ~ In x (characters b) ->
  a ++ String x s = b ++ String x t -> a = b /\ s = t.
Proof.
  revert b. induction a as [|y a IH]; intros [|z b] A B E; cbn [append] in E.
  - injection E as E. auto.
  - exfalso. injection E as E _. apply B. left. auto.
  - exfalso. injection E as E _. apply A. left. auto.
  - injection E as -> E. destruct (IH b) as [-> ->]; auto; intros I; [apply A|apply B]; right; exact I.
Qed.
Lemma str_spin_chars z c : In c (characters (str_spin z)) ->
  In c ["0"; "1"; "2"; "3"; "4"; "5"; "6"; "7"; "8"; "9"; "-"; "/"]%char.
Proof.
  unfold str_spin. destruct (Z.even z).
  - intros I. apply str_of_Z_chars in I. cbn in I |- *. tauto.
  - rewrite characters_app, in_app_iff. intros [I|I].
    + apply str_of_Z_chars in I. cbn in I |- *. tauto.
    + cbn in I |- *. intuition.
Qed.
Lemma str_spin_inj a b : str_spin a = str_spin b -> a = b.
Proof.
  unfold str_spin. intros E.
  assert (N : forall z, ~ In "/"%char (characters (str_of_Z z))).
  { intros z I. apply str_of_Z_chars in I. cbn in I. repeat (destruct I as [I|I]; [discriminate I|]). exact I. }
  destruct (Z.even a) eqn:A, (Z.even b) eqn:B.
  - apply number_inj in E. apply Z.even_spec in A, B. destruct A as (x & ->), B as (y & ->).
    rewrite !(Z.mul_comm 2), !Z.div_mul in E by lia. lia.
  - exfalso. apply (N (a / 2)). rewrite E, characters_app. apply in_or_app. right. left. reflexivity.
  - exfalso. apply (N (b / 2)). rewrite <- E, characters_app. apply in_or_app. right. left. reflexivity.
  - apply app_tail, number_inj in E. exact E.
Qed.
Lemma arrow_cut i j s t : render_arrow i ++ String " " s = render_arrow j ++ String " " t -> i = j /\ s = t.
Proof.
  destruct i as [[L S]|], j as [[L' S']|]; cbn [render_arrow ls_L ls_S]; intros E.
  - rewrite !app_assoc_s in E. apply app_head in E. cbn [append] in E.
    apply cut in E; [|intros I; apply str_spin_chars in I; cbn in I; repeat (destruct I as [I|I]; [discriminate I|]); exact I..].
    destruct E as [E1 E]. apply str_spin_inj in E1. subst S'. injection E as E.
    cbn [append] in E.
    apply cut in E; [|intros I; apply str_of_Z_chars in I; cbn in I; repeat (destruct I as [I|I]; [discriminate I|]); exact I..].
    destruct E as [E2 E]. apply number_inj in E2. subst L'. injection E as E. auto.
  - discriminate E.
  - discriminate E.
  - injection E as E. auto.
Qed.
Lemma arrow_word i : one_word (render_arrow i).
Proof.
  unfold one_word. destruct i as [[L S]|]; cbn [render_arrow ls_L ls_S].
  - rewrite !characters_app, !in_app_iff. intros [I|[I|[I|[I|I]]]].
    1, 3, 5: cbn in I; repeat (destruct I as [I|I]; [discriminate I|]); exact I.
    + apply str_spin_chars in I. cbn in I. repeat (destruct I as [I|I]; [discriminate I|]); exact I.
    + apply str_of_Z_chars in I. cbn in I. repeat (destruct I as [I|I]; [discriminate I|]); exact I.
  - cbn. intuition discriminate.
Qed.
Lemma arrow_inj i j : render_arrow i = render_arrow j -> i = j.
Proof.
  intros E. apply (f_equal (fun s => s ++ String " " "")) in E. apply arrow_cut in E. apply E.
Qed.
Lemma latex_cut w o t : forall t' s s', same_decay t t' -> latex_tree w o t ++ s = latex_tree w o t' ++ s' -> t = t' /\ s = s'.
Proof.
  induction t as [p|p a IHa b IHb i]; intros [p'|p' a' b' j] s s' D E; cbn [same_decay] in D; try contradiction D.
  - subst p'. cbn [latex_tree] in E. apply app_head in E. auto.
  - destruct D as (<- & Da & Db).
    assert (K : forall x y, latex_particle w o (pobj_particle p) ++ " " ++ render_arrow i ++ " " ++
        latex_tree w o a ++ " " ++ latex_tree w o b ++ x =
      latex_particle w o (pobj_particle p) ++ " " ++ render_arrow j ++ " " ++
        latex_tree w o a' ++ " " ++ latex_tree w o b' ++ y -> (a = a' /\ b = b' /\ i = j) /\ x = y).
    { intros x y X. apply app_head in X. cbn [append] in X. injection X as X. apply arrow_cut in X. destruct X as [-> X].
      apply IHa in X; [|exact Da]. destruct X as [-> X]. injection X as X.
      apply IHb in X; [|exact Db]. destruct X as [-> X]. auto. }
    cbn [latex_tree] in E. cbv zeta in E. destruct p as [p|p].
    + rewrite !app_assoc_s in E. apply app_head in E. apply K in E.
      destruct E as [(-> & -> & ->) E]. apply app_head in E. auto.
    + rewrite !app_assoc_s in E. apply K in E. destruct E as [(-> & -> & ->) E]. auto.
Qed.
Theorem c90_couplings w o t t' : same_decay t t' -> latex_tree w o t = latex_tree w o t' -> t = t'.
Proof.
  intros D E. apply (f_equal (fun s => s ++ "")) in E. apply latex_cut in E; [|exact D]. apply E.
Qed.

Lemma one_word_app a b : one_word a -> one_word b -> one_word (a ++ b).
Proof. unfold one_word. rewrite characters_app, in_app_iff. tauto. Qed.
Lemma words_app a b : one_word a -> words (a ++ " " ++ b) = a :: words b.
Proof. intros N. unfold words. cbn [append]. apply split_on_app. exact N. Qed.
Lemma words_one a : one_word a -> words a = [a].
Proof. apply split_on_none. Qed.
Lemma bracket_word : one_word "\left(" /\ one_word "\right)".
Proof. split; intros I; cbn in I; repeat (destruct I as [I|I]; [discriminate I|]); exact I. Qed.
Lemma arrow_shows i : arrow_text (render_arrow i) i.
Proof.
  destruct i as [[L S]|]; [|reflexivity]. cbn [arrow_text ls_L ls_S]. exists (str_spin S). split; [|reflexivity].
  unfold SpecNodes.spin_text, str_spin. destruct (Z.even S) eqn:E.
  - left. apply Z.even_spec in E. destruct E as (n & ->). exists n. rewrite (Z.mul_comm 2), Z.div_mul by lia. split; [lia|reflexivity].
  - right. rewrite <- Z.negb_even, E. auto.
Qed.
Section chain.
Variables w o : bool.
Notation text p := (latex_particle w o p).
Theorem c90_words first s0 r s1 s2 s3 i j :
  (forall p, In p [st_particle s0; r; st_particle s1; st_particle s2; st_particle s3] -> one_word (text p)) ->
  words (latex_tree w o (plain_chain first s0 r s1 s2 s3 i j)) =
  let isobar := ["\left(" ++ text r; render_arrow j; text s1; text s2 ++ "\right)"] in
  (if first then [text s0; render_arrow i] ++ isobar ++ [text s3]
   else [text s0; render_arrow i] ++ [text s3] ++ isobar)%list.
Proof.
  intros W. assert (W0 : one_word (text s0)) by (apply W; cbn; auto).
  assert (Wr : one_word (text r)) by (apply W; cbn; auto).
  assert (W1 : one_word (text s1)) by (apply W; cbn; auto).
  assert (W2 : one_word (text s2)) by (apply W; cbn; auto 6).
  assert (W3 : one_word (text s3)) by (apply W; cbn; auto 6).
  destruct bracket_word as [Bl Br].
  destruct first; cbn [plain_chain latex_tree pobj_particle app]; cbv zeta.
  - rewrite words_app by exact W0. rewrite words_app by apply arrow_word. f_equal. f_equal.
    rewrite !app_assoc_s. rewrite <- (app_assoc_s "\left(").
    rewrite words_app by (apply one_word_app; assumption). f_equal.
    rewrite words_app by apply arrow_word. f_equal. rewrite words_app by exact W1. f_equal.
    rewrite <- (app_assoc_s (text s2)). rewrite words_app by (apply one_word_app; assumption). f_equal. apply words_one. exact W3.
  - rewrite words_app by exact W0. rewrite words_app by apply arrow_word. rewrite words_app by exact W3. f_equal. f_equal. f_equal.
    rewrite !app_assoc_s. rewrite <- (app_assoc_s "\left(").
    rewrite words_app by (apply one_word_app; assumption). f_equal.
    rewrite words_app by apply arrow_word. f_equal. rewrite words_app by exact W1. f_equal.
    apply words_one. apply one_word_app; assumption.
Qed.
Theorem c90_reads first s0 r s1 s2 s3 i j :
  (forall p, In p [st_particle s0; r; st_particle s1; st_particle s2; st_particle s3] -> one_word (text p)) ->
  exists a b, arrow_text a i /\ arrow_text b j /\
  words (latex_tree w o (plain_chain first s0 r s1 s2 s3 i j)) =
  (if first then [text s0; a; "\left(" ++ text r; b; text s1; text s2 ++ "\right)"; text s3]
   else [text s0; a; text s3; "\left(" ++ text r; b; text s1; text s2 ++ "\right)"]).
Proof.
  intros W. exists (render_arrow i), (render_arrow j). split; [apply arrow_shows|]. split; [apply arrow_shows|].
  rewrite c90_words by exact W. destruct first; reflexivity.
Qed.
Theorem c90_chain f s0 r s1 s2 s3 i j f' s0' r' s1' s2' s3' i' j' :
  (forall p, In p [st_particle s0; r; st_particle s1; st_particle s2; st_particle s3;
                   st_particle s0'; r'; st_particle s1'; st_particle s2'; st_particle s3'] ->
    one_word (text p) /\ prefix "\left(" (text p) = false) ->
  latex_tree w o (plain_chain f s0 r s1 s2 s3 i j) = latex_tree w o (plain_chain f' s0' r' s1' s2' s3' i' j') ->
  (f = f' /\ i = i' /\ j = j') /\
  text s0 = text s0' /\ text r = text r' /\ text s1 = text s1' /\ text s2 = text s2' /\ text s3 = text s3'.
Proof.
  intros W E. apply (f_equal words) in E.
  rewrite !c90_words in E by (intros p I; apply W; cbn in I |- *; tauto). cbv zeta in E.
  assert (P : forall a b, prefix a (a ++ b) = true).
  { intros a b. induction a as [|c a IH]; [destruct b; reflexivity|]. cbn [append prefix]. destruct (ascii_dec c c); [exact IH|congruence]. }
  assert (H3 : prefix "\left(" (text s3) = false) by (apply W; cbn; tauto).
  assert (H3' : prefix "\left(" (text s3') = false) by (apply W; cbn; tauto).
  clear W.
  assert (L : forall (a b : string) l m, a :: l = b :: m -> a = b /\ l = m) by (intros a b l m X; injection X; auto).
  destruct f, f'; cbn [app] in E; repeat (apply L in E; let X := fresh "X" in destruct E as [X E]).
  - apply arrow_inj in X0, X2. apply app_head in X1. apply app_tail in X4. auto 10.
  - rewrite <- X1, P in H3'. discriminate H3'.
  - rewrite X1, P in H3. discriminate H3.
  - apply arrow_inj in X0, X3. apply app_head in X2. apply app_tail in X5. auto 10.
Qed.
End chain.
