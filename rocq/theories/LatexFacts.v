(** Proofs about the LaTeX of lineshapes and of defined expressions (C105, C106) *)
From Coq Require Import String Ascii List Bool Lia.
From Verif Require Import Prelude SpecIO IO IOProofs Latex Messages SpecLatex.
Import ListNotations.
Local Open Scope list_scope.
Local Open Scope string_scope.

Lemma groups_app a : forall b d e, groups (a ++ b) d e =
  match groups a d e with Some (d', e') => groups b d' e' | None => None end.
Proof.
  induction a as [|c a I]; intros b d e; [reflexivity|]. cbn [groups append].
  destruct e; [apply I|]. destruct (Ascii.eqb c "\"); [apply I|]. destruct (Ascii.eqb c "{"); [apply I|].
  destruct (Ascii.eqb c "}"); [|apply I]. destruct d; [reflexivity|apply I].
Qed.
Lemma groups_shift a : forall d e d' e' n, groups a d e = Some (d', e') -> groups a (d + n) e = Some (d' + n, e').
Proof.
  induction a as [|c a I]; intros d e d' e' n; cbn [groups].
  - intros H. injection H as <- <-. reflexivity.
  - destruct e; [apply I|]. destruct (Ascii.eqb c "\"); [apply I|].
    destruct (Ascii.eqb c "{"); [apply (I (S d))|].
    destruct (Ascii.eqb c "}"); [|apply I]. destruct d; [discriminate|]. cbn [Nat.add]. apply I.
Qed.
Lemma groups_balanced a b d : balanced a -> groups (a ++ b) d false = groups b d false.
Proof.
  intros H. rewrite groups_app. apply (groups_shift _ _ _ _ _ d) in H. cbn [Nat.add] in H. rewrite H. reflexivity.
Qed.
Lemma balanced_app a b : balanced a -> balanced b -> balanced (a ++ b).
Proof. intros A B. unfold balanced. rewrite groups_balanced by exact A. exact B. Qed.
Lemma balanced_comma ts : Forall balanced ts -> balanced (comma_list ts).
Proof.
  induction 1 as [|t ts T _ I]; [reflexivity|]. destruct ts as [|u ts]; [exact T|].
  change (comma_list (t :: u :: ts)) with (t ++ ", " ++ comma_list (u :: ts)).
  apply balanced_app; [exact T|]. apply balanced_app; [reflexivity|exact I].
Qed.
Lemma sjoin_comma ts : sjoin ", " ts = comma_list ts.
Proof. induction ts as [|t [|u ts] I]; [reflexivity|reflexivity|]. cbn [sjoin comma_list] in *. rewrite I. reflexivity. Qed.

Section Lineshapes.
  Context {V : Type} (pr : V -> string) (is_integer : V -> bool).
  Notation latex := (latex_lineshape pr is_integer).

  Lemma app_nil (a : string) : a ++ "" = a.
  Proof. induction a as [|c a I]; [reflexivity|]. cbn [append]. rewrite I. reflexivity. Qed.

  Lemma c105_relativistic s mass0 gamma0 m1 m2 l r :
    latex (RelativisticBreitWigner s mass0 gamma0 m1 m2 l r)
    = Ok ("\mathcal{R}_{" ++ pr l ++ "}\left(" ++ pr s ++ ", " ++ pr mass0 ++ ", " ++ pr gamma0 ++ "\right)").
  Proof. reflexivity. Qed.
  Lemma c105_minl s M m mr w m2 m1 ld lp rd rp :
    latex (BreitWignerMinL s M m mr w m2 m1 ld lp rd rp)
    = Ok ("\mathcal{R}^\mathrm{BW}_{" ++ pr ld ++ "," ++ pr lp ++ "}\left(" ++ pr s ++ "\right)").
  Proof. reflexivity. Qed.
  Lemma c105_bugg s m0 w m1 m2 g :
    latex (BuggBreitWigner s m0 w m1 m2 g) = Ok ("\mathcal{R}^\mathrm{Bugg}\left(" ++ pr s ++ "\right)").
  Proof. reflexivity. Qed.
  Lemma c105_flatte s m0 w a b :
    latex (FlatteSWave s m0 w a b) = Ok ("\mathcal{R}^\mathrm{Flatté}\left(" ++ pr s ++ "\right)").
  Proof. reflexivity. Qed.
  Lemma c105_multi s mass cs :
    latex (MultichannelBreitWigner s mass cs)
    = Ok ("\mathcal{R}^\mathrm{BW}_\mathrm{multi}\left(" ++ pr s ++ "; "
          ++ comma_list (map (fun c => pr (ca_width c)) cs) ++ "\right)").
  Proof. cbn [latex_lineshape]. rewrite sjoin_comma. reflexivity. Qed.
  Lemma c105_bw s mass w m1 m2 l r :
    latex (BreitWigner s mass w m1 m2 l r)
    = Ok ("\mathcal{R}^\mathrm{BW}_{" ++ (if is_integer l then "L=" else "") ++ pr l ++ "}\left("
          ++ pr s ++ "; " ++ pr mass ++ ", " ++ pr w ++ "\right)").
  Proof. cbn [latex_lineshape]. destruct (is_integer l); reflexivity. Qed.
  Lemma c105_simple s mass w :
    latex (SimpleBreitWigner s mass w)
    = Ok ("\mathcal{R}^\mathrm{BW}\left(" ++ pr s ++ "; " ++ pr mass ++ ", " ++ pr w ++ "\right)").
  Proof. reflexivity. Qed.
  Lemma c105_channel c : latex (ChannelArguments c) = Err KeyError.
  Proof. reflexivity. Qed.

  Ltac bal B :=
    repeat first
      [ apply balanced_comma; apply Forall_forall; intros ?x ?X; apply in_map_iff in X; destruct X as (? & <- & _); apply B
      | rewrite groups_balanced by (first [apply B | apply balanced_comma; apply Forall_forall; intros ?x ?X;
                                             apply in_map_iff in X; destruct X as (? & <- & _); apply B])
      | progress (cbn [append groups Ascii.eqb Bool.eqb]; cbv iota) ].
  Lemma c105_balanced x t : (forall v, balanced (pr v)) -> latex x = Ok t -> balanced t.
  Proof.
    intros B. destruct x.
    - rewrite c105_relativistic. intros E. injection E as <-. unfold balanced. bal B. reflexivity.
    - rewrite c105_minl. intros E. injection E as <-. unfold balanced. bal B. reflexivity.
    - rewrite c105_bugg. intros E. injection E as <-. unfold balanced. bal B. reflexivity.
    - rewrite c105_flatte. intros E. injection E as <-. unfold balanced. bal B. reflexivity.
    - rewrite c105_multi. intros E. injection E as <-. unfold balanced. bal B. reflexivity.
    - discriminate.
    - rewrite c105_bw. intros E. injection E as <-. unfold balanced. destruct (is_integer angular_momentum); bal B; reflexivity.
    - rewrite c105_simple. intros E. injection E as <-. unfold balanced. bal B. reflexivity.
  Qed.
  Lemma c105_total x : (forall c, x <> ChannelArguments c) -> exists t, latex x = Ok t.
  Proof.
    intros N. destruct x; try (eexists; reflexivity).
    - exfalso. exact (N c eq_refl).
    - rewrite c105_bw. eexists. reflexivity.
  Qed.
End Lineshapes.

Lemma one_line_app a b : one_line a -> one_line b -> one_line (a ++ b).
Proof. unfold one_line. intros A B X. rewrite characters_app in X. apply in_app_iff in X. tauto. Qed.
Lemma c105_indexed {V} (pr : V -> string) base indices :
  print_Indexed_latex pr base indices = pr base ++ "_{" ++ comma_list (map pr indices) ++ "}"
  /\ ((forall v, balanced (pr v)) -> balanced (print_Indexed_latex pr base indices)).
Proof.
  unfold print_Indexed_latex. rewrite sjoin_comma. split; [reflexivity|]. intros B. apply balanced_app; [apply B|].
  assert (C : balanced (comma_list (map pr indices))).
  { apply balanced_comma. apply Forall_forall. intros x X. apply in_map_iff in X. destruct X as (v & <- & _). apply B. }
  unfold balanced. cbn [append groups Ascii.eqb Bool.eqb]. cbv iota. rewrite groups_balanced by exact C. reflexivity.
Qed.

Section Defined.
  Context {E K W : Type} `{EqDec E} (unfold_once : E -> E) (latex_kw latex : E -> string) (latex_key : K -> string)
    (latex_value : W -> string).
  Notation out := (latex_defined unfold_once latex_kw latex latex_key latex_value).
  Lemma str_assoc (a b c : string) : (a ++ b) ++ c = a ++ (b ++ c).
  Proof. induction a as [|x a I]; [reflexivity|]. cbn [append]. rewrite I. reflexivity. Qed.
  Lemma row_one_line a b : one_line a -> one_line b -> one_line (array_row a b).
  Proof.
    intros A B. unfold array_row. repeat apply one_line_app; try assumption; vm_compute; intuition discriminate.
  Qed.
  Lemma split_rows (ps : list (K * W)) rest :
    (forall k w, In (k, w) ps -> one_line (latex_key k) /\ one_line (latex_value w)) ->
    split_on "010" (fold_right append "" (map (fun kv => defined_row (latex_key (fst kv)) (latex_value (snd kv))) ps) ++ rest)
    = (map (fun kv => array_row (latex_key (fst kv)) (latex_value (snd kv))) ps ++ split_on "010" rest)%list.
  Proof.
    induction ps as [|[k w] ps I]; intros O; [reflexivity|]. cbn [map fold_right fst snd].
    assert (X : defined_row (latex_key k) (latex_value w) = array_row (latex_key k) (latex_value w) ++ String "010" "").
    { unfold defined_row, array_row. rewrite !str_assoc. reflexivity. }
    rewrite X, !str_assoc. cbn [append]. rewrite split_on_app.
    - rewrite I by (intros k' w' Y; apply O; right; exact Y). reflexivity.
    - destruct (O k w (or_introl eq_refl)) as [A B]. exact (row_one_line _ _ A B).
  Qed.
  Lemma c106 expr (ps : list (K * W)) :
    one_line (latex_kw expr) -> one_line (latex expr) -> one_line (latex (unfold_once expr)) ->
    (forall k w, In (k, w) ps -> one_line (latex_key k) /\ one_line (latex_value w)) ->
    exists first,
      split_on "010" (out expr ps)
      = ("\begin{array}{rcl}" :: first
         :: map (fun kv => array_row (latex_key (fst kv)) (latex_value (snd kv))) ps ++ ["\end{array}"])%list
      /\ (unfold_once expr = expr -> first = ("  " ++ latex_kw expr ++ " \\")%string)
      /\ (unfold_once expr <> expr -> first = array_row (latex expr) (latex (unfold_once expr))).
  Proof.
    intros O1 O2 O3 OP.
    set (first := if eqb expr (unfold_once expr) then "  " ++ latex_kw expr ++ " \\"
                  else array_row (latex expr) (latex (unfold_once expr))).
    assert (F : one_line first).
    { unfold first. destruct (eqb expr (unfold_once expr)).
      - repeat apply one_line_app; try assumption; vm_compute; intuition discriminate.
      - exact (row_one_line _ _ O2 O3). }
    assert (X : out expr ps = "\begin{array}{rcl}" ++ String "010" (first ++ String "010"
      (fold_right append "" (map (fun kv => defined_row (latex_key (fst kv)) (latex_value (snd kv))) ps) ++ "\end{array}"))).
    { unfold latex_defined, first. destruct (eqb expr (unfold_once expr)).
      - rewrite !str_assoc. reflexivity.
      - unfold defined_row, array_row. rewrite !str_assoc. reflexivity. }
    exists first. repeat split.
    - rewrite X. rewrite split_on_app by (vm_compute; intuition discriminate).
      rewrite split_on_app by exact F. rewrite split_rows by exact OP. reflexivity.
    - intros U. unfold first. rewrite U. rewrite (Prelude.eqb_refl expr). reflexivity.
    - intros U. unfold first. destruct (eqb expr (unfold_once expr)) eqn:Q; [|reflexivity].
      apply (proj1 (Prelude.eqb_eq _ _)) in Q. exfalso. apply U. symmetry. exact Q.
  Qed.
  Lemma c106_balanced expr (ps : list (K * W)) :
    balanced (latex_kw expr) -> balanced (latex expr) -> balanced (latex (unfold_once expr)) ->
    (forall k w, In (k, w) ps -> balanced (latex_key k) /\ balanced (latex_value w)) ->
    balanced (out expr ps).
  Proof.
    intros B1 B2 B3 BP. unfold latex_defined. apply balanced_app; [reflexivity|].
    apply balanced_app; [reflexivity|].
    assert (R : forall a b, balanced a -> balanced b -> balanced (defined_row a b)).
    { intros a b A B. unfold defined_row. apply balanced_app; [reflexivity|]. apply balanced_app; [exact A|].
      apply balanced_app; [reflexivity|]. apply balanced_app; [exact B|]. reflexivity. }
    apply balanced_app.
    - destruct (eqb expr (unfold_once expr)); [|apply R; assumption].
      apply balanced_app; [reflexivity|]. apply balanced_app; [exact B1|]. reflexivity.
    - apply balanced_app; [|reflexivity]. induction ps as [|[k w] ps I]; [reflexivity|]. cbn [map fold_right fst snd].
      destruct (BP k w (or_introl eq_refl)) as [A B]. apply balanced_app; [apply R; assumption|].
      apply I. intros k' w' Y. apply BP. right. exact Y.
  Qed.
End Defined.
