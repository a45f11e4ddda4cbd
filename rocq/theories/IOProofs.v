(** Proofs about tables and item types: C60, C61, C76 *)
From Coq Require Import String Ascii ZArith QArith Qcanon List Bool Lia DecimalString Decimal.
From Verif Require Import Prelude Spin Decay IO SpecIO.
Import ListNotations.
Local Open Scope list_scope.
Local Open Scope string_scope.
Local Open Scope Z_scope.

(** ** Item types *)
Section Types.
  Context {C : Type} `{EqDec C} (sub : C -> C -> bool) (Hs : hierarchy sub).
  Definition above (x y : C) : bool := negb (eqb x y) && sub x y.
  Lemma above_spec x y : above x y = true <-> x <> y /\ sub x y = true.
  Proof.
    unfold above. rewrite andb_true_iff, negb_true_iff. split.
    - intros [A B]. split; [|exact B]. intros E. rewrite E, eqb_refl in A. discriminate A.
    - intros [A B]. split; [|exact B]. apply eqb_neq. exact A.
  Qed.
  Lemma maximal_above l x : exists m, In m (x :: l) /\ sub x m = true /\ forall y, In y (x :: l) -> above m y = false.
  Proof.
    destruct Hs as (Hr & Ht & Ha).
    induction l as [|a l IH].
    - exists x. split; [left; reflexivity|]. split; [apply Hr|]. intros y [<-|[]]. unfold above. rewrite eqb_refl. reflexivity.
    - destruct IH as (m & Im & Sm & Mm). destruct (above m a) eqn:E.
      + apply above_spec in E. destruct E as [Na Sa]. exists a. split; [right; left; reflexivity|].
        split; [apply (Ht _ m); assumption|]. intros y Iy.
        destruct (above a y) eqn:E; [|reflexivity]. apply above_spec in E. destruct E as [Ny Sy]. exfalso.
        assert (I : In y (x :: l)).
        { destruct Iy as [<-|[<-|Iy]]; [left; reflexivity|contradiction Ny; reflexivity|right; exact Iy]. }
        assert (X := Mm y I). assert (Y : above m y = true); [|congruence].
        apply above_spec. split; [|apply (Ht _ a); assumption].
        intros ->. apply Na. apply Ha; assumption.
      + exists m. split; [destruct Im as [<-|Im]; [left; reflexivity|right; right; exact Im]|].
        split; [exact Sm|]. intros y [<-|[<-|Iy]]; [apply Mm; left; reflexivity|exact E|apply Mm; right; exact Iy].
  Qed.
  Lemma maximal_In l x : In x l -> exists m, In m l /\ sub x m = true /\ forall y, In y l -> above m y = false.
  Proof.
    intros I. destruct (maximal_above l x) as (m & Im & S & M). exists m.
    split; [destruct Im as [<-|Im]; assumption|]. split; [exact S|]. intros y Iy. apply M. right. exact Iy.
  Qed.
  Definition maximals (l : list C) : list C :=
    filter (fun t => negb (existsb (fun o => negb (eqb t o) && sub t o) (to_set l))) (to_set l).
  Lemma maximals_In l t : In t (maximals l) <-> In t l /\ forall y, In y l -> above t y = false.
  Proof.
    unfold maximals. rewrite filter_In, to_set_In, negb_true_iff. apply and_iff_compat_l. split.
    - intros E y Iy. destruct (above t y) eqn:A; [|reflexivity]. rewrite <- E. symmetry.
      apply existsb_exists. exists y. split; [apply to_set_In; exact Iy|exact A].
    - intros A. apply not_true_is_false. rewrite existsb_exists. intros (y & Iy & B).
      rewrite to_set_In in Iy. specialize (A y Iy). unfold above in A. congruence.
  Qed.
  Lemma maximals_NoDup l : NoDup (maximals l).
  Proof. apply NoDup_filter. apply to_set_NoDup. Qed.
  Lemma determine_eq l : l <> [] -> determine_item_type sub (Sequence l) =
    match maximals l with [] => Err StopIteration | [t] => Ok t | _ => Err ValueError end.
  Proof. destruct l; [intros X; contradiction X; reflexivity|reflexivity]. Qed.
  Definition greatest (l : list C) (t : C) : Prop := In t l /\ forall u, In u l -> sub u t = true.
  Lemma maximals_one l t : l <> [] -> maximals l = [t] <-> greatest l t.
  Proof.
    destruct Hs as (Hr & Ht & Ha).
    intros N. split.
    - intros E. assert (I : In t (maximals l)) by (rewrite E; left; reflexivity).
      apply maximals_In in I. destruct I as [I M]. split; [exact I|]. intros u Iu.
      destruct (maximal_In l u Iu) as (m & Im & S & Mm).
      assert (X : In m (maximals l)) by (apply maximals_In; split; assumption).
      rewrite E in X. destruct X as [<-|[]]. exact S.
    - intros [I G]. assert (A : forall m, In m (maximals l) <-> m = t).
      { intros m. rewrite maximals_In. split.
        - intros [Im M]. specialize (M t I). specialize (G m Im).
          destruct (eq_dec m t) as [E|E]; [exact E|]. exfalso.
          assert (X : above m t = true) by (apply above_spec; split; assumption). congruence.
        - intros ->. split; [exact I|]. intros y Iy. destruct (above t y) eqn:E; [|reflexivity].
          apply above_spec in E. destruct E as [Ny Sy]. exfalso. apply Ny. apply Ha; [exact Sy|]. apply G. exact Iy. }
      assert (ND := maximals_NoDup l). destruct (maximals l) as [|a [|b r]].
      + exfalso. apply (A t). reflexivity.
      + f_equal. apply A. left. reflexivity.
      + exfalso. assert (a = t) by (apply A; left; reflexivity). assert (b = t) by (apply A; right; left; reflexivity).
        apply NoDup_cons_iff in ND. destruct ND as [Na _]. apply Na. left. congruence.
  Qed.
  Lemma maximals_nonempty l : l <> [] -> maximals l <> [].
  Proof.
    destruct l as [|x l]; [intros X; contradiction X; reflexivity|]. intros _ E.
    destruct (maximal_In (x :: l) x) as (m & Im & _ & M); [left; reflexivity|].
    assert (X : In m (maximals (x :: l))) by (apply maximals_In; split; assumption). rewrite E in X. exact X.
  Qed.
  Theorem c61_single c : determine_item_type sub (NotSequence c) = Ok c.
  Proof. reflexivity. Qed.
  Theorem c61_type l t : determine_item_type sub (Sequence l) = Ok t <->
    In t l /\ forall u, In u l -> sub u t = true.
  Proof.
    destruct l as [|x l].
    - cbn. split; [discriminate|]. intros [[] _].
    - rewrite determine_eq by discriminate. rewrite <- (maximals_one (x :: l) t) by discriminate.
      destruct (maximals (x :: l)) as [|a [|b r]]; split; congruence.
  Qed.
  Theorem c61_error l e : determine_item_type sub (Sequence l) = Err e <->
    e = ValueError /\ ~ exists t, In t l /\ forall u, In u l -> sub u t = true.
  Proof.
    split.
    - intros E. split.
      + destruct l as [|x l]; [cbn in E; congruence|].
        rewrite determine_eq in E by discriminate.
        assert (N := maximals_nonempty (x :: l)). destruct (maximals (x :: l)) as [|a [|b r]]; [|discriminate E|congruence].
        contradiction N; [discriminate|reflexivity].
      + intros (t & G). apply c61_type in G. congruence.
    - intros [-> N]. destruct (determine_item_type sub (Sequence l)) as [t|e] eqn:E.
      + exfalso. apply N. exists t. apply c61_type. exact E.
      + f_equal. destruct l as [|x l]; [cbn in E; congruence|].
        rewrite determine_eq in E by discriminate.
        assert (M := maximals_nonempty (x :: l)). destruct (maximals (x :: l)) as [|a [|b r]]; [|discriminate E|congruence].
        contradiction M; [discriminate|reflexivity].
  Qed.
End Types.

(** ** The classes of decay.py *)
Lemma suffixb_spec p q : suffixb p q = true <-> exists r, q = (r ++ p)%list.
Proof.
  induction q as [|a q IH]; cbn [suffixb]; rewrite orb_true_iff, eqb_eq.
  - split.
    + intros [->|X]; [exists []; reflexivity|discriminate X].
    + intros (r & E). symmetry in E. apply app_eq_nil in E. destruct E as [_ ->]. left. reflexivity.
  - rewrite IH. split.
    + intros [->|(r & ->)]; [exists []; reflexivity|exists (a :: r); reflexivity].
    + intros ([|b r] & E); [left; symmetry; exact E|]. injection E as <- ->. right. exists r. reflexivity.
Qed.
Lemma classes : hierarchy issubclass.
Proof.
  split; [|split].
  - intros [| | |p]; try reflexivity. apply suffixb_spec. exists []. reflexivity.
  - intros [| | |p] [| | |q] [| | |r]; cbn; try congruence.
    rewrite !suffixb_spec. intros (u & ->) (v & ->). exists (u ++ v)%list. rewrite <- app_assoc. reflexivity.
  - intros [| | |p] [| | |q]; cbn; try congruence.
    rewrite !suffixb_spec. intros (u & E) (v & F). f_equal.
    assert (length p = (length u + length q)%nat) by (rewrite E at 1; apply app_length).
    assert (length q = (length v + length p)%nat) by (rewrite F at 1; apply app_length).
    destruct u; [rewrite E; reflexivity|cbn in *; lia].
Qed.

(** ** Texts *)
Lemma app_assoc_s (a b c : string) : ((a ++ b) ++ c = a ++ (b ++ c))%string.
Proof. induction a as [|x a IH]; cbn; [reflexivity|rewrite IH; reflexivity]. Qed.
Lemma app_nil_s (a : string) : (a ++ "" = a)%string.
Proof. induction a as [|x a IH]; cbn; [reflexivity|rewrite IH; reflexivity]. Qed.
Lemma characters_app a b : characters (a ++ b) = (characters a ++ characters b)%list.
Proof. unfold characters. induction a as [|x a IH]; cbn; [reflexivity|rewrite IH; reflexivity]. Qed.
Lemma split_on_app c a b : ~ In c (characters a) -> split_on c (a ++ String c b) = a :: split_on c b.
Proof.
  induction a as [|x a IH]; cbn; intros N.
  - rewrite Ascii.eqb_refl. reflexivity.
  - destruct (Ascii.eqb_spec x c) as [E|E]; [exfalso; apply N; left; exact E|].
    rewrite IH by tauto. reflexivity.
Qed.
Lemma split_on_none c a : ~ In c (characters a) -> split_on c a = [a].
Proof.
  induction a as [|x a IH]; cbn; intros N; [reflexivity|].
  destruct (Ascii.eqb_spec x c) as [E|E]; [exfalso; apply N; left; exact E|].
  rewrite IH by tauto. reflexivity.
Qed.
Lemma split_on_nonempty c a : split_on c a <> [].
Proof.
  destruct a as [|x a]; cbn; [discriminate|]. destruct (Ascii.eqb x c); [discriminate|].
  destruct (split_on c a); discriminate.
Qed.
Lemma lines_app a b : ~ In "010"%char (characters a) -> lines (a ++ String "010" b) = a :: lines b.
Proof.
  intros N. unfold lines. rewrite split_on_app by exact N. cbn [removelast].
  assert (X := split_on_nonempty "010" b). destruct (split_on "010" b); [contradiction X; reflexivity|reflexivity].
Qed.
Definition row_text (items : list string) : string := "| " ++ sjoin " | " items ++ " |".
Lemma table_row_eq items b : table_row items ++ b = row_text items ++ String "010" b.
Proof. unfold table_row, row_text. rewrite !app_assoc_s. reflexivity. Qed.
Lemma In_sjoin c sep l : In c (characters (sjoin sep l)) -> In c (characters sep) \/ exists s, In s l /\ In c (characters s).
Proof.
  induction l as [|a l IH]; cbn [sjoin]; [intros []|]. destruct l as [|b l].
  - intros I. right. exists a. split; [left; reflexivity|exact I].
  - rewrite !characters_app, !in_app_iff. intros [I|[I|I]].
    + right. exists a. split; [left; reflexivity|exact I].
    + left. exact I.
    + destruct (IH I) as [X|(s & Is & X)]; [left; exact X|]. right. exists s. split; [right; exact Is|exact X].
Qed.
Lemma row_text_newline items : (forall s, In s items -> cell_text s) -> ~ In "010"%char (characters (row_text items)).
Proof.
  intros P. unfold row_text. rewrite !characters_app, !in_app_iff. intros [I|[I|I]].
  - cbn in I. destruct I as [I|[I|[]]]; discriminate I.
  - apply In_sjoin in I. destruct I as [I|(s & Is & I)].
    + cbn in I. destruct I as [I|[I|[I|[]]]]; discriminate I.
    + destruct (P s Is) as [_ N]. exact (N I).
  - cbn in I. destruct I as [I|[I|[]]]; discriminate I.
Qed.
Definition pad (s : string) : string := " " ++ s ++ " ".
Lemma substring_app a b : substring 0 (String.length a) (a ++ b) = a.
Proof. induction a as [|x a IH]; cbn; [destruct b; reflexivity|rewrite IH; reflexivity]. Qed.
Lemma unpad_pad s : unpad (pad s) = s.
Proof.
  unfold unpad, pad. cbn. replace (String.length (s ++ " ") - 1)%nat with (String.length s); [apply substring_app|].
  induction s as [|x s IH]; cbn; [reflexivity|]. rewrite IH. cbn.
  destruct s; cbn; [reflexivity|lia].
Qed.
Lemma split_row items : items <> [] -> (forall s, In s items -> cell_text s) ->
  split_on "|" (" " ++ sjoin " | " items ++ " |") = (map pad items ++ [""])%list.
Proof.
  intros N P. destruct items as [|a items]; [contradiction N; reflexivity|]. clear N.
  revert a P. induction items as [|b items IH]; intros a P.
  - cbn [sjoin map app]. change (" " ++ a ++ " |") with (" " ++ a ++ (" " ++ "|")).
    rewrite <- (app_assoc_s a), <- (app_assoc_s " "). fold (pad a).
    change (pad a ++ "|") with (pad a ++ String "|" ""). rewrite split_on_app; [reflexivity|].
    unfold pad. rewrite !characters_app, !in_app_iff. intros [I|[I|I]].
    + cbn in I. destruct I as [I|[]]; discriminate I.
    + destruct (P a) as [X _]; [left; reflexivity|]. exact (X I).
    + cbn in I. destruct I as [I|[]]; discriminate I.
  - assert (E : " " ++ sjoin " | " (a :: b :: items) ++ " |" = pad a ++ String "|" (" " ++ sjoin " | " (b :: items) ++ " |")).
    { change (sjoin " | " (a :: b :: items)) with (a ++ " | " ++ sjoin " | " (b :: items)).
      unfold pad. rewrite !app_assoc_s. reflexivity. }
    rewrite E, split_on_app.
    + rewrite IH by (intros s I; apply P; right; exact I). reflexivity.
    + unfold pad. rewrite !characters_app, !in_app_iff. intros [I|[I|I]].
      * cbn in I. destruct I as [I|[]]; discriminate I.
      * destruct (P a) as [X _]; [left; reflexivity|]. exact (X I).
      * cbn in I. destruct I as [I|[]]; discriminate I.
Qed.
Lemma cells_row items : items <> [] -> (forall s, In s items -> cell_text s) -> cells (row_text items) = items.
Proof.
  intros N P. unfold cells, row_text.
  change ("| " ++ sjoin " | " items ++ " |") with (String "|" (" " ++ sjoin " | " items ++ " |")).
  cbn [split_on]. rewrite (Ascii.eqb_refl "|"). cbn [List.tl].
  change (split_on "|" (" " ++ sjoin " | " items ++ " |")) with (split_on "|" (" " ++ sjoin " | " items ++ " |")).
  rewrite split_row by assumption. rewrite removelast_last, map_map.
  rewrite <- (map_id items) at 2. apply map_ext. intros s. apply unpad_pad.
Qed.
Lemma table_cells_row items b : items <> [] -> (forall s, In s items -> cell_text s) ->
  table_cells (table_row items ++ b) = items :: table_cells b.
Proof.
  intros N P. unfold table_cells. rewrite table_row_eq, lines_app by (apply row_text_newline; exact P).
  cbn [map]. rewrite cells_row by assumption. reflexivity.
Qed.
Fixpoint rows_text (rows : list (list string)) : string :=
  match rows with [] => "" | r :: rows => table_row r ++ rows_text rows end.
Lemma add_rows_ok {A} (row : A -> res (list string)) l src t : add_rows row l src = Ok t <->
  exists rows, mapM row l = Ok rows /\ t = src ++ rows_text rows.
Proof.
  revert src. induction l as [|x l IH]; intros src; cbn [add_rows mapM].
  - split.
    + intros E. injection E as <-. exists []. split; [reflexivity|]. cbn. rewrite app_nil_s. reflexivity.
    + intros (rows & E & ->). injection E as <-. cbn. rewrite app_nil_s. reflexivity.
  - destruct (row x) as [r|e]; cbn [bind]; [|split; [discriminate|intros (rows & E & _); discriminate E]].
    rewrite IH. split.
    + intros (rows & E & ->). rewrite E. cbn [bind]. exists (r :: rows). split; [reflexivity|].
      cbn [rows_text]. rewrite app_assoc_s. reflexivity.
    + intros (rows & E & ->). destruct (mapM row l) as [rs|e]; cbn [bind] in E; [|discriminate E].
      injection E as <-. exists rs. split; [reflexivity|]. cbn [rows_text]. rewrite app_assoc_s. reflexivity.
Qed.
Lemma table_cells_rows rows : (forall r, In r rows -> r <> [] /\ forall s, In s r -> cell_text s) ->
  table_cells (rows_text rows) = rows.
Proof.
  induction rows as [|r rows IH]; intros P; [reflexivity|]. cbn [rows_text].
  destruct (P r) as [N T]; [left; reflexivity|]. rewrite table_cells_row by assumption.
  rewrite IH; [reflexivity|]. intros r' I. apply P. right. exact I.
Qed.
Lemma dashes : cell_text "---".
Proof. split; cbn; intros I; repeat (destruct I as [I|I]; [discriminate I|]); exact I. Qed.
Lemma table_cells_table names rows : names <> [] -> (forall s, In s names -> cell_text s) ->
  (forall r, In r rows -> r <> [] /\ forall s, In s r -> cell_text s) ->
  table_cells (table_header names ++ rows_text rows) = names :: map (fun _ => "---") names :: rows.
Proof.
  intros N P Q. unfold table_header. rewrite app_assoc_s, table_cells_row by assumption.
  rewrite table_cells_row, table_cells_rows; [reflexivity|exact Q| |].
  - destruct names; [contradiction N; reflexivity|discriminate].
  - intros s I. apply in_map_iff in I. destruct I as (x & <- & _). apply dashes.
Qed.

(** ** Cells *)
Definition cell_textb (s : string) : bool :=
  forallb (fun a => negb (Ascii.eqb a "|") && negb (Ascii.eqb a "010")) (characters s).
Lemma cell_textb_spec s : cell_textb s = true <-> cell_text s.
Proof.
  unfold cell_textb, cell_text. rewrite forallb_forall. split.
  - intros P. split; intros I; specialize (P _ I); apply andb_true_iff in P; destruct P as [A B];
      rewrite negb_true_iff in A, B; [rewrite Ascii.eqb_refl in A; discriminate A|rewrite Ascii.eqb_refl in B; discriminate B].
  - intros [A B] a I. apply andb_true_iff. rewrite !negb_true_iff. split; apply Ascii.eqb_neq; intros ->; contradiction.
Qed.
Lemma cell_app a b : cell_text (a ++ b) <-> cell_text a /\ cell_text b.
Proof. unfold cell_text. rewrite characters_app, !in_app_iff. tauto. Qed.
Lemma cell_cons c s : cell_text (String c "") -> cell_text s -> cell_text (String c s).
Proof. intros A B. apply (cell_app (String c "") s). split; assumption. Qed.
Ltac lit := apply cell_textb_spec; reflexivity.

Lemma uint_digits d c : In c (characters (NilEmpty.string_of_uint d)) ->
  In c ["0"; "1"; "2"; "3"; "4"; "5"; "6"; "7"; "8"; "9"]%char.
Proof.
  induction d; intros I; [destruct I|..]; (destruct I as [<-|I]; [cbn; tauto|apply IHd; exact I]).
Qed.
Lemma str_of_Z_chars z c : In c (characters (str_of_Z z)) ->
  In c ["0"; "1"; "2"; "3"; "4"; "5"; "6"; "7"; "8"; "9"; "-"]%char.
Proof.
  assert (U : forall d, In c (characters (NilZero.string_of_uint d)) ->
    In c ["0"; "1"; "2"; "3"; "4"; "5"; "6"; "7"; "8"; "9"; "-"]%char).
  { intros d I. assert (X : In c ["0"; "1"; "2"; "3"; "4"; "5"; "6"; "7"; "8"; "9"]%char); [|cbn in X |- *; tauto].
    destruct d; [destruct I as [<-|[]]; cbn; tauto|exact (uint_digits _ _ I)..]. }
  unfold str_of_Z. destruct (Z.to_int z) as [d|d]; cbn [NilZero.string_of_int].
  - apply U.
  - intros [<-|I]; [cbn; tauto|apply (U d); exact I].
Qed.
Lemma cell_number z : cell_text (str_of_Z z).
Proof.
  split; intros I; apply str_of_Z_chars in I; cbn in I; repeat (destruct I as [I|I]; [discriminate I|]); exact I.
Qed.
Lemma number_no_comma z : ~ In ","%char (characters (str_of_Z z)).
Proof. intros I; apply str_of_Z_chars in I; cbn in I; repeat (destruct I as [I|I]; [discriminate I|]); exact I. Qed.
Lemma number_neg n : n < 0 -> str_of_Z n = String "-" (str_of_Z (- n)).
Proof. destruct n; [lia|lia|]. intros _. reflexivity. Qed.
Lemma number_nonempty n : str_of_Z n <> "".
Proof.
  unfold str_of_Z. destruct (Z.to_int n) as [d|d]; cbn [NilZero.string_of_int]; [|discriminate]. destruct d; discriminate.
Qed.

Lemma commas_characters s c : In c (characters (commas s)) -> c = ","%char \/ In c (characters s).
Proof.
  induction s as [|x s IH]; cbn [commas]; [intros []|]. intros [<-|I]; [right; left; reflexivity|].
  destruct (_ && _) in I.
  - destruct I as [<-|I]; [left; reflexivity|]. destruct (IH I) as [E|X]; [left; exact E|right; right; exact X].
  - destruct (IH I) as [E|X]; [left; exact E|right; right; exact X].
Qed.
Lemma remove_commas_cons c s : remove_commas (String c s) = if Ascii.eqb c "," then remove_commas s else String c (remove_commas s).
Proof. unfold remove_commas. cbn. destruct (Ascii.eqb c ","); reflexivity. Qed.
Lemma remove_commas_commas s : ~ In ","%char (characters s) -> remove_commas (commas s) = s.
Proof.
  induction s as [|x s IH]; intros N; [reflexivity|]. cbn [commas]. rewrite remove_commas_cons.
  destruct (Ascii.eqb_spec x ",") as [E|E]; [exfalso; apply N; left; exact E|].
  f_equal. destruct (_ && _).
  - rewrite remove_commas_cons. cbn. apply IH. intros I. apply N. right. exact I.
  - apply IH. intros I. apply N. right. exact I.
Qed.
Theorem format_int_digits n : remove_commas (format_int n) = str_of_Z n.
Proof.
  unfold format_int. destruct (Z.ltb_spec n 0) as [L|L].
  - rewrite (number_neg n) by exact L.
    transitivity (String "-" (remove_commas (commas (str_of_Z (- n))))); [reflexivity|].
    rewrite remove_commas_commas by apply number_no_comma. reflexivity.
  - apply remove_commas_commas, number_no_comma.
Qed.
Lemma commas_grouped s : ~ In ","%char (characters s) -> s <> "" ->
  exists p ps, split_on "," (commas s) = p :: ps /\
    String.length p = S (Nat.modulo (String.length s - 1) 3) /\ forall q, In q ps -> String.length q = 3%nat.
Proof.
  induction s as [|x s IH]; intros N E; [contradiction E; reflexivity|]. clear E. cbn [commas].
  assert (Nx : Ascii.eqb x "," = false) by (apply Ascii.eqb_neq; intros ->; apply N; left; reflexivity).
  assert (Ns : ~ In ","%char (characters s)) by (intros I; apply N; right; exact I).
  destruct s as [|y s].
  - cbn [commas String.length]. cbn. rewrite Nx. exists (String x ""), []. cbn. split; [reflexivity|]. split; [reflexivity|intros q []].
  - destruct IH as (p & ps & S & L & Q); [exact Ns|discriminate|].
    remember (String y s) as s' eqn:Es.
    assert (Ln : (1 <= String.length s')%nat) by (rewrite Es; cbn; lia).
    replace (String.length (String x s') - 1)%nat with (String.length s') by (cbn; lia).
    destruct (Nat.eqb_spec (Nat.modulo (String.length s') 3) 0) as [Z0|Z0].
    + replace (Nat.eqb (String.length s') 0) with false by (symmetry; apply Nat.eqb_neq; lia). cbn [andb negb].
      exists (String x ""), (p :: ps). split.
      { cbn [split_on]. rewrite Nx, Ascii.eqb_refl, S. reflexivity. }
      split; [rewrite Z0; reflexivity|]. intros q [<-|I]; [|apply Q; exact I]. rewrite L.
      assert (D := Nat.div_mod (String.length s') 3). assert (D' := Nat.div_mod (String.length s' - 1) 3).
      assert (B := Nat.mod_upper_bound (String.length s' - 1) 3). lia.
    + cbn [andb]. exists (String x p), ps. split.
      { cbn [split_on]. rewrite Nx, S. reflexivity. }
      split; [|exact Q]. cbn [String.length]. rewrite L. f_equal.
      assert (D := Nat.div_mod (String.length s') 3). assert (D' := Nat.div_mod (String.length s' - 1) 3).
      assert (B := Nat.mod_upper_bound (String.length s' - 1) 3). assert (B' := Nat.mod_upper_bound (String.length s') 3). lia.
Qed.
Theorem format_int_grouped n : 0 <= n -> grouped (format_int n).
Proof.
  intros L. unfold format_int. destruct (Z.ltb_spec n 0) as [X|_]; [lia|].
  destruct (commas_grouped (str_of_Z n)) as (p & ps & S & Lp & Q); [apply number_no_comma|apply number_nonempty|].
  exists p, ps. split; [exact S|]. split; [|exact Q]. rewrite Lp.
  assert (B := Nat.mod_upper_bound (String.length (str_of_Z n) - 1) 3). lia.
Qed.
Lemma cell_format n : cell_text (format_int n).
Proof.
  assert (C : forall m, cell_text (commas (str_of_Z m))).
  { intros m. destruct (cell_number m) as [A B]. split; intros I; apply commas_characters in I; destruct I as [I|I]; try discriminate I; contradiction. }
  unfold format_int. destruct (n <? 0); [|apply C]. apply cell_cons; [lit|apply C].
Qed.
Lemma cell_mev x t : mev x = Ok t -> cell_text t.
Proof.
  unfold mev. destruct (int_of_float (times_1e3 x)) as [n|e]; cbn [bind]; [|discriminate].
  intros E. injection E as <-. apply cell_format.
Qed.
Lemma cell_jp p : cell_text (render_jp p).
Proof.
  unfold render_jp.
  assert (S : cell_text (if Z.even (p_spin p) then str_of_Z (p_spin p / 2) else "\frac{" ++ str_of_Z (p_spin p) ++ "}{2}")).
  { destruct (Z.even (p_spin p)); [apply cell_number|]. rewrite !cell_app. split; [lit|]. split; [apply cell_number|lit]. }
  destruct (p_parity p) as [x|].
  - rewrite !cell_app. split; [exact S|]. split; [lit|]. destruct (x <? 0); lit.
  - rewrite !cell_app. split; [lit|exact S].
Qed.

(** ** Tables *)
Lemma mapM_In {A B} (f : A -> res B) l rs : mapM f l = Ok rs -> forall r, In r rs -> exists x, In x l /\ f x = Ok r.
Proof.
  revert rs. induction l as [|x l IH]; intros rs E; cbn [mapM] in E.
  - injection E as <-. intros r [].
  - destruct (f x) as [b|e] eqn:Ex; cbn [bind] in E; [|discriminate E].
    destruct (mapM f l) as [bs|e]; cbn [bind] in E; [|discriminate E]. injection E as <-.
    intros r [<-|I]; [exists x; split; [left; reflexivity|exact Ex]|].
    destruct (IH bs eq_refl r I) as (y & Iy & Ey). exists y. split; [right; exact Iy|exact Ey].
Qed.
Lemma particle_row_cells ri o r : cell_text (p_name (pobj_particle o)) -> cell_text (p_latex (pobj_particle o)) ->
  particle_row ri o = Ok r -> r <> [] /\ (forall s, In s r -> cell_text s) /\ length r = (if ri then 6 else 5)%nat.
Proof.
  intros N L E. unfold particle_row in E.
  destruct (mev (p_mass (pobj_particle o))) as [m|e] eqn:Em; cbn [bind] in E; [|discriminate E].
  destruct (mev (p_width (pobj_particle o))) as [w|e] eqn:Ew; cbn [bind] in E; [|discriminate E].
  injection E as <-.
  assert (B : forall s, In s ["`" ++ p_name (pobj_particle o) ++ "`"; "$" ++ p_latex (pobj_particle o) ++ "$";
    "$" ++ latex_particle false true (pobj_particle o) ++ "$"; m; w] -> cell_text s).
  { intros s [<-|[<-|[<-|[<-|[<-|[]]]]]].
    - rewrite !cell_app. split; [lit|]. split; [exact N|lit].
    - rewrite !cell_app. split; [lit|]. split; [exact L|lit].
    - rewrite !cell_app. split; [lit|]. split; [apply cell_jp|lit].
    - exact (cell_mev _ _ Em).
    - exact (cell_mev _ _ Ew). }
  destruct ri; (split; [discriminate|]); (split; [|reflexivity]); [|exact B].
  intros s [<-|I]; [|apply B; exact I]. destruct o; [lit|apply cell_number].
Qed.
Definition particle_header (ri : bool) : list string :=
  let names := ["name"; "LaTeX"; "$J^P$"; "mass (MeV)"; "width (MeV)"] in
  if ri then "index" :: names else names.
Lemma particle_header_cells ri s : In s (particle_header ri) -> cell_text s.
Proof. destruct ri; intros I; repeat (destruct I as [<-|I]; [lit|]); destruct I. Qed.
Theorem resonance_table_cells l t : resonance_table l = Ok t ->
  (forall o, In o l -> cell_text (p_name (pobj_particle o)) /\ cell_text (p_latex (pobj_particle o))) ->
  exists rows, mapM (particle_row (existsb is_state l)) l = Ok rows /\
    table_cells t = particle_header (existsb is_state l) :: map (fun _ => "---") (particle_header (existsb is_state l)) :: rows /\
    forall r, In r rows -> length r = length (particle_header (existsb is_state l)).
Proof.
  intros E P. unfold resonance_table in E. fold (particle_header (existsb is_state l)) in E.
  apply add_rows_ok in E. destruct E as (rows & M & ->). exists rows. split; [exact M|].
  assert (C : forall r, In r rows -> r <> [] /\ (forall s, In s r -> cell_text s) /\ length r = (if existsb is_state l then 6 else 5)%nat).
  { intros r I. destruct (mapM_In _ _ _ M r I) as (o & Io & Eo). destruct (P o Io) as [N L].
    exact (particle_row_cells _ _ _ N L Eo). }
  split.
  - apply table_cells_table.
    + destruct (existsb is_state l); discriminate.
    + apply particle_header_cells.
    + intros r I. destruct (C r I) as (A & B & _). split; assumption.
  - intros r I. destruct (C r I) as (_ & _ & ->). destruct (existsb is_state l); reflexivity.
Qed.
Definition chain_header (dec prod : bool) : list string :=
  (["resonance"; "$J^P$"; "mass (MeV)"; "width (MeV)"]
    ++ (if dec then ["$L_\mathrm{dec}^\mathrm{min}$"] else [])
    ++ (if prod then ["$L_\mathrm{prod}^\mathrm{min}$"] else []))%list.
Lemma chain_header_cells a b s : In s (chain_header a b) -> cell_text s.
Proof. destruct a, b; intros I; repeat (destruct I as [<-|I]; [lit|]); destruct I. Qed.
Lemma chain_row_cells c r : chain_texts c -> chain_row c = Ok r ->
  r <> [] /\ (forall s, In s r -> cell_text s) /\
  length r = (4 + (if is_some (ch_outgoing_ls c) then 1 else 0) + (if is_some (ch_incoming_ls c) then 1 else 0))%nat.
Proof.
  intros (R & A & B) E. unfold chain_row in E. destruct (ch_decay_products c) as [c1 c2]. cbn [fst snd] in A, B.
  destruct (mev (p_mass (ch_resonance c))) as [m|e] eqn:Em; cbn [bind] in E; [|discriminate E].
  destruct (mev (p_width (ch_resonance c))) as [w|e] eqn:Ew; cbn [bind] in E; [|discriminate E].
  assert (X : forall s, In s ["$" ++ p_latex (ch_resonance c) ++ " \to " ++ latex_particle false false c1 ++ " " ++
                  latex_particle false false c2 ++ "$";
                "$" ++ latex_particle false true (ch_resonance c) ++ "$"; m; w] -> cell_text s).
  { intros s [<-|[<-|[<-|[<-|[]]]]].
    - rewrite !cell_app. split; [lit|]. split; [exact R|]. split; [lit|]. split; [exact A|]. split; [lit|]. split; [exact B|lit].
    - rewrite !cell_app. split; [lit|]. split; [apply cell_jp|lit].
    - exact (cell_mev _ _ Em).
    - exact (cell_mev _ _ Ew). }
  remember ["$" ++ p_latex (ch_resonance c) ++ " \to " ++ latex_particle false false c1 ++ " " ++
                  latex_particle false false c2 ++ "$";
                "$" ++ latex_particle false true (ch_resonance c) ++ "$"; m; w] as it eqn:Eit.
  assert (L : length it = 4%nat) by (rewrite Eit; reflexivity).
  injection E as <-. split; [destruct it; [discriminate L|discriminate]|]. split.
  - intros s I. apply in_app_iff in I. destruct I as [I|I]; [apply X; exact I|].
    apply in_app_iff in I. destruct I as [I|I].
    + destruct (ch_outgoing_ls c); [destruct I as [<-|[]]; apply cell_number|destruct I].
    + destruct (ch_incoming_ls c); [destruct I as [<-|[]]; apply cell_number|destruct I].
  - rewrite !app_length, L. destruct (ch_outgoing_ls c), (ch_incoming_ls c); reflexivity.
Qed.
Definition any_dec (l : list chain) := existsb (fun c => is_some (ch_outgoing_ls c)) l.
Definition any_prod (l : list chain) := existsb (fun c => is_some (ch_incoming_ls c)) l.
Theorem decay_table_cells l t : decay_table l = Ok t -> (forall c, In c l -> chain_texts c) ->
  exists rows, mapM chain_row l = Ok rows /\
    table_cells t = chain_header (any_dec l) (any_prod l) :: map (fun _ => "---") (chain_header (any_dec l) (any_prod l)) :: rows /\
    forall r, In r rows -> exists c, In c l /\ chain_row c = Ok r /\
      length r = (4 + (if is_some (ch_outgoing_ls c) then 1 else 0) + (if is_some (ch_incoming_ls c) then 1 else 0))%nat.
Proof.
  intros E P. unfold decay_table in E. fold (any_dec l) (any_prod l) in E.
  fold (chain_header (any_dec l) (any_prod l)) in E.
  apply add_rows_ok in E. destruct E as (rows & M & ->). exists rows. split; [exact M|].
  assert (C : forall r, In r rows -> exists c, In c l /\ chain_row c = Ok r /\ r <> [] /\ (forall s, In s r -> cell_text s) /\
      length r = (4 + (if is_some (ch_outgoing_ls c) then 1 else 0) + (if is_some (ch_incoming_ls c) then 1 else 0))%nat).
  { intros r I. destruct (mapM_In _ _ _ M r I) as (c & Ic & Ec). exists c. split; [exact Ic|]. split; [exact Ec|].
    exact (chain_row_cells c r (P c Ic) Ec). }
  split.
  - apply table_cells_table.
    + discriminate.
    + apply chain_header_cells.
    + intros r I. destruct (C r I) as (c & _ & _ & A & B & _). split; assumption.
  - intros r I. destruct (C r I) as (c & Ic & Ec & _ & _ & L). exists c. split; [exact Ic|]. split; [exact Ec|exact L].
Qed.
