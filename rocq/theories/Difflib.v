(** Model of the text of the KeyError of [get_function_definition], /repo/src/ampform_dpd/io/serialization/format.py:144-158,
    and of what it uses from Python's standard library: [difflib.get_close_matches], [repr] of a text.
    A text is a sequence of characters with codes below 256. *)
From Coq Require Import String Ascii ZArith QArith Qcanon List Bool Arith.
From Verif Require Import Prelude SerFormat.
Import ListNotations.
Local Open Scope string_scope.
Local Open Scope list_scope.

(** ** difflib.SequenceMatcher with its default arguments: [isjunk=None], [autojunk=True] *)
Section SequenceMatcher.
  Context {A : Type} `{EqDec A}.
  (** [SequenceMatcher.__chain_b]: the positions of an element in [b]; none for a "popular" element of a long [b].
      There is no junk. *)
  Definition positions (b : list A) (elt : A) : list nat :=
    filter (fun j => match nth_error b j with Some x => eqb x elt | None => false end) (seq 0 (length b)).
  Definition popular (b : list A) (elt : A) : bool :=
    ((200 <=? length b) && (length b / 100 + 1 <? length (positions b elt)))%nat.
  Definition b2j (b : list A) (elt : A) : list nat := if popular b elt then [] else positions b elt.
  (** A match: [a[i:i+k] == b[j:j+k]] *)
  Record block := Block { bl_i : nat; bl_j : nat; bl_k : nat }.
  (** [j2len.get(j - 1, 0)] *)
  Definition previous (j2len : dict nat nat) (j : nat) : nat :=
    match j with O => 0%nat | S j' => match dget j' j2len with Some n => n | None => 0%nat end end.
  (** The loop [for j in b2j.get(a[i], nothing)] of [find_longest_match] *)
  Fixpoint inner_loop (blo bhi i : nat) (j2len : dict nat nat) (js : list nat) (new : dict nat nat) (best : block)
    : dict nat nat * block :=
    match js with
    | [] => (new, best)
    | j :: js =>
        if (j <? blo)%nat then inner_loop blo bhi i j2len js new best
        else if (bhi <=? j)%nat then (new, best)
        else
          let k := (previous j2len j + 1)%nat in
          inner_loop blo bhi i j2len js (dset j k new)
            (if (bl_k best <? k)%nat then Block (i + 1 - k) (j + 1 - k) k else best)
    end.
  (** The loop [for i in range(alo, ahi)] *)
  Fixpoint outer_loop (a b : list A) (blo bhi : nat) (is : list nat) (j2len : dict nat nat) (best : block) : block :=
    match is with
    | [] => best
    | i :: is =>
        let r := inner_loop blo bhi i j2len (match nth_error a i with Some x => b2j b x | None => [] end) [] best in
        outer_loop a b blo bhi is (fst r) (snd r)
    end.
  Definition same_at (a b : list A) (i j : nat) : bool :=
    match nth_error a i, nth_error b j with Some x, Some y => eqb x y | _, _ => false end.
  (** The two loops that extend the match; [n] bounds the number of steps *)
  Fixpoint extend_left (a b : list A) (alo blo : nat) (n : nat) (m : block) : block :=
    match n with
    | O => m
    | S n =>
        if ((alo <? bl_i m) && (blo <? bl_j m) && same_at a b (bl_i m - 1) (bl_j m - 1))%nat
        then extend_left a b alo blo n (Block (bl_i m - 1) (bl_j m - 1) (bl_k m + 1)) else m
    end.
  Fixpoint extend_right (a b : list A) (ahi bhi : nat) (n : nat) (m : block) : block :=
    match n with
    | O => m
    | S n =>
        if ((bl_i m + bl_k m <? ahi) && (bl_j m + bl_k m <? bhi) && same_at a b (bl_i m + bl_k m) (bl_j m + bl_k m))%nat
        then extend_right a b ahi bhi n (Block (bl_i m) (bl_j m) (bl_k m + 1)) else m
    end.
  (** [find_longest_match]; the last two loops only apply to junk *)
  Definition find_longest_match (a b : list A) (alo ahi blo bhi : nat) : block :=
    extend_right a b ahi bhi (length a) (extend_left a b alo blo (length a)
      (outer_loop a b blo bhi (seq alo (ahi - alo)) [] (Block alo blo 0))).
  (** [get_matching_blocks] and [ratio]: the sum of the sizes of the matches, which is not changed by sorting them
      and merging adjacent ones. The list [queue] has its last element first. *)
  Fixpoint matches_loop (a b : list A) (fuel : nat) (queue : list (nat * nat * nat * nat)) (sum : nat) : res nat :=
    match queue with
    | [] => Ok sum
    | (alo, ahi, blo, bhi) :: queue =>
        match fuel with
        | O => Err OutOfFuel
        | S fuel =>
            let x := find_longest_match a b alo ahi blo bhi in
            let i := bl_i x in let j := bl_j x in let k := bl_k x in
            if (k =? 0)%nat then matches_loop a b fuel queue sum
            else
              let queue := if ((alo <? i) && (blo <? j))%nat then (alo, i, blo, j) :: queue else queue in
              let queue := if ((i + k <? ahi) && (j + k <? bhi))%nat then (i + k, ahi, j + k, bhi)%nat :: queue else queue in
              matches_loop a b fuel queue (sum + k)
        end
    end.
  Definition matches (a b : list A) : res nat :=
    matches_loop a b (2 * length a + 2) [(0, length a, 0, length b)%nat] 0.
  (** [_calculate_ratio], in exact arithmetic. Two different values with less than 2^26 characters differ by more than
      the rounding of floating point numbers, as does a value different from the cutoff 0.6. *)
  Definition calculate_ratio (matches length : nat) : Qc :=
    match length with
    | O => 1%Qc
    | S n => Q2Qc (Z.of_nat (2 * matches) # Pos.of_succ_nat n)
    end.
  Definition ratio (a b : list A) : res Qc :=
    let* m := matches a b in Ok (calculate_ratio m (length a + length b)).
  (** [quick_ratio]: [avail] starts as [fullbcount] *)
  Fixpoint quick_loop (a : list A) (avail : A -> Z) : nat :=
    match a with
    | [] => 0
    | x :: a =>
        let numb := avail x in
        ((if (0 <? numb)%Z then 1 else 0) + quick_loop a (fun y => if eqb y x then (numb - 1)%Z else avail y))%nat
    end.
  Definition fullbcount (b : list A) (x : A) : Z := Z.of_nat (length (filter (fun y => eqb y x) b)).
  Definition quick_ratio (a b : list A) : Qc := calculate_ratio (quick_loop a (fullbcount b)) (length a + length b).
  (** [real_quick_ratio] *)
  Definition real_quick_ratio (a b : list A) : Qc :=
    calculate_ratio (Nat.min (length a) (length b)) (length a + length b).
End SequenceMatcher.

Global Instance EqDec_ascii : EqDec ascii := ascii_dec.
Global Instance Cmp_score : Cmp Qc := fun a b => Ok (Qccompare a b).
(** Python [<=] of the ratio and the cutoff in difflib. *)
Definition Qc_leb (a b : Qc) : bool := match Qccompare a b with Gt => false | _ => true end.
(** Python difflib: the default [cutoff=0.6], here the exact number 3/5. *)
Definition cutoff : Qc := Q2Qc (3 # 5).

(** The loop of [difflib.get_close_matches(word, possibilities)], with [n=3] and [cutoff=0.6] *)
(** Python difflib, used at io/serialization/format.py:155. *)
Fixpoint scores (word : string) (possibilities : list string) : res (list (Qc * string)) :=
  match possibilities with
  | [] => Ok []
  | x :: rest =>
      let a := list_ascii_of_string x in
      let b := list_ascii_of_string word in
      if Qc_leb cutoff (real_quick_ratio a b) && Qc_leb cutoff (quick_ratio a b) then
        let* r := ratio a b in
        let* others := scores word rest in
        Ok (if Qc_leb cutoff r then (r, x) :: others else others)
      else scores word rest
  end.
(** [heapq.nlargest(3, result)] gives [sorted(result, reverse=True)[:3]] *)
(** Python [difflib.get_close_matches], used at io/serialization/format.py:155. *)
Definition get_close_matches (word : string) (possibilities : list string) : res (list string) :=
  let* result := scores word possibilities in
  let* result := sorted result in
  Ok (map snd (firstn 3 (rev result))).

(** ** repr of a text *)
(** Python [repr] of str: hexadecimal digits of escapes. *)
Definition hex_digit (n : nat) : ascii := ascii_of_nat (if (n <? 10)%nat then 48 + n else 87 + n).
(** Python [repr] of str. *)
Definition backslash : ascii := "092".
(** Python [repr] of str. *)
Definition single_quote : ascii := "039".
(** Python [repr] of str. *)
Definition double_quote : ascii := "034".
(** Characters that [str.isprintable] excludes *)
(** Python [str.isprintable], restricted to the characters below 256. *)
Definition not_printable (n : nat) : bool :=
  ((n <? 32) || ((127 <=? n) && (n <=? 160)) || (n =? 173))%nat.
(** Python [repr] of str: one character. *)
Definition repr_char (quote c : ascii) : string :=
  let n := nat_of_ascii c in
  if Ascii.eqb c quote || Ascii.eqb c backslash then String backslash (String c EmptyString)
  else if (n =? 9)%nat then String backslash "t" else if (n =? 10)%nat then String backslash "n"
  else if (n =? 13)%nat then String backslash "r"
  else if not_printable n then String backslash (String "x" (String (hex_digit (n / 16)) (String (hex_digit (n mod 16)) EmptyString)))
  else String c EmptyString.
(** Python [repr] of str, as in [{function_name!r}] at io/serialization/format.py:154. *)
Definition repr_text (s : string) : string :=
  let cs := list_ascii_of_string s in
  let quote := if existsb (Ascii.eqb single_quote) cs && negb (existsb (Ascii.eqb double_quote) cs)
               then double_quote else single_quote in
  (String quote (sjoin "" (map (repr_char quote) cs)) ++ String quote EmptyString)%string.

(** format.py:148-158: the text of the exception. [existing_names] is a set of texts: the argument lists its elements
    in the order of the iteration over the set, which Python does not define. *)
Definition missing_function_message (function_name : string) (existing_names : list string) : res string :=
  let msg := ("Could not find function with name " ++ repr_text function_name ++ ".")%string in
  let* candidates := get_close_matches function_name existing_names in
  match candidates with
  | [] => Ok msg
  | _ => let* names := sorted candidates in
         Ok (msg ++ " Did you mean any of these? " ++ sjoin ", " names)%string
  end.
