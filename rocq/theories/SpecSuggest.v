(** Vocabulary for C123: similar texts *)
From Coq Require Import String Ascii List Arith.
From Verif Require Import SerFormat.
Import ListNotations.

(** The elements of the first list are elements of the second, in the same order *)
Inductive subsequence {A : Type} : list A -> list A -> Prop :=
| sub_nil l : subsequence [] l
| sub_take x l l' : subsequence l l' -> subsequence (x :: l) (x :: l')
| sub_skip x l l' : subsequence l l' -> subsequence l (x :: l').
(** At least 60 % of the characters of two texts are part of one common subsequence *)
Definition similar (x y : string) : Prop :=
  exists c, subsequence c (list_ascii_of_string x) /\ subsequence c (list_ascii_of_string y) /\
    3 * (String.length x + String.length y) <= 10 * List.length c.
(** One text is a part of the other *)
Definition part_of (x y : string) : Prop := exists u v, y = (u ++ x ++ v)%string.
(** The list has the names of all functions of a model, once each, in any order *)
Definition lists_functions (names : list string) (m : model_def) : Prop :=
  NoDup names /\ forall n, In n names <-> exists f, In f (md_functions m) /\ fd_name f = n.
(** The text of the exception, with the given literal for the name and the given suggestions *)
Definition missing_text (lit : string) (suggestions : list string) : string :=
  ("Could not find function with name " ++ lit ++ "." ++
   match suggestions with [] => "" | _ => " Did you mean any of these? " ++ String.concat ", " suggestions end)%string.
(** Characters that Python prints as they are between single quotes *)
Definition plain (name : string) : Prop := forall c, In c (list_ascii_of_string name) ->
  32 <= nat_of_ascii c /\ nat_of_ascii c < 127 /\ c <> "'"%char /\ c <> "\"%char.

(** ** Literals of Python *)
Definition printable (c : ascii) : Prop :=
  (32 <= nat_of_ascii c /\ nat_of_ascii c < 127) \/ (160 < nat_of_ascii c /\ nat_of_ascii c <> 173).
(** Hexadecimal digits, in lower case *)
Definition hex_value (c : ascii) (n : nat) : Prop := nth_error (list_ascii_of_string "0123456789abcdef") n = Some c.
(** What Python reads from the characters after an opening quote [q], up to the closing one *)
Inductive reads (q : ascii) : list ascii -> list ascii -> Prop :=
| reads_end : reads q [q] []
| reads_plain c l v : printable c -> c <> q -> c <> "\"%char -> reads q l v -> reads q (c :: l) (c :: v)
| reads_escaped c l v : c = q \/ c = "\"%char -> reads q l v -> reads q ("\"%char :: c :: l) (c :: v)
| reads_tab l v : reads q l v -> reads q ("\"%char :: "t"%char :: l) ("009"%char :: v)
| reads_newline l v : reads q l v -> reads q ("\"%char :: "n"%char :: l) ("010"%char :: v)
| reads_return l v : reads q l v -> reads q ("\"%char :: "r"%char :: l) ("013"%char :: v)
| reads_hex a b x y l v : hex_value a x -> hex_value b y -> reads q l v ->
    reads q ("\"%char :: "x"%char :: a :: b :: l) (ascii_of_nat (16 * x + y) :: v).
(** A literal for a text, in single quotes unless the text has single quotes and no double quotes *)
Definition literal (lit name : string) : Prop :=
  let has c := In c (list_ascii_of_string name) in
  exists q l, list_ascii_of_string lit = q :: l /\ reads q l (list_ascii_of_string name) /\
    ((q = """"%char /\ has "'"%char /\ ~ has """"%char) \/ (q = "'"%char /\ (has "'"%char -> has """"%char))).
