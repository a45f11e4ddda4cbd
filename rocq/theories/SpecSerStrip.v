(** Specification vocabulary for C58: texts with blanks around them *)
From Coq Require Import String Ascii List.
Import ListNotations.
Local Open Scope string_scope.

(** Tab, line feed, vertical tab, form feed, carriage return, the four separators 28 to 31 and the space *)
Definition blank (c : ascii) : Prop := In c ["009"; "010"; "011"; "012"; "013"; "028"; "029"; "030"; "031"; " "]%char.
Inductive blanks : string -> Prop :=
| blanks_none : blanks ""
| blanks_cons c s : blank c -> blanks s -> blanks (String c s).
(** [t] is [u] with blanks before and after it. *)
Definition padded (u t : string) : Prop := exists a b, t = a ++ u ++ b /\ blanks a /\ blanks b.
