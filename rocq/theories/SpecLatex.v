(** Vocabulary for the LaTeX of lineshapes and of defined expressions: the texts written out, and balanced braces. *)
From Coq Require Import String Ascii List.
From Verif Require Import SpecIO.
Import ListNotations.
Local Open Scope string_scope.

(** Reading a LaTeX text character by character: the number of open groups, and whether the last character was a backslash that
    escapes the next one.  [None] if a group is closed that was not opened. *)
Fixpoint groups (text : string) (depth : nat) (escaped : bool) : option (nat * bool) :=
  match text with
  | EmptyString => Some (depth, escaped)
  | String c rest =>
      if escaped then groups rest depth false
      else if Ascii.eqb c "\" then groups rest depth true
      else if Ascii.eqb c "{" then groups rest (S depth) false
      else if Ascii.eqb c "}" then
        match depth with
        | O => None
        | S depth => groups rest depth false
        end
      else groups rest depth false
  end.
Definition balanced (text : string) : Prop := groups text 0 false = Some (0, false).

(** Texts separated by commas *)
Fixpoint comma_list (texts : list string) : string :=
  match texts with
  | [] => ""
  | [t] => t
  | t :: ts => t ++ ", " ++ comma_list ts
  end.

(** A text without newlines *)
Definition one_line (text : string) : Prop := ~ In "010"%char (characters text).

(** A row of an array with three columns, of which the middle one is an equals sign *)
Definition array_row (lhs rhs : string) : string := "  " ++ lhs ++ " &=& " ++ rhs ++ " \\".
