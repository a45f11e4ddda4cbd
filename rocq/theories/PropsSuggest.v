(** Property C123: the suggestions for a missing function.
    Specification vocabulary: SpecSuggest.v; [ratio] is the similarity of Python's difflib (Difflib.v) *)
From Coq Require Import String Ascii ZArith QArith Qcanon List Arith Sorted.
From Verif Require Import Prelude SerFormat Difflib SpecSuggest SuggestProofs SuggestExamples LcModel.
Import ListNotations.
Local Open Scope nat_scope.
Local Open Scope list_scope.

(** ** C123 *)
Theorem C123_text (name : string) (m : model_def) (names : list string) : lists_functions names m ->
  exists lit suggestions, missing_function_message name names = Ok (missing_text lit suggestions) /\
    literal lit name /\ (plain name -> lit = ("'" ++ name ++ "'")%string) /\
    length suggestions <= 3 /\ StronglySorted (fun x y => String.ltb x y = true) suggestions /\
    (forall x, In x suggestions -> (exists f, In f (md_functions m) /\ fd_name f = x) /\ similar x name) /\
    (forall f, In f (md_functions m) -> String.length name < 200 ->
       (part_of name (fd_name f) /\ 3 * String.length (fd_name f) <= 7 * String.length name) \/
       (part_of (fd_name f) name /\ 3 * String.length name <= 7 * String.length (fd_name f)) ->
       In (fd_name f) suggestions \/ length suggestions = 3) /\
    (forall x f q q', In x suggestions -> In f (md_functions m) -> ~ In (fd_name f) suggestions ->
       ratio (list_ascii_of_string x) (list_ascii_of_string name) = Ok q ->
       ratio (list_ascii_of_string (fd_name f)) (list_ascii_of_string name) = Ok q' -> (q' <= q)%Qc).
Proof. exact (c123_text name m names). Qed.
Print Assumptions C123_text.
Example C123_example : lists_functions (map fd_name lc_functions) lc_model /\ plain "BlattWeiskopf" /\
  get_function_definition "BlattWeiskopf" lc_model = Err KeyError /\
  missing_function_message "BlattWeiskopf" (map fd_name lc_functions) = Ok (missing_text "'BlattWeiskopf'"
    ["BlattWeisskopf_b_decay_l1"; "BlattWeisskopf_resonance_l1"; "BlattWeisskopf_resonance_l2"]%string).
Proof. exact c123_example. Qed.
(** A name with the letter a, a single quote, a line break and a delete character *)
Example C123_literal_example : missing_function_message odd_name [] = Ok (missing_text """a'\n\x7f""" []).
Proof. exact c123_literal. Qed.

(** The text does not depend on the order of the functions, nor on the order of the set of their names. *)
Theorem C123_order (name : string) (m m' : model_def) (names names' : list string) :
  lists_functions names m -> lists_functions names' m' ->
  (forall n, (exists f, In f (md_functions m) /\ fd_name f = n) <-> (exists f, In f (md_functions m') /\ fd_name f = n)) ->
  missing_function_message name names = missing_function_message name names'.
Proof. exact (c123_order name m m' names names'). Qed.
Print Assumptions C123_order.
