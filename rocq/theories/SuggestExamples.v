(** C123 for docs/Lc2ppiK.json, as in /repo/tests/io_serialization/test_format.py:25-34 *)
From Coq Require Import String Ascii ZArith List Arith Lia.
From Verif Require Import Prelude SerFormat Difflib SpecSuggest LcModel.
Import ListNotations.
Local Open Scope nat_scope.
Local Open Scope list_scope.
Lemma c123_example : lists_functions (map fd_name lc_functions) lc_model /\ plain "BlattWeiskopf" /\
  get_function_definition "BlattWeiskopf" lc_model = Err KeyError /\
  missing_function_message "BlattWeiskopf" (map fd_name lc_functions) = Ok (missing_text "'BlattWeiskopf'"
    ["BlattWeisskopf_b_decay_l1"; "BlattWeisskopf_resonance_l1"; "BlattWeisskopf_resonance_l2"]%string).
Proof.
  split; [|split; [|split; vm_compute; reflexivity]].
  - split.
    + assert (E : nodup string_dec (map fd_name lc_functions) = map fd_name lc_functions) by (vm_compute; reflexivity).
      rewrite <- E. apply NoDup_nodup.
    + intros n. rewrite in_map_iff. split; intros (f & P & Q); exists f; auto.
  - intros c I. vm_compute in I.
    repeat (destruct I as [<-|I]; [split; [vm_compute; lia|split; [vm_compute; lia|split; discriminate]]|]). destruct I.
Qed.
(** The letter a, a single quote, a line break and a delete character *)
Definition odd_name : string := String "a" (String "'" (String "010" (String "127" EmptyString))).
Lemma c123_literal : missing_function_message odd_name [] = Ok (missing_text """a'\n\x7f""" []).
Proof. reflexivity. Qed.
